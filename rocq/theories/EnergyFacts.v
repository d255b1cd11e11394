(** Lemmas for C73, C74. *)
From Coq Require Import Reals List Arith Lia Bool.
From Verif Require Import Num Arr ArrFacts Fe Problem SpecAssembly BatchFacts ProblemFacts AssemblyFacts DerivFacts FeFacts SpecWeak KernelFacts SpecEnergy.
Import ListNotations.

Section Work.
  Context {K : ops} (KR : ring_laws K) {V : Type}.
  Open Scope num_scope.
  Let Kth : ring_theory (@zero K) one add mul sub opp eq := KR.
  Add Ring KringE : Kth.
  Variables (sqrtK : K -> K) (p : problem K V) (f : fe K) (P sol : list (list K)).
  Hypothesis WF : wf_problem p.
  Hypothesis NC : (0 < p_num_cells p)%nat.
  Hypothesis STD : standard_problem p f.
  Hypothesis SOL : sol_ok p [sol].
  Hypothesis IVS : ivs_ok p.
  Hypothesis MAPS : maps_ok (vec f) (dim f) (maps p).

  Lemma field_at v c a k : sol_ok p [v] -> (c < p_num_cells p)%nat -> (a < num_nodes f)%nat ->
    get2 0 v (cell_node f c a) k = cell_sol_at f v c a k.
  Proof.
    intros SV Hc Ha. unfold get2, cell_sol_at. rewrite gather_in; auto.
    rewrite (sol_len p f v NC STD SV). now apply (node_ok p f WF STD).
  Qed.

  Lemma any_work (v res : list (list K)) : sol_ok p [v] -> compute_residual sqrtK p [P] [sol] = Ok [res] ->
    work (length (points f)) (vec f) v res =
    over_cells p f P (fun c q => dot2 (vec f) (dim f) (stress p f P sol c q) (sol_to_grad P f v c q)
                               + dot1 (vec f) (source p f P sol c q) (convert_from_dof_to_quad f v c q))
    + over_faces sqrtK p f P (fun s e c fc q => dot1 (vec f) (traction p f P sol s e q) (convert_from_dof_to_face_quad f v c fc q)).
  Proof.
    intros SV E. unfold work. rewrite (sum_n_swap' KR).
    rewrite (sum_n_ext (vec f) _ (fun k =>
      sum_n (p_num_cells p) (fun c => sum_n (num_quads f) (fun q =>
       (sum_n (dim f) (fun j => stress p f P sol c q k j * sol_to_grad P f v c q k j)
        + source p f P sol c q k * convert_from_dof_to_quad f v c q k) * get_JxW P f c q)) +
      sum_n (length (boundary_inds_list p)) (fun s => sum_n (num_sel_faces p s) (fun e =>
        let c := fst (nth e (nth s (boundary_inds_list p) []) (0%nat, 0%nat)) in
        let fc := snd (nth e (nth s (boundary_inds_list p) []) (0%nat, 0%nat)) in
        sum_n (num_face_quads f) (fun q => traction p f P sol s e q k * convert_from_dof_to_face_quad f v c fc q k * nanson_scale sqrtK P f c fc q))))).
    2:{ intros k Hk. rewrite (tested KR sqrtK p f P sol WF NC STD SOL IVS MAPS res (fun n => get2 0 v n k) k Hk E). f_equal.
        - apply sum_n_ext. intros c Hc. rewrite (volume_tested KR p f P sol c k). apply sum_n_ext. intros q Hq. f_equal. f_equal.
          + apply sum_n_ext. intros j Hj. f_equal. apply sum_n_ext. intros a Ha. f_equal. now apply field_at.
          + f_equal. apply sum_n_ext. intros a Ha. f_equal. now apply field_at.
        - apply sum_n_ext. intros s Hs. apply sum_n_ext. intros e He. rewrite (surface_tested KR sqrtK p f P sol s e k).
          cbv zeta. apply sum_n_ext. intros q Hq. f_equal. f_equal. apply sum_n_ext. intros a Ha. f_equal. apply field_at; auto.
          now apply (face_cell_ok p WF). }
    rewrite (FeFacts.sum_n_add KR). f_equal.
    - rewrite (sum_n_swap' KR). apply sum_n_ext. intros c Hc. rewrite (sum_n_swap' KR). apply sum_n_ext. intros q Hq.
      rewrite (FeFacts.sum_n_mul_r' KR), (FeFacts.sum_n_add KR). reflexivity.
    - rewrite (sum_n_swap' KR). apply sum_n_ext. intros s Hs. rewrite (sum_n_swap' KR). apply sum_n_ext. intros e He. cbv zeta.
      rewrite (sum_n_swap' KR). apply sum_n_ext. intros q Hq. rewrite (FeFacts.sum_n_mul_r' KR). reflexivity.
  Qed.

  (** fields along a line *)
  Lemma along_line3 (v : list (list K)) t : [along sol v t] = line3 [sol] [v] t.
  Proof. reflexivity. Qed.
  Lemma along_ok (v : list (list K)) t : sol_ok p [v] -> sol_ok p [along sol v t].
  Proof. intros SV. rewrite along_line3. now apply line_ok. Qed.
  Lemma nth_along (v : list (list K)) t n k : sol_ok p [v] -> (n < length (points f))%nat -> (k < vec f)%nat ->
    get2 0 (along sol v t) n k = get2 0 sol n k + t * get2 0 v n k.
  Proof.
    intros SV Hn Hk. pose proof (get_line3 [sol] [v] t (global_shapes p) 0 n k) as G.
    assert (GS : global_shapes p = [(length (points f), vec f)]) by (unfold global_shapes; now rewrite (fes_f p f STD)).
    cbn [nth] in G. rewrite <- along_line3 in G. cbn [nth] in G. apply G.
    - apply sol_shapes_ok; auto.
    - apply sol_shapes_ok; auto.
    - rewrite GS. repeat split; cbn; auto.
  Qed.
  Lemma cell_sol_along v t c a k : sol_ok p [v] -> (c < p_num_cells p)%nat -> (a < num_nodes f)%nat -> (k < vec f)%nat ->
    cell_sol_at f (along sol v t) c a k = cell_sol_at f sol c a k + t * cell_sol_at f v c a k.
  Proof.
    intros SV Hc Ha Hk. rewrite <- !field_at; auto using along_ok. apply nth_along; auto. now apply (node_ok p f WF STD).
  Qed.
  Lemma grad_along v t c q k j : sol_ok p [v] -> (c < p_num_cells p)%nat -> (k < vec f)%nat ->
    sol_to_grad P f (along sol v t) c q k j = sol_to_grad P f sol c q k j + t * sol_to_grad P f v c q k j.
  Proof.
    intros SV Hc Hk. unfold sol_to_grad. rewrite <- (FeFacts.sum_n_mul_l KR), <- (FeFacts.sum_n_add KR). apply sum_n_ext.
    intros a Ha. rewrite cell_sol_along by auto. ring.
  Qed.
  Lemma value_along v t c q k : sol_ok p [v] -> (c < p_num_cells p)%nat -> (k < vec f)%nat ->
    convert_from_dof_to_quad f (along sol v t) c q k = convert_from_dof_to_quad f sol c q k + t * convert_from_dof_to_quad f v c q k.
  Proof.
    intros SV Hc Hk. unfold convert_from_dof_to_quad. rewrite <- (FeFacts.sum_n_mul_l KR), <- (FeFacts.sum_n_add KR). apply sum_n_ext.
    intros a Ha. rewrite cell_sol_along by auto. ring.
  Qed.
  Lemma face_value_along v t c fc q k : sol_ok p [v] -> (c < p_num_cells p)%nat -> (k < vec f)%nat ->
    convert_from_dof_to_face_quad f (along sol v t) c fc q k
    = convert_from_dof_to_face_quad f sol c fc q k + t * convert_from_dof_to_face_quad f v c fc q k.
  Proof.
    intros SV Hc Hk. unfold convert_from_dof_to_face_quad. rewrite <- (FeFacts.sum_n_mul_l KR), <- (FeFacts.sum_n_add KR). apply sum_n_ext.
    intros a Ha. rewrite cell_sol_along by auto. ring.
  Qed.
End Work.

Section Energy.
  Let K := Rops.
  Let KR : ring_laws K := Rops_ring.
  Context {V : Type}.
  Variables (sqrtK : K -> K) (p : problem K V) (f : fe K) (P sol : list (list K)).
  Hypothesis WF : wf_problem p.
  Hypothesis NC : 0 < p_num_cells p.
  Hypothesis STD : standard_problem p f.
  Hypothesis SOL : sol_ok p [sol].
  Hypothesis IVS : ivs_ok p.
  Hypothesis MAPS : maps_ok (vec f) (dim f) (maps p).

  Lemma dlim_scale (g : R -> R) g' c x : derivable_pt_lim g x g' -> derivable_pt_lim (fun t => (g t * c)%R) x (g' * c)%R.
  Proof.
    intros H. apply (dlim_ext (fun t => (c * g t)%R)); [intros; ring|]. rewrite Rmult_comm.
    now apply (derivable_pt_lim_scal g c x g').
  Qed.
  Lemma dlim_cells (g : R -> nat -> nat -> K) g' : (forall c q, c < p_num_cells p -> q < num_quads f -> derivable_pt_lim (fun t => g t c q) 0 (g' c q)) ->
    derivable_pt_lim (fun t => over_cells p f P (g t)) 0 (over_cells p f P g').
  Proof.
    intros H. unfold over_cells. apply dlim_sum_n. intros c Hc. apply dlim_sum_n. intros q Hq.
    apply (dlim_scale (fun t => g t c q)). now apply H.
  Qed.
  Lemma dlim_faces (g : R -> nat -> nat -> nat -> nat -> nat -> K) g' :
    (forall s e q, s < length (boundary_inds_list p) -> e < num_sel_faces p s -> q < num_face_quads f ->
       let c := fst (nth e (nth s (boundary_inds_list p) []) (0, 0)) in let fc := snd (nth e (nth s (boundary_inds_list p) []) (0, 0)) in
       derivable_pt_lim (fun t => g t s e c fc q) 0 (g' s e c fc q)) ->
    derivable_pt_lim (fun t => over_faces sqrtK p f P (g t)) 0 (over_faces sqrtK p f P g').
  Proof.
    intros H. unfold over_faces. apply dlim_sum_n. intros s Hs. apply dlim_sum_n. intros e He. cbv zeta. apply dlim_sum_n. intros q Hq.
    apply (dlim_scale (fun t => g t s e (fst (nth e (nth s (boundary_inds_list p) []) (0, 0))) (snd (nth e (nth s (boundary_inds_list p) []) (0, 0))) q)).
    now apply H.
  Qed.

  Theorem energy_derivative (E : densities V) v res : densities_ok (vec f) (dim f) E -> derives_from p f P sol E -> sol_ok p [v] ->
    compute_residual sqrtK p [P] [sol] = Ok [res] ->
    derivable_pt_lim (fun t => total_energy sqrtK p f P E (along (K := K) sol v t)) 0 (work (K := K) (length (points f)) (vec f) v res).
  Proof.
    intros (EX1 & EX2 & EX3) (D1 & D2 & D3) SV CR.
    rewrite (any_work KR sqrtK p f P sol WF NC STD SOL IVS MAPS v res SV CR).
    unfold total_energy.
    apply (derivable_pt_lim_plus (fun t => over_cells (K := Rops) p f P _) (fun t => over_faces (K := Rops) sqrtK p f P _)).
    - apply dlim_cells. intros c q Hc Hq.
      apply (derivable_pt_lim_plus (fun t => stored E (sol_to_grad P f (along (K := K) sol v t) c q) (iv_at p c q))
               (fun t => load E (convert_from_dof_to_quad f (along (K := K) sol v t) c q) (get_physical_quad_points P f c q) (iv_at p c q))).
      + apply (dlim_ext (fun t => stored E (fun k j => sol_to_grad P f sol c q k j + t * sol_to_grad P f v c q k j)%R (iv_at p c q))).
        * intros t. apply EX1. intros k j Hk Hj. symmetry. now apply (grad_along KR p f P sol WF NC STD SOL).
        * apply (D1 c q Hc Hq (sol_to_grad P f v c q)).
      + apply (dlim_ext (fun t => load E (fun k => convert_from_dof_to_quad f sol c q k + t * convert_from_dof_to_quad f v c q k)%R
                                    (get_physical_quad_points P f c q) (iv_at p c q))).
        * intros t. apply EX2. intros k Hk. symmetry. now apply (value_along KR p f sol WF NC STD SOL).
        * apply (D2 c q Hc Hq (convert_from_dof_to_quad f v c q)).
    - apply dlim_faces. intros s e q Hs He Hq c fc.
      apply (dlim_ext (fun t => pull E s (fun k => convert_from_dof_to_face_quad f sol c fc q k + t * convert_from_dof_to_face_quad f v c fc q k)%R
                                    (get_physical_surface_quad_points P f c fc q) (iv_face_at p s e q))).
      + intros t. apply EX3. intros k Hk. symmetry. apply (face_value_along KR p f sol WF NC STD SOL); auto. now apply (face_cell_ok p WF).
      + apply (D3 s e q Hs He Hq (convert_from_dof_to_face_quad f v c fc q)).
  Qed.

  (** the derivative of the work of the residual in a fixed field w along v *)
  Lemma work_derivative (D : tangents) v w (res : R -> list (list K)) : tangents_of p f P sol D -> sol_ok p [v] -> sol_ok p [w] ->
    (forall t, compute_residual sqrtK p [P] [along (K := K) sol v t] = Ok [res t]) ->
    derivable_pt_lim (fun t => work (K := K) (length (points f)) (vec f) w (res t)) 0 (tangent_form sqrtK p f P D v w).
  Proof.
    intros (D1 & D2 & D3) SV SW CR.
    apply (dlim_ext (fun t =>
      (over_cells (K := K) p f P (fun c q => (dot2 (K := K) (vec f) (dim f) (stress p f P (along (K := K) sol v t) c q) (sol_to_grad P f w c q)
                               + dot1 (K := K) (vec f) (source p f P (along (K := K) sol v t) c q) (convert_from_dof_to_quad f w c q))%R)
      + over_faces (K := K) sqrtK p f P (fun s e c fc q => dot1 (K := K) (vec f) (traction p f P (along (K := K) sol v t) s e q) (convert_from_dof_to_face_quad f w c fc q)))%R)).
    { intros t. symmetry. apply (any_work KR sqrtK p f P (along (K := K) sol v t) WF NC STD (along_ok p sol SOL v t SV) IVS MAPS w (res t) SW (CR t)). }
    unfold tangent_form.
    apply (derivable_pt_lim_plus (fun t => over_cells (K := K) p f P _) (fun t => over_faces (K := K) sqrtK p f P _)).
    - apply dlim_cells. intros c q Hc Hq.
      apply (derivable_pt_lim_plus (fun t => dot2 (K := K) (vec f) (dim f) (stress p f P (along (K := K) sol v t) c q) (sol_to_grad P f w c q))
              (fun t => dot1 (K := K) (vec f) (source p f P (along (K := K) sol v t) c q) (convert_from_dof_to_quad f w c q))).
      + unfold dot2. apply dlim_sum_n. intros k Hk. apply dlim_sum_n. intros j Hj.
        apply (dlim_scale (fun t => stress p f P (along (K := K) sol v t) c q k j)). now apply D1.
      + unfold dot1. apply dlim_sum_n. intros k Hk. apply (dlim_scale (fun t => source p f P (along (K := K) sol v t) c q k)). now apply D2.
    - apply dlim_faces. intros s e q Hs He Hq c fc. unfold dot1. apply dlim_sum_n. intros k Hk.
      apply (dlim_scale (fun t => traction p f P (along (K := K) sol v t) s e q k)). now apply D3.
  Qed.
End Energy.

Lemma Rflip (a b c : R) : (a * b * c)%R = (c * a * b)%R.
Proof. ring. Qed.

Lemma Rones (a : R) : (1 * a * 1)%R = a.
Proof. ring. Qed.
Lemma Rzeros (a b : R) : (0 * a * b)%R = 0%R.
Proof. ring. Qed.

Section Matrix.
  Let K := Rops.
  Let KR : ring_laws K := Rops_ring.
  Context {V : Type}.
  Variable jvp : (list K -> list K) -> list K -> list K -> list K.
  Variables (sqrtK : K -> K) (p : problem K V) (f : fe K) (P sol : list (list K)) (kf : nat -> face_in K V -> list K).
  Hypothesis WF : wf_problem p.
  Hypothesis NC : 0 < p_num_cells p.
  Hypothesis STD : standard_problem p f.
  Hypothesis SOL : sol_ok p [sol].
  Hypothesis IVS : ivs_ok p.
  Hypothesis MAPS : maps_ok (vec f) (dim f) (maps p).
  Hypothesis KER : kernels_ok p kf.
  Hypothesis JC : forall c, c < p_num_cells p -> jvp_correct jvp (cell_fun p [P] [sol] c) (cell_values p [sol] c).
  Hypothesis JF : forall s i, s < length (boundary_inds_list p) -> i < num_sel_faces p s ->
    jvp_correct jvp (face_fun sqrtK p [P] [sol] kf s i) (cell_values p [sol] (face_cell p s i)).
  Notation N := (all_dofs (global_shapes p)).

  Lemma shapes_f : global_shapes p = [(length (points f), vec f)].
  Proof. unfold global_shapes. now rewrite (fes_f p f STD). Qed.
  Lemma ndofs : N = length (points f) * vec f.
  Proof. rewrite shapes_f. unfold all_dofs. cbn. lia. Qed.
  Lemma ravel1 (v : list (list K)) : ravel [v] = concat v.
  Proof. unfold ravel. cbn. apply app_nil_r. Qed.
  Lemma entry_at (v : list (list K)) n k : sol_ok p [v] -> n < length (points f) -> k < vec f ->
    nth (n * vec f + k) (concat v) (@zero K) = get2 (@zero K) v n k.
  Proof.
    intros SV Hn Hk. pose proof (nth_ravel_dof (@zero K) (global_shapes p) [v] 0 n k) as H. rewrite ravel1 in H. cbn [nth] in H.
    assert (VD : valid_dof (global_shapes p) 0 n k) by (rewrite shapes_f; repeat split; cbn; auto).
    assert (DN : dof_number (global_shapes p) 0 n k = n * vec f + k) by (rewrite shapes_f; reflexivity).
    rewrite DN in H. apply H; [exact (sol_shapes_ok p [v] SV)|exact VD].
  Qed.
  Lemma work_flat (v r : list (list K)) : sol_ok p [v] -> sol_ok p [r] ->
    work (K := K) (length (points f)) (vec f) v r = sum_n (K := K) N (fun g => (nth g (concat v) 0 * nth g (concat r) 0)%R).
  Proof.
    intros SV SR. rewrite ndofs, (sum_n_mul KR). unfold work. apply sum_n_ext. intros n Hn. apply sum_n_ext. intros k Hk.
    pose proof (entry_at v n k SV Hn Hk) as E1. pose proof (entry_at r n k SR Hn Hk) as E2. cbn [zero K Rops] in E1, E2. cbn [zero Rops].
    rewrite E1, E2. reflexivity.
  Qed.

  Lemma std_residual (s : list (list K)) : sol_ok p [s] -> exists r, compute_residual sqrtK p [P] [s] = Ok [r] /\ sol_ok p [r].
  Proof.
    intros S. destruct (residual_weak KR sqrtK p f P s WF NC STD S IVS MAPS) as (r & E & SH & _). exists r. split; auto.
    split; [now rewrite (fes_f p f STD)|]. intros v Hv. rewrite (fes_f p f STD) in Hv. cbn in Hv. assert (v = 0) as -> by lia.
    rewrite (fe_of_f p f STD). exact SH.
  Qed.

  Theorem matrix_form (D : tangents) v w r0 W : tangents_of p f P sol D -> sol_ok p [v] -> sol_ok p [w] ->
    newton_update jvp sqrtK p [P] [sol] = Ok (r0, W) ->
    quadratic_form p W v w = tangent_form sqrtK p f P D v w.
  Proof.
    intros TD SV SW NU.
    set (res := fun t => match compute_residual sqrtK p [P] [along (K := K) sol v t] with Ok [r] => r | _ => [] end).
    assert (RES : forall t, compute_residual sqrtK p [P] [along (K := K) sol v t] = Ok [res t] /\ sol_ok p [res t]).
    { intros t. destruct (std_residual (along (K := K) sol v t) (along_ok p sol SOL v t SV)) as (r & E & S). unfold res. now rewrite E. }
    pose proof (work_derivative sqrtK p f P sol WF NC STD SOL IVS MAPS D v w res TD SV SW (fun t => proj1 (RES t))) as H1.
    assert (H2 : derivable_pt_lim (fun t => work (K := K) (length (points f)) (vec f) w (res t)) 0 (quadratic_form p W v w)).
    { apply (dlim_ext (fun t => sum_n (K := K) N (fun g => (nth g (concat w) 0 * nth g (concat (res t)) 0)%R))).
      - intros t. symmetry. apply work_flat; auto. apply RES.
      - unfold quadratic_form. apply dlim_sum_n. intros g Hg.
        pose proof (residual_derivative jvp sqrtK p [P] [sol] [v] kf WF NC SOL SV IVS KER JC JF g (fun t => [res t]) r0 W Hg
                      (fun t => proj1 (RES t)) NU) as HD.
        rewrite ravel1 in HD.
        apply (dlim_ext (fun t => (nth g (concat (res t)) 0 * nth g (concat w) 0)%R)); [intros; ring|].
        match goal with |- derivable_pt_lim _ _ ?X => replace X with
          (sum_n (K := K) N (fun h => (coo_entry (K := K) (p_I p) (p_J p) W g h * nth h (concat v) 0)%R) * nth g (concat w) 0)%R end.
        + apply (dlim_scale (fun t => nth g (concat (res t)) 0%R)).
          apply (dlim_ext (fun t => nth g (ravel [res t]) (@zero K))); [intros t; now rewrite ravel1|exact HD].
        + transitivity (sum_n (K := K) N (fun h => ((coo_entry (K := K) (p_I p) (p_J p) W g h * nth h (concat v) 0) * nth g (concat w) 0)%R)).
          * symmetry. exact (FeFacts.sum_n_mul_r' KR N (nth g (concat w) 0%R) (fun h => (coo_entry (K := K) (p_I p) (p_J p) W g h * nth h (concat v) 0)%R)).
          * apply sum_n_ext. intros h Hh. exact (Rflip _ _ _). }
    exact (uniqueness_limite _ _ _ _ H2 H1).
  Qed.

  Definition unit_field (g : nat) : list (list K) := nth 0 (unravel (global_shapes p) (unit_vec N g)) [].
  Lemma unit_field_flat g : concat (unit_field g) = unit_vec (K := K) N g /\ sol_ok p [unit_field g].
  Proof.
    assert (L : length (unit_vec (K := K) N g) = total_size (global_shapes p)).
    { rewrite (all_dofs_total (global_shapes p)). unfold unit_vec. now rewrite map_length, seq_length. }
    pose proof (unravel_shapes (global_shapes p) (unit_vec (K := K) N g) L) as HS.
    pose proof (has_shapes_length _ _ HS) as HL.
    replace (length (global_shapes p)) with 1 in HL by (now rewrite shapes_f).
    unfold unit_field. pose proof (ravel_unravel (global_shapes p) (unit_vec (K := K) N g) L) as RU.
    revert HS HL RU. destruct (unravel (global_shapes p) (unit_vec N g)) as [|u [|? ?]]; intros HS HL RU; try discriminate. cbn [nth].
    split; [rewrite <- ravel1; exact RU|]. apply sol_ok_iff. exact HS.
  Qed.
  Lemma quad_unit W g h : g < N -> h < N -> quadratic_form p W (unit_field h) (unit_field g) = coo_entry (K := K) (p_I p) (p_J p) W g h.
  Proof.
    intros Hg Hh. unfold quadratic_form.
    pose proof (proj1 (unit_field_flat g) : @concat R (unit_field g) = _) as F1. pose proof (proj1 (unit_field_flat h) : @concat R (unit_field h) = _) as F2.
    cbn [car Rops] in *. rewrite F1, F2.
    assert (U : forall i j, j < N -> nth j (unit_vec (K := K) N i) 0%R = if (j =? i) then 1%R else 0%R).
    { intros i j Hj. unfold unit_vec. rewrite (nth_map_in _ _ _ 0) by (now rewrite seq_length). rewrite seq_nth by auto. cbn. now destruct (j =? i). }
    rewrite (sum_n_single KR _ g); auto.
    - rewrite (sum_n_single KR _ h); auto.
      + rewrite !U by auto. rewrite !Nat.eqb_refl. exact (Rones _).
      + intros j Hj Hne. rewrite (U h) by auto. apply Nat.eqb_neq in Hne. rewrite Hne. exact (Rmult_0_r _).
    - intros i Hi Hne. rewrite (U g) by auto. apply Nat.eqb_neq in Hne. rewrite Hne.
      apply (sum_n_zero_ext KR). intros j Hj. exact (Rzeros _ _).
  Qed.

  Lemma form_symmetric (D : tangents) v w : symmetric_tangents p f D -> tangent_form sqrtK p f P D v w = tangent_form sqrtK p f P D w v.
  Proof.
    intros (S1 & S2 & S3). unfold tangent_form, over_cells, over_faces. f_equal.
    - apply sum_n_ext. intros c Hc. apply sum_n_ext. intros q Hq. now rewrite S1, S2.
    - apply sum_n_ext. intros s Hs. apply sum_n_ext. intros e He. cbv zeta. apply sum_n_ext. intros q Hq. now rewrite S3.
  Qed.
  Theorem matrix_symmetric (D : tangents) r0 W : tangents_of p f P sol D -> symmetric_tangents p f D ->
    newton_update jvp sqrtK p [P] [sol] = Ok (r0, W) ->
    forall g h, g < N -> h < N -> coo_entry (K := K) (p_I p) (p_J p) W g h = coo_entry (K := K) (p_I p) (p_J p) W h g.
  Proof.
    intros TD SD NU g h Hg Hh. rewrite <- (quad_unit W g h), <- (quad_unit W h g) by auto.
    rewrite !(matrix_form D _ _ r0 W TD) by (auto; apply unit_field_flat). now apply form_symmetric.
  Qed.

  Lemma sum_n_nonneg n (g : nat -> R) : (forall i, (i < n)%nat -> 0 <= g i)%R -> (0 <= sum_n (K := K) n g)%R.
  Proof.
    induction n as [|n IH]; intros H; [apply Rle_refl|]. rewrite (sum_n_S KR). cbn. apply Rplus_le_le_0_compat; [apply IH; auto|apply H; auto].
  Qed.
  Theorem matrix_nonneg (D : tangents) r0 W : tangents_of p f P sol D -> nonnegative_tangents p f D ->
    (forall c q, (c < p_num_cells p)%nat -> (q < num_quads f)%nat -> 0 <= get_JxW P f c q)%R ->
    (forall s e q, (s < length (boundary_inds_list p))%nat -> (e < num_sel_faces p s)%nat -> (q < num_face_quads f)%nat ->
       0 <= nanson_scale sqrtK P f (fst (nth e (nth s (boundary_inds_list p) []) (0, 0)%nat)) (snd (nth e (nth s (boundary_inds_list p) []) (0, 0)%nat)) q)%R ->
    newton_update jvp sqrtK p [P] [sol] = Ok (r0, W) ->
    forall v, sol_ok p [v] -> (0 <= quadratic_form p W v v)%R.
  Proof.
    intros TD (S1 & S2 & S3) J1 J2 NU v SV. rewrite (matrix_form D v v r0 W TD SV SV NU). unfold tangent_form.
    apply Rplus_le_le_0_compat.
    - apply sum_n_nonneg. intros c Hc. apply sum_n_nonneg. intros q Hq. apply Rmult_le_pos; [|now apply J1].
      apply Rplus_le_le_0_compat; auto.
    - apply sum_n_nonneg. intros s Hs. apply sum_n_nonneg. intros e He. cbv zeta. apply sum_n_nonneg. intros q Hq.
      apply Rmult_le_pos; [|now apply J2]. apply S3.
  Qed.
End Matrix.
