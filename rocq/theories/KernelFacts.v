(** Proofs for C18, C51-C53: kernels and the weak form. *)
From Coq Require Import String List Arith Lia Bool Setoid Ring.
From Verif Require Import Num Arr ArrFacts Fe Problem BatchFacts SpecAssembly AssemblyFacts ProblemFacts
  ResidualFacts AgreeFacts Basis SpecBasis BasisFacts SpecFe FeFacts GeomFacts SpecWeak.
Import ListNotations.

Lemma nth_flat_table {A} (d : A) (F : nat -> nat -> A) v n a k : (k < v)%nat -> (a < n)%nat ->
  nth (a * v + k) (flat_map (fun a => map (F a) (seq 0 v)) (seq 0 n)) d = F a k.
Proof.
  intros Hk. assert (G : forall n s a, (a < n)%nat ->
    nth (a * v + k) (flat_map (fun a => map (F a) (seq 0 v)) (seq s n)) d = F (s + a)%nat k).
  { induction n0 as [|n0 IH]; intros s b Hb; [lia|]. cbn [seq flat_map]. destruct b as [|b].
    - rewrite app_nth1 by (rewrite map_length, seq_length; lia).
      rewrite (nth_map_in _ _ _ 0%nat) by (rewrite seq_length; lia). rewrite seq_nth by lia. now rewrite Nat.add_0_r.
    - rewrite app_nth2 by (rewrite map_length, seq_length; nia). rewrite map_length, seq_length.
      replace (S b * v + k - v)%nat with (b * v + k)%nat by nia. rewrite IH by lia. f_equal. lia. }
  intros Ha. now rewrite G.
Qed.

Section Weak.
  Context {K : ops} (KR : ring_laws K) {V : Type}.
  Open Scope num_scope.
  Let Kth : ring_theory (@zero K) one add mul sub opp eq := KR.
  Add Ring KringK : Kth.
  Variables (sqrtK : K -> K) (p : problem K V) (f : fe K) (P sol : list (list K)).
  Hypothesis WF : wf_problem p.
  Hypothesis NC : (0 < p_num_cells p)%nat.
  Hypothesis STD : standard_problem p f.
  Hypothesis SOL : sol_ok p [sol].
  Hypothesis IVS : ivs_ok p.
  Hypothesis MAPS : maps_ok (vec f) (dim f) (maps p).

  Lemma fes_f : fes p = [f]. Proof. exact (proj1 STD). Qed.
  Lemma fe0_f : fe0 p = f. Proof. unfold fe0. now rewrite fes_f. Qed.
  Lemma fe_of_f : fe_of p 0 = f. Proof. unfold fe_of. now rewrite fes_f. Qed.
  Lemma shapes1 : local_shapes p = [(num_nodes f, vec f)].
  Proof. unfold local_shapes. now rewrite fes_f. Qed.
  Lemma dof_num a k : dof_number (local_shapes p) 0 a k = (a * vec f + k)%nat.
  Proof. rewrite shapes1. unfold dof_number. cbn. lia. Qed.
  Lemma node_cell c a : node_of p 0 c a = cell_node f c a.
  Proof. unfold node_of, cell_node. now rewrite fe_of_f. Qed.
  Lemma node_ok c a : (c < p_num_cells p)%nat -> (a < num_nodes f)%nat -> (cell_node f c a < length (points f))%nat.
  Proof.
    intros Hc Ha. pose proof (node_bound p WF 0 c a). rewrite node_cell, fe_of_f, fes_f in H. apply H; auto.
  Qed.
  Lemma sol_len : length sol = length (points f).
  Proof. destruct SOL as [_ H]. specialize (H 0%nat). rewrite fe_of_f, fes_f in H. apply H. cbn. lia. Qed.
  Lemma cell_sol_get c a k : (c < p_num_cells p)%nat -> (a < num_nodes f)%nat -> (k < vec f)%nat ->
    get2 0 (cell_sol0 p (cell_values p [sol] c)) a k = cell_sol_at f sol c a k.
  Proof.
    intros Hc Ha Hk. unfold cell_sol0. change (dof_shapes p) with (local_shapes p).
    assert (VD : valid_dof (local_shapes p) 0 a k) by (rewrite shapes1; repeat split; cbn; auto).
    rewrite get2_unravel; auto.
    - rewrite cell_values_nth by auto. rewrite node_cell. unfold cell_sol_at, get2. cbn [nth].
      rewrite gather_in; auto. rewrite sol_len. now apply node_ok.
    - rewrite <- all_dofs_total. apply cell_values_length; auto.
  Qed.

  Lemma at_quad_iv (l : list (list (nat -> V))) c q :
    at_quad (flat_map (fun iv => match nth_error iv c with Some x => [x] | None => [] end) l) q
    = flat_map (fun iv => match nth_error iv c with Some x => [x q] | None => [] end) l.
  Proof.
    unfold at_quad. induction l as [|iv l IH]; auto. cbn [flat_map]. rewrite map_app, IH. f_equal.
    now destruct (nth_error iv c).
  Qed.

  Lemma grads_var c q a j : (a < num_nodes f)%nat -> p_shape_grads p [P] c q a j = get_shape_grads P f c q a j.
  Proof.
    intros Ha. unfold p_shape_grads. rewrite fes_f. cbn [combine map fst snd cat_axis]. apply Nat.ltb_lt in Ha. now rewrite Ha.
  Qed.
  Lemma vgrads_var c q a j : (a < num_nodes f)%nat ->
    p_v_grads_JxW p [P] c q a j = get_shape_grads P f c q a j * get_JxW P f c q.
  Proof.
    intros Ha. unfold p_v_grads_JxW. rewrite fes_f. cbn [combine map fst snd cat_axis]. apply Nat.ltb_lt in Ha. now rewrite Ha.
  Qed.
  Lemma JxW_var c q : p_JxW p [P] c 0 q = get_JxW P f c q.
  Proof. unfold p_JxW. now rewrite fes_f. Qed.
  Lemma fvals_var c fc q a : (a < num_nodes f)%nat -> p_face_vals p [P] (c, fc) q a = face_shape_vals f fc q a.
  Proof.
    intros Ha. unfold p_face_vals. rewrite fes_f. cbn [combine map fst snd cat_axis]. apply Nat.ltb_lt in Ha. now rewrite Ha.
  Qed.
  Lemma nanson_var c fc q : p_nanson sqrtK p [P] (c, fc) 0 q = nanson_scale sqrtK P f c fc q.
  Proof. unfold p_nanson. now rewrite fes_f. Qed.

  Lemma laplace_entry tm c a k : tensor_map (maps p) = Some tm ->
    (c < p_num_cells p)%nat -> (a < num_nodes f)%nat -> (k < vec f)%nat ->
    nth (a * vec f + k) (laplace_kernel p tm (cell_input p [P] [sol] c)) 0
    = sum_n (num_quads f) (fun q => sum_n (dim f) (fun j => stress p f P sol c q k j * get_shape_grads P f c q a j)
        * get_JxW P f c q).
  Proof.
    intros Ht Hc Ha Hk. unfold laplace_kernel. rewrite fe0_f. cbv zeta.
    rewrite (nth_flat_table 0 (fun a k => sum_n (num_quads f) (fun q => sum_n (dim f) (fun j => _ * _)))) by auto.
    apply sum_n_ext. intros q Hq. rewrite <- (FeFacts.sum_n_mul_r' KR). apply sum_n_ext. intros j Hj.
    cbn [ci_sol ci_grads ci_vgJxW ci_iv cell_input]. rewrite vgrads_var by auto.
    unfold stress. rewrite Ht. rewrite at_quad_iv. fold (iv_at p c q).
    rewrite (proj1 MAPS tm Ht _ (sol_to_grad P f sol c q)); [ring| |auto|auto].
    intros k' j' Hk' Hj'. unfold sol_to_grad. apply sum_n_ext. intros b Hb.
    now rewrite cell_sol_get, grads_var by auto.
  Qed.

  Lemma mass_entry mm c a k : mass_map (maps p) = Some mm ->
    (c < p_num_cells p)%nat -> (a < num_nodes f)%nat -> (k < vec f)%nat ->
    nth (a * vec f + k) (mass_kernel p mm (cell_input p [P] [sol] c)) 0
    = sum_n (num_quads f) (fun q => source p f P sol c q k * shape_vals f q a * get_JxW P f c q).
  Proof.
    intros Ht Hc Ha Hk. unfold mass_kernel. rewrite fe0_f. cbv zeta.
    rewrite (nth_flat_table 0 (fun a k => sum_n (num_quads f) (fun q => _))) by auto.
    apply sum_n_ext. intros q Hq.
    cbn [ci_sol ci_x ci_JxW ci_iv cell_input]. rewrite JxW_var.
    unfold source. rewrite Ht. rewrite at_quad_iv. fold (iv_at p c q).
    rewrite (proj1 (proj2 MAPS) mm Ht _ (convert_from_dof_to_quad f sol c q) _ (get_physical_quad_points P f c q)); auto.
    - intros k' Hk'. unfold convert_from_dof_to_quad. apply sum_n_ext. intros b Hb.
      now rewrite cell_sol_get by auto.
    - intros i Hi. unfold p_quad_points. cbn [hd]. now rewrite fe0_f.
  Qed.

  Lemma kernel_entry c a k : (c < p_num_cells p)%nat -> (a < num_nodes f)%nat -> (k < vec f)%nat ->
    nth (dof_number (local_shapes p) 0 a k) (kernel_cell p (cell_input p [P] [sol] c)) 0
    = volume_term p f P sol c a k.
  Proof.
    intros Hc Ha Hk. rewrite dof_num. unfold kernel_cell.
    pose proof STD as S1; destruct S1 as (_ & Hu & _ & Hm & _). rewrite Hu. cbn [option_map].
    assert (LK : forall (F : nat -> nat -> K), length (flat_map (fun a => map (F a) (seq 0 (vec f))) (seq 0 (num_nodes f)))
        = (num_nodes f * vec f)%nat).
    { intros F. rewrite (flat_map_len _ _ (vec f)); [now rewrite seq_length|].
      intros. now rewrite map_length, seq_length. }
    assert (LT : (a * vec f + k < num_nodes f * vec f)%nat) by nia.
    unfold volume_term.
    destruct (tensor_map (maps p)) as [tm|] eqn:Et, (mass_map (maps p)) as [mm|] eqn:Em; cbn [option_map badd unscalar].
    - rewrite (nth_map2 _ _ _ _ 0 0) by (unfold laplace_kernel, mass_kernel; rewrite fe0_f; cbv zeta; rewrite LK; auto).
      rewrite laplace_entry, mass_entry by auto. rewrite <- (FeFacts.sum_n_add KR). apply sum_n_ext. intros; ring.
    - rewrite laplace_entry by auto. apply sum_n_ext. intros q Hq. unfold source. rewrite Em. ring.
    - rewrite mass_entry by auto. apply sum_n_ext. intros q Hq. unfold stress. rewrite Et.
      rewrite (FeFacts.sum_n_mul_l KR _ 0 (fun j => get_shape_grads P f c q a j)). ring.
    - destruct Hm; congruence.
  Qed.

  (** the face kernels of the problem *)
  Definition std_kf (s : nat) : face_in K V -> list K :=
    match surface_maps (maps p) with
    | Some sms => match nth_error sms s with Some sm => surface_kernel p sm | None => fun _ => [] end
    | None => fun _ => []
    end.
  Lemma std_kernels : kernels_ok p std_kf.
  Proof.
    pose proof STD as S1; destruct S1 as (_ & Hu & Hus & Hm & Hs). apply (standard_kernels_ok p f); auto using fes_f.
    unfold std_kf. destruct (surface_maps (maps p)) as [sms|]; auto. split; auto.
    intros s sm E. now rewrite E.
  Qed.
  Lemma face_entry s e a k : (s < length (boundary_inds_list p))%nat -> (e < num_sel_faces p s)%nat ->
    (a < num_nodes f)%nat -> (k < vec f)%nat ->
    nth (dof_number (local_shapes p) 0 a k) (std_kf s (face_input sqrtK p [P] [sol] s e)) 0
    = surface_term sqrtK p f P sol s e a k.
  Proof.
    intros Hs He Ha Hk. rewrite dof_num. unfold std_kf, surface_term.
    pose proof STD as S1; destruct S1 as (_ & _ & _ & _ & HS). unfold traction.
    destruct (surface_maps (maps p)) as [sms|] eqn:Es.
    2:{ rewrite HS in Hs. cbn in Hs. lia. }
    destruct (nth_error sms s) as [sm|] eqn:E.
    2:{ apply nth_error_None in E. lia. }
    set (cf := nth e (nth s (boundary_inds_list p) []) (0, 0)%nat).
    assert (Hin : In cf (nth s (boundary_inds_list p) [])) by (apply nth_In; exact He).
    destruct cf as [c fc] eqn:Ecf. unfold cf in Ecf. cbn [fst snd]. 
    assert (Hc : (c < p_num_cells p)%nat) by (eapply (wf_boundary p WF); [apply nth_In; exact Hs|exact Hin]).
    unfold surface_kernel. rewrite fe0_f. cbv zeta.
    rewrite (nth_flat_table 0 (fun a k => sum_n (num_face_quads f) (fun q => _))) by auto.
    apply sum_n_ext. intros q Hq. unfold face_input. rewrite Ecf. cbv zeta.
    cbn [fi_sol fi_x fi_vals fi_nanson fi_iv fst snd]. rewrite nanson_var, fvals_var by auto. f_equal. f_equal.
    rewrite at_quad_iv. fold (iv_face_at p s e q).
    apply (proj2 (proj2 MAPS) sms sm Es (nth_error_In _ _ E)); auto.
    - intros k' Hk'. unfold convert_from_dof_to_face_quad. apply sum_n_ext. intros b Hb.
      now rewrite cell_sol_get, fvals_var by auto.
    - intros i Hi. unfold p_surface_quad_points. cbn [hd fst snd]. now rewrite fe0_f.
  Qed.

  Lemma residual_weak : exists res, compute_residual sqrtK p [P] [sol] = Ok [res] /\
    shaped (length (points f)) (vec f) res /\
    forall n k, (n < length (points f))%nat -> (k < vec f)%nat ->
    get2 0 res n k =
      sum_n (p_num_cells p) (fun c => sum_n (num_nodes f) (fun a =>
        if (cell_node f c a =? n)%nat then volume_term p f P sol c a k else 0)) +
      sum_n (length (boundary_inds_list p)) (fun s => sum_n (num_sel_faces p s) (fun e =>
        sum_n (num_nodes f) (fun a =>
        if (cell_node f (face_cell p s e) a =? n)%nat then surface_term sqrtK p f P sol s e a k else 0))).
  Proof.
    pose proof std_kernels as KER.
    pose proof (compute_residual_ok sqrtK p [P] [sol] std_kf WF NC SOL IVS KER) as E.
    pose proof (helper_shapes KR sqrtK p [P] [sol] std_kf WF NC SOL KER) as HSH.
    assert (H0 : (0 < length (fes p))%nat) by (rewrite fes_f; cbn; lia).
    pose proof (proj2 (helper_var KR sqrtK p [P] [sol] std_kf WF NC SOL KER 0%nat H0)) as HV.
    set (R := compute_residual_vars_helper p _ _) in *.
    assert (HG : global_shapes p = [(length (points f), vec f)]) by (unfold global_shapes; now rewrite fes_f).
    rewrite HG in HSH. destruct R as [|res [|r2 R']]; inversion HSH as [|? ? ? ? HS1 HS2]; subst; [|inversion HS2].
    exists res. split; [exact E|]. split; [split; [apply HS1|]; destruct HS1 as [_ HS1]; cbn in HS1;
      rewrite Forall_forall in HS1; exact HS1|].
    intros n k Hn Hk. specialize (HV n k). rewrite fe_of_f in HV. cbn [nth] in HV. rewrite HV by auto. f_equal.
    - apply sum_n_ext. intros c Hc. apply sum_n_ext. intros a Ha. rewrite node_cell.
      destruct (_ =? _)%nat; auto. now apply kernel_entry.
    - apply sum_n_ext. intros s Hs. apply sum_n_ext. intros e He. apply sum_n_ext. intros a Ha. rewrite node_cell.
      destruct (_ =? _)%nat; auto. now apply face_entry.
  Qed.

  (** ** testing the residual with a nodal field *)
  Lemma pick_node c (g : nat -> K) (X : nat -> K) : (c < p_num_cells p)%nat ->
    sum_n (length (points f)) (fun n => g n * sum_n (num_nodes f) (fun a => if (cell_node f c a =? n)%nat then X a else 0))
    = sum_n (num_nodes f) (fun a => g (cell_node f c a) * X a).
  Proof.
    intros Hc.
    rewrite (sum_n_ext _ _ (fun n => sum_n (num_nodes f) (fun a => g n * (if (cell_node f c a =? n)%nat then X a else 0))))
      by (intros; now rewrite (FeFacts.sum_n_mul_l KR)).
    rewrite (sum_n_swap' KR). apply sum_n_ext. intros a Ha.
    rewrite (sum_n_single KR _ (cell_node f c a)); [now rewrite Nat.eqb_refl|now apply node_ok|].
    intros n Hn Hne. replace (cell_node f c a =? n)%nat with false by (symmetry; apply Nat.eqb_neq; congruence). ring.
  Qed.

  Lemma face_cell_ok s e : (s < length (boundary_inds_list p))%nat -> (e < num_sel_faces p s)%nat ->
    (face_cell p s e < p_num_cells p)%nat.
  Proof.
    intros Hs He. unfold face_cell.
    assert (Hin : In (nth e (nth s (boundary_inds_list p) []) (0, 0)%nat) (nth s (boundary_inds_list p) []))
      by (apply nth_In; exact He).
    destruct (nth e _ _) as [c fc] eqn:E. eapply (wf_boundary p WF); [apply nth_In; exact Hs|exact Hin].
  Qed.

  Lemma tested (res : list (list K)) (g : nat -> K) k : (k < vec f)%nat ->
    compute_residual sqrtK p [P] [sol] = Ok [res] ->
    sum_n (length (points f)) (fun n => g n * get2 0 res n k)
    = sum_n (p_num_cells p) (fun c => sum_n (num_nodes f) (fun a => g (cell_node f c a) * volume_term p f P sol c a k))
    + sum_n (length (boundary_inds_list p)) (fun s => sum_n (num_sel_faces p s) (fun e =>
        sum_n (num_nodes f) (fun a => g (cell_node f (face_cell p s e) a) * surface_term sqrtK p f P sol s e a k))).
  Proof.
    intros Hk E. destruct residual_weak as (res' & E' & _ & HR). assert (res' = res) by congruence. subst res'.
    rewrite (sum_n_ext _ _ (fun n => g n * sum_n (p_num_cells p) (fun c => sum_n (num_nodes f) (fun a =>
        if (cell_node f c a =? n)%nat then volume_term p f P sol c a k else 0)) + g n *
      sum_n (length (boundary_inds_list p)) (fun s => sum_n (num_sel_faces p s) (fun e =>
        sum_n (num_nodes f) (fun a =>
        if (cell_node f (face_cell p s e) a =? n)%nat then surface_term sqrtK p f P sol s e a k else 0)))))
      by (intros n Hn; rewrite HR by auto; ring).
    rewrite (FeFacts.sum_n_add KR). f_equal.
    - rewrite (sum_n_ext _ _ (fun n => sum_n (p_num_cells p) (fun c => g n * sum_n (num_nodes f) (fun a =>
        if (cell_node f c a =? n)%nat then volume_term p f P sol c a k else 0))))
        by (intros; now rewrite (FeFacts.sum_n_mul_l KR)).
      rewrite (sum_n_swap' KR). apply sum_n_ext. intros c Hc. now apply pick_node.
    - rewrite (sum_n_ext _ _ (fun n => sum_n (length (boundary_inds_list p)) (fun s => sum_n (num_sel_faces p s) (fun e => g n *
        sum_n (num_nodes f) (fun a => if (cell_node f (face_cell p s e) a =? n)%nat
          then surface_term sqrtK p f P sol s e a k else 0))))).
      2:{ intros n Hn. rewrite <- (FeFacts.sum_n_mul_l KR). apply sum_n_ext. intros s Hs.
          now rewrite (FeFacts.sum_n_mul_l KR). }
      rewrite (sum_n_swap' KR). apply sum_n_ext. intros s Hs. rewrite (sum_n_swap' KR). apply sum_n_ext.
      intros e He. apply pick_node. now apply face_cell_ok.
  Qed.

  (** testing one cell term with a field that has values G at the quadrature points *)
  Lemma volume_tested c k (w : nat -> K) :
    sum_n (num_nodes f) (fun a => w a * volume_term p f P sol c a k)
    = sum_n (num_quads f) (fun q =>
       (sum_n (dim f) (fun j => stress p f P sol c q k j * sum_n (num_nodes f) (fun a => w a * get_shape_grads P f c q a j))
        + source p f P sol c q k * sum_n (num_nodes f) (fun a => w a * shape_vals f q a)) * get_JxW P f c q).
  Proof.
    unfold volume_term.
    rewrite (sum_n_ext _ _ (fun a => sum_n (num_quads f) (fun q => w a *
      ((sum_n (dim f) (fun j => stress p f P sol c q k j * get_shape_grads P f c q a j)
       + source p f P sol c q k * shape_vals f q a) * get_JxW P f c q)))) by (intros; now rewrite (FeFacts.sum_n_mul_l KR)).
    rewrite (sum_n_swap' KR). apply sum_n_ext. intros q Hq.
    rewrite (sum_n_ext (num_nodes f) _ (fun a => (w a * sum_n (dim f) (fun j => stress p f P sol c q k j * get_shape_grads P f c q a j)
       + w a * (source p f P sol c q k * shape_vals f q a)) * get_JxW P f c q)) by (intros; ring).
    rewrite (FeFacts.sum_n_mul_r' KR), (FeFacts.sum_n_add KR). f_equal. f_equal.
    - rewrite (sum_n_ext _ _ (fun a => sum_n (dim f) (fun j => w a * (stress p f P sol c q k j * get_shape_grads P f c q a j))))
        by (intros; now rewrite (FeFacts.sum_n_mul_l KR)).
      rewrite (sum_n_swap' KR). apply sum_n_ext. intros j Hj. rewrite <- (FeFacts.sum_n_mul_l KR).
      apply sum_n_ext. intros; ring.
    - rewrite <- (FeFacts.sum_n_mul_l KR). apply sum_n_ext. intros; ring.
  Qed.
  Lemma surface_tested s e k (w : nat -> K) :
    sum_n (num_nodes f) (fun a => w a * surface_term sqrtK p f P sol s e a k)
    = let c := fst (nth e (nth s (boundary_inds_list p) []) (0, 0)%nat) in
      let fc := snd (nth e (nth s (boundary_inds_list p) []) (0, 0)%nat) in
      sum_n (num_face_quads f) (fun q => traction p f P sol s e q k *
        sum_n (num_nodes f) (fun a => w a * face_shape_vals f fc q a) * nanson_scale sqrtK P f c fc q).
  Proof.
    unfold surface_term. cbv zeta.
    rewrite (sum_n_ext _ _ (fun a => sum_n (num_face_quads f) (fun q => w a *
       (traction p f P sol s e q k * face_shape_vals f (snd (nth e (nth s (boundary_inds_list p) []) (0, 0)%nat)) q a *
        nanson_scale sqrtK P f (fst (nth e (nth s (boundary_inds_list p) []) (0, 0)%nat)) (snd (nth e (nth s (boundary_inds_list p) []) (0, 0)%nat)) q))))
      by (intros; now rewrite (FeFacts.sum_n_mul_l KR)).
    rewrite (sum_n_swap' KR). apply sum_n_ext. intros q Hq.
    rewrite <- (FeFacts.sum_n_mul_l KR), <- (FeFacts.sum_n_mul_r' KR). apply sum_n_ext. intros; ring.
  Qed.
End Weak.
