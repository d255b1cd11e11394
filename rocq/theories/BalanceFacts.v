(** Proofs for C18, C52, C53: totals and moments of the residual. *)
From Coq Require Import String List Arith Lia Bool Ring Field_theory.
From Verif Require Import Num Arr ArrFacts Fe Problem BatchFacts SpecAssembly AssemblyFacts ProblemFacts
  ResidualFacts AgreeFacts Basis SpecBasis BasisFacts SpecFe FeFacts GeomFacts SpecWeak KernelFacts.
Import ListNotations.

Section Balance.
  Context {K : ops} (KR : ring_laws K) {V : Type}.
  Open Scope num_scope.
  Let Kth : ring_theory (@zero K) one add mul sub opp eq := KR.
  Add Ring KringL : Kth.

  Lemma grads_total s (f : fe K) P c q j : built_element s (dim f) f -> (j < dim f)%nat ->
    sum_n (num_nodes f) (fun a => get_shape_grads P f c q a j) = 0.
  Proof.
    intros (LAG & DIM & _ & sq & quad & fq & nm & pts & cl & v & dir & B) Hj.
    unfold get_shape_grads. rewrite (sum_n_swap' KR).
    rewrite (sum_n_ext (dim f) _ (fun _ => 0)).
    - unfold sum_n. apply (sum_over_zero KR).
    - intros i Hi. rewrite (FeFacts.sum_n_mul_r' KR).
      rewrite (grads_sum KR _ _ _ _ _ _ _ _ _ _ _ B LAG) by lia. ring.
  Qed.
  Lemma vals_total s (f : fe K) q : built_element s (dim f) f -> sum_n (num_nodes f) (shape_vals f q) = 1.
  Proof.
    intros (LAG & DIM & _ & sq & quad & fq & nm & pts & cl & v & dir & B).
    exact (vals_sum KR _ _ _ _ _ _ _ _ _ _ _ B LAG q).
  Qed.
  Lemma face_vals_total s (f : fe K) fc q : built_element s (dim f) f -> sum_n (num_nodes f) (face_shape_vals f fc q) = 1.
  Proof.
    intros (LAG & DIM & _ & sq & quad & fq & nm & pts & cl & v & dir & B).
    exact (face_vals_sum KR _ _ _ _ _ _ _ _ _ _ _ B LAG fc q).
  Qed.

  Section P.
    Variables (sqrtK : K -> K) (p : problem K V) (f : fe K) (P sol : list (list K)).
    Hypothesis WF : wf_problem p.
    Hypothesis NC : (0 < p_num_cells p)%nat.
    Hypothesis STD : standard_problem p f.
    Hypothesis SOL : sol_ok p [sol].
    Hypothesis IVS : ivs_ok p.
    Hypothesis MAPS : maps_ok (vec f) (dim f) (maps p).
    Variable s : string.
    Hypothesis LAG : built_element s (dim f) f.

    Lemma total_residual (res : list (list K)) k : (k < vec f)%nat -> compute_residual sqrtK p [P] [sol] = Ok [res] ->
      sum_n (length (points f)) (fun n => get2 0 res n k) =
      sum_n (p_num_cells p) (fun c => sum_n (num_quads f) (fun q => source p f P sol c q k * get_JxW P f c q)) +
      sum_n (length (boundary_inds_list p)) (fun b => sum_n (num_sel_faces p b) (fun e =>
        sum_n (num_face_quads f) (fun q => traction p f P sol b e q k *
          nanson_scale sqrtK P f (fst (nth e (nth b (boundary_inds_list p) []) (0, 0)%nat))
            (snd (nth e (nth b (boundary_inds_list p) []) (0, 0)%nat)) q))).
    Proof.
      intros Hk E.
      pose proof (tested KR sqrtK p f P sol WF NC STD SOL IVS MAPS res (fun _ => 1) k Hk E) as T.
      rewrite (sum_n_ext _ _ (fun n => get2 0 res n k)) in T by (intros; ring). rewrite T. clear T. f_equal.
      - apply sum_n_ext. intros c Hc. rewrite (volume_tested KR p f P sol c k (fun _ => 1)).
        apply sum_n_ext. intros q Hq.
        rewrite (sum_n_ext _ (fun a => 1 * shape_vals f q a) (shape_vals f q)) by (intros; ring).
        rewrite (vals_total s) by auto.
        rewrite (sum_n_ext (dim f) _ (fun j => stress p f P sol c q k j * 0)).
        + rewrite (FeFacts.sum_n_mul_r' KR). ring.
        + intros j Hj. rewrite (sum_n_ext _ (fun a => 1 * get_shape_grads P f c q a j) (fun a => get_shape_grads P f c q a j)) by (intros; ring).
          now rewrite (grads_total s).
      - apply sum_n_ext. intros b Hb. apply sum_n_ext. intros e He. rewrite (surface_tested KR sqrtK p f P sol b e k (fun _ => 1)).
        cbv zeta. apply sum_n_ext. intros q Hq.
        rewrite (sum_n_ext (num_nodes f) _ (face_shape_vals f (snd (nth e (nth b (boundary_inds_list p) []) (0, 0)%nat)) q)) by (intros; ring).
        rewrite (face_vals_total s) by auto. ring.
    Qed.
    (** rigid translations leave the stress alone *)
    Lemma stress_moved t sol' c q k j : moved_by (vec f) t sol sol' -> (c < p_num_cells p)%nat -> (k < vec f)%nat -> (j < dim f)%nat ->
      stress p f P sol' c q k j = stress p f P sol c q k j.
    Proof.
      intros [HL HM] Hc Hk Hj. unfold stress. destruct (tensor_map (maps p)) as [tm|] eqn:Et; auto.
      apply (proj1 MAPS tm Et); auto. intros k' j' Hk' Hj'. unfold sol_to_grad.
      rewrite (sum_n_ext _ _ (fun a => cell_sol_at f sol c a k' * get_shape_grads P f c q a j' + t k' * get_shape_grads P f c q a j')).
      - rewrite (FeFacts.sum_n_add KR), (FeFacts.sum_n_mul_l KR), (grads_total s) by auto. ring.
      - intros a Ha. unfold cell_sol_at.
        assert (Hn : (cell_node f c a < length sol)%nat) by (erewrite (sol_len p f sol) by eassumption; eapply node_ok; eassumption).
        rewrite !gather_in by lia. rewrite HM by auto. ring.
    Qed.
    Lemma residual_moved t sol' : moved_by (vec f) t sol sol' -> sol_ok p [sol'] ->
      mass_map (maps p) = None -> boundary_inds_list p = [] ->
      exists res, compute_residual sqrtK p [P] [sol] = Ok [res] /\ compute_residual sqrtK p [P] [sol'] = Ok [res].
    Proof.
      intros HM SOL' Hm Hb.
      destruct (residual_weak KR sqrtK p f P sol WF NC STD SOL IVS MAPS) as (r & E & (L & S) & R).
      destruct (residual_weak KR sqrtK p f P sol' WF NC STD SOL' IVS MAPS) as (r' & E' & (L' & S') & R').
      exists r. split; auto. rewrite E'. do 2 f_equal. apply (list_ext []); [congruence|]. intros n Hn.
      assert (Hr : forall i, (i < length (points f))%nat -> length (nth i r' []) = vec f /\ length (nth i r []) = vec f).
      { intros i Hi. split; [apply S'|apply S]; apply nth_In; lia. }
      destruct (Hr n) as [H1 H2]; [lia|].
      apply (list_ext 0); [congruence|]. intros k Hk.
      specialize (R n k). specialize (R' n k). unfold get2 in R, R'. rewrite R, R' by lia. rewrite Hb. cbn [length].
      f_equal. apply sum_n_ext. intros c Hc. apply sum_n_ext. intros a Ha. destruct (_ =? _)%nat; auto.
      unfold volume_term. apply sum_n_ext. intros q Hq. unfold source. rewrite Hm. f_equal. f_equal.
      apply sum_n_ext. intros j Hj. rewrite (stress_moved t sol') by (auto; lia). reflexivity.
    Qed.
  End P.
  Lemma internal_balance sqrtK (p : problem K V) (f : fe K) P sol s (res : list (list K)) k :
    wf_problem p -> (0 < p_num_cells p)%nat -> standard_problem p f -> sol_ok p [sol] -> ivs_ok p ->
    maps_ok (vec f) (dim f) (maps p) -> built_element s (dim f) f -> (k < vec f)%nat ->
    mass_map (maps p) = None -> boundary_inds_list p = [] ->
    compute_residual sqrtK p [P] [sol] = Ok [res] ->
    sum_n (length (points f)) (fun n => get2 0 res n k) = 0.
  Proof.
    intros WF NC STD SOL IVS MAPS LAG Hk Hm Hb E.
    rewrite (total_residual sqrtK p f P sol WF NC STD SOL IVS MAPS s LAG res k Hk E).
    rewrite Hb. cbn [length]. rewrite (sum_n_ext (p_num_cells p) _ (fun _ => 0)).
    - unfold sum_n at 1. rewrite (sum_over_zero KR). change (@zero K + 0 = 0). ring.
    - intros c Hc. rewrite (sum_n_ext (num_quads f) _ (fun _ => 0)); [unfold sum_n; apply (sum_over_zero KR)|].
      intros q Hq. unfold source. rewrite Hm. ring.
  Qed.
End Balance.

Section Work.
  Context {K : ops} (KF : field_laws K) {V : Type}.
  Open Scope num_scope.
  Let KR := field_ring K KF.
  Let Kth : ring_theory (@zero K) one add mul sub opp eq := KR.
  Add Ring KringM : Kth.
  Variables (sqrtK : K -> K) (p : problem K V) (f : fe K) (P sol : list (list K)).
  Hypothesis WF : wf_problem p.
  Hypothesis NC : (0 < p_num_cells p)%nat.
  Hypothesis STD : standard_problem p f.
  Hypothesis SOL : sol_ok p [sol].
  Hypothesis IVS : ivs_ok p.
  Hypothesis MAPS : maps_ok (vec f) (dim f) (maps p).
  Variable s : string.
  Hypothesis LAG : built_element s (dim f) f.
  Hypothesis PTS : length P = length (points f).
  Hypothesis NZ : forall c q, (c < p_num_cells p)%nat -> (q < num_quads f)%nat -> get_JxW P f c q <> 0.

  (** linear test field A.x + b at the nodes *)
  Definition lin (A : nat -> K) (b : K) (x : nat -> K) : K := sum_n (dim f) (fun m => A m * x m) + b.

  Lemma ncells : p_num_cells p = length (cells f).
  Proof. unfold p_num_cells, num_cells. now rewrite (fe0_f p f STD). Qed.

  Lemma lin_weighted A b c (w : nat -> K) : (c < p_num_cells p)%nat ->
    sum_n (num_nodes f) (fun a => lin A b (fun i => nth i (nth (cell_node f c a) P []) 0) * w a)
    = sum_n (dim f) (fun m => A m * sum_n (num_nodes f) (fun a => coo P f c a m * w a)) + b * sum_n (num_nodes f) w.
  Proof.
    intros Hc. unfold lin.
    rewrite (sum_n_ext _ _ (fun a => sum_n (dim f) (fun m => A m * (coo P f c a m * w a)) + b * w a)).
    - rewrite (FeFacts.sum_n_add KR), (sum_n_swap' KR), (FeFacts.sum_n_mul_l KR). f_equal. apply sum_n_ext.
      intros m Hm. now rewrite (FeFacts.sum_n_mul_l KR).
    - intros a Ha. unfold coo. rewrite gather_in by (rewrite PTS; now apply (node_ok p f WF STD)).
      rewrite (sum_n_ext _ (fun m => A m * (_ * w a)) (fun m => (A m * nth m (nth (cell_node f c a) P []) 0) * w a)) by (intros; ring).
      rewrite (FeFacts.sum_n_mul_r' KR). ring.
  Qed.

  Lemma virtual_work (res : list (list K)) A b k : (k < vec f)%nat -> compute_residual sqrtK p [P] [sol] = Ok [res] ->
    sum_n (length (points f)) (fun n => lin A b (fun i => nth i (nth n P []) 0) * get2 0 res n k) =
    sum_n (p_num_cells p) (fun c => sum_n (num_quads f) (fun q =>
      (sum_n (dim f) (fun j => stress p f P sol c q k j * A j)
       + source p f P sol c q k * lin A b (get_physical_quad_points P f c q)) * get_JxW P f c q)) +
    sum_n (length (boundary_inds_list p)) (fun t => sum_n (num_sel_faces p t) (fun e =>
      let c := fst (nth e (nth t (boundary_inds_list p) []) (0, 0)%nat) in
      let fc := snd (nth e (nth t (boundary_inds_list p) []) (0, 0)%nat) in
      sum_n (num_face_quads f) (fun q => traction p f P sol t e q k *
        lin A b (get_physical_surface_quad_points P f c fc q) * nanson_scale sqrtK P f c fc q))).
  Proof.
    intros Hk E.
    rewrite (tested KR sqrtK p f P sol WF NC STD SOL IVS MAPS res (fun n => lin A b (fun i => nth i (nth n P []) 0)) k Hk E).
    f_equal.
    - apply sum_n_ext. intros c Hc. rewrite (volume_tested KR). apply sum_n_ext. intros q Hq.
      f_equal. f_equal.
      + apply sum_n_ext. intros j Hj. f_equal. rewrite lin_weighted by auto.
        rewrite (grads_total KR s) by auto.
        destruct LAG as (LA & DIM & MO & sq & quad & fq & nm & pts & cl & v & dir & B).
        assert (CG : forall m, (m < dim f)%nat -> sum_n (num_nodes f) (fun a => coo P f c a m * get_shape_grads P f c q a j)
           = if (m =? j)%nat then 1 else 0).
        { intros m Hm. apply (coo_grads KF _ _ _ _ _ _ _ _ _ _ _ B DIM P); auto. rewrite <- ncells. auto. }
        rewrite (sum_n_single KR _ j) by (auto; intros m Hm Hne; rewrite CG by auto;
          replace (m =? j)%nat with false by (symmetry; now apply Nat.eqb_neq); ring).
        rewrite CG, Nat.eqb_refl by auto. ring.
      + f_equal. rewrite lin_weighted, (vals_total KR s) by auto. unfold lin. replace (b * 1) with b by ring. f_equal.
        apply sum_n_ext. intros m Hm. f_equal. unfold get_physical_quad_points. apply sum_n_ext. intros; ring.
    - apply sum_n_ext. intros t Ht. apply sum_n_ext. intros e He. rewrite (surface_tested KR). cbv zeta.
      apply sum_n_ext. intros q Hq. f_equal. f_equal. change (fst (nth e (nth t (boundary_inds_list p) []) (0, 0)%nat)) with (face_cell p t e).
      rewrite lin_weighted by (now apply (face_cell_ok p WF)).
      rewrite (face_vals_total KR s) by auto. unfold lin. replace (b * 1) with b by ring. f_equal.
      apply sum_n_ext. intros m Hm. f_equal. unfold get_physical_surface_quad_points. apply sum_n_ext. intros; ring.
  Qed.

  Lemma lin_coord i x : (i < dim f)%nat -> lin (fun m => if (m =? i)%nat then 1 else 0) 0 x = x i.
  Proof.
    intros Hi. unfold lin. rewrite (sum_n_single KR _ i); auto; [rewrite Nat.eqb_refl; ring|].
    intros m Hm Hne. apply Nat.eqb_neq in Hne. rewrite Hne. ring.
  Qed.

  Lemma first_moment (res : list (list K)) i k : (i < dim f)%nat -> (k < vec f)%nat ->
    compute_residual sqrtK p [P] [sol] = Ok [res] ->
    sum_n (length (points f)) (fun n => nth i (nth n P []) 0 * get2 0 res n k) =
    sum_n (p_num_cells p) (fun c => sum_n (num_quads f) (fun q =>
      (stress p f P sol c q k i + source p f P sol c q k * get_physical_quad_points P f c q i) * get_JxW P f c q)) +
    sum_n (length (boundary_inds_list p)) (fun t => sum_n (num_sel_faces p t) (fun e =>
      let c := fst (nth e (nth t (boundary_inds_list p) []) (0, 0)%nat) in
      let fc := snd (nth e (nth t (boundary_inds_list p) []) (0, 0)%nat) in
      sum_n (num_face_quads f) (fun q => traction p f P sol t e q k *
        get_physical_surface_quad_points P f c fc q i * nanson_scale sqrtK P f c fc q))).
  Proof.
    intros Hi Hk E. pose proof (virtual_work res (fun m => if (m =? i)%nat then 1 else 0) 0 k Hk E) as W.
    rewrite (sum_n_ext _ _ (fun n => nth i (nth n P []) 0 * get2 0 res n k)) in W
      by (intros; now rewrite lin_coord). rewrite W. clear W. f_equal.
    - apply sum_n_ext. intros c Hc. apply sum_n_ext. intros q Hq. rewrite lin_coord by auto. f_equal. f_equal.
      rewrite (sum_n_single KR _ i); auto; [rewrite Nat.eqb_refl; ring|].
      intros m Hm Hne. apply Nat.eqb_neq in Hne. rewrite Hne. ring.
    - apply sum_n_ext. intros t Ht. apply sum_n_ext. intros e He. cbv zeta. apply sum_n_ext. intros q Hq.
      now rewrite lin_coord.
  Qed.

  Lemma moment (res : list (list K)) i k : (i < dim f)%nat -> (k < dim f)%nat -> (dim f <= vec f)%nat ->
    (forall c q, (c < p_num_cells p)%nat -> (q < num_quads f)%nat -> stress p f P sol c q i k = stress p f P sol c q k i) ->
    compute_residual sqrtK p [P] [sol] = Ok [res] ->
    sum_n (length (points f)) (fun n => nth i (nth n P []) 0 * get2 0 res n k - nth k (nth n P []) 0 * get2 0 res n i) =
    sum_n (p_num_cells p) (fun c => sum_n (num_quads f) (fun q =>
      (get_physical_quad_points P f c q i * source p f P sol c q k
       - get_physical_quad_points P f c q k * source p f P sol c q i) * get_JxW P f c q)) +
    sum_n (length (boundary_inds_list p)) (fun t => sum_n (num_sel_faces p t) (fun e =>
      let c := fst (nth e (nth t (boundary_inds_list p) []) (0, 0)%nat) in
      let fc := snd (nth e (nth t (boundary_inds_list p) []) (0, 0)%nat) in
      sum_n (num_face_quads f) (fun q =>
        (get_physical_surface_quad_points P f c fc q i * traction p f P sol t e q k
         - get_physical_surface_quad_points P f c fc q k * traction p f P sol t e q i) * nanson_scale sqrtK P f c fc q))).
  Proof.
    intros Hi Hk Hd SYM E.
    assert (SUB : forall n (g h : nat -> K), sum_n n (fun x => g x - h x) = sum_n n g - sum_n n h).
    { intros n g h. rewrite (sum_n_ext n (fun x => g x - h x) (fun x => g x + - (1) * h x)) by (intros; ring).
      rewrite (FeFacts.sum_n_add KR), (FeFacts.sum_n_mul_l KR). ring. }
    rewrite SUB, (first_moment res i k), (first_moment res k i) by (auto; lia).
    match goal with |- ?a + ?b - (?c + ?d) = _ => transitivity ((a - c) + (b - d)); [ring|] end. f_equal.
    - rewrite <- SUB. apply sum_n_ext. intros c Hc. rewrite <- SUB. apply sum_n_ext. intros q Hq. rewrite SYM by auto. ring.
    - rewrite <- SUB. apply sum_n_ext. intros t Ht. rewrite <- SUB. apply sum_n_ext. intros e He. cbv zeta.
      rewrite <- SUB. apply sum_n_ext. intros q Hq. ring.
  Qed.
End Work.
