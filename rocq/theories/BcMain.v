(** C22 (derivative part) and C23: proofs. *)
From Coq Require Import List Arith Lia Bool Reals.
From Verif Require Import Num Arr ArrFacts Fe Problem SpecAssembly AssemblyFacts ProblemFacts ResidualFacts DerivFacts
  SolverBc SpecBc BcFacts.
Import ListNotations.

Section Ring.
  Context {K : ops} (KR : ring_laws K) {V : Type}.
  Open Scope num_scope.
  Let Kth : ring_theory (@zero K) one add mul sub opp eq := KR.
  Add Ring Kring6 : Kth.
  Variable p : problem K V.
  Hypothesis BC : bcs_ok p.
  Hypothesis RNG : forall f, In f (fes p) -> bc_in_range f.
  Notation gs := (global_shapes p).

  Lemma apply_bc_vec_ring (res dofs : list K) scale :
    length res = all_dofs gs -> length dofs = all_dofs gs ->
    length (apply_bc_vec res dofs p scale) = all_dofs gs /\
    forall v n j, valid_dof gs v n j ->
      nth (dof_number gs v n j) (apply_bc_vec res dofs p scale) 0 =
      match prescribed (fe_of p v) n j with
      | Some b => nth (dof_number gs v n j) dofs 0 - scale * b
      | None => nth (dof_number gs v n j) res 0
      end.
  Proof.
    intros H1 H2. destruct (apply_bc_vec_spec p BC res dofs scale H1 H2) as [L G]. split; auto.
    intros v n j Hv. rewrite G by auto. destruct (prescribed _ n j); [ring|reflexivity].
  Qed.

  Lemma assign_bc_idem x : length x = all_dofs gs -> assign_bc (assign_bc x p) p = assign_bc x p.
  Proof.
    intros Hx. destruct (assign_bc_spec p BC x Hx) as [L G].
    destruct (assign_bc_spec p BC (assign_bc x p) L) as [L2 G2].
    apply (list_ext 0); [congruence|]. intros g Hg. rewrite L2 in Hg.
    destruct (dof_number_surj _ _ Hg) as (v & n & j & Hv & <-).
    rewrite G2 by auto. destruct (prescribed (fe_of p v) n j) eqn:E; [|reflexivity].
    rewrite G by auto. now rewrite E.
  Qed.

  (** a constrained row of the system *)
  Lemma row_value W v n j (x : nat -> K) : valid_dof gs v n j -> constrained (fe_of p v) n j ->
    matvec (all_dofs gs) (tangent p W) x (dof_number gs v n j) = x (dof_number gs v n j).
  Proof.
    intros Hv C. unfold matvec. pose proof (dof_number_lt gs v n j Hv) as Hlt.
    rewrite (sum_n_single KR _ (dof_number gs v n j)); auto.
    - destruct (tangent_spec p BC RNG W v n j (dof_number gs v n j) Hv) as [T _].
      rewrite T by auto. rewrite Nat.eqb_refl. ring.
    - intros h Hh Hne. destruct (tangent_spec p BC RNG W v n j h Hv) as [T _]. rewrite T by auto.
      replace (_ =? h)%nat with false by (symmetry; apply Nat.eqb_neq; auto). ring.
  Qed.

  Lemma nth_vneg (x : list K) g : nth g (vneg x) 0 = - nth g x 0.
  Proof.
    unfold vneg. destruct (Nat.lt_ge_cases g (length x)) as [L|L].
    - now rewrite (nth_map_in _ _ _ 0).
    - rewrite !nth_overflow; rewrite ?map_length; auto. ring.
  Qed.

  Lemma newton_step_bc W (dofs res inc : list K) :
    length res = all_dofs gs -> length dofs = all_dofs gs -> length inc = all_dofs gs ->
    (forall g, (g < all_dofs gs)%nat ->
       matvec (all_dofs gs) (tangent p W) (fun h => nth h inc 0) g
       = nth g (newton_rhs (apply_bc_vec res dofs p 1)) 0) ->
    forall v n j b, valid_dof gs v n j -> prescribed (fe_of p v) n j = Some b ->
      nth (dof_number gs v n j) (vadd dofs inc) 0 = b.
  Proof.
    intros Hr Hd Hi Hsol v n j b Hv Hb. pose proof (dof_number_lt gs v n j Hv) as Hlt.
    specialize (Hsol _ Hlt). rewrite row_value in Hsol by (auto; apply prescribed_constrained; eauto).
    unfold newton_rhs in Hsol. rewrite nth_vneg in Hsol.
    destruct (apply_bc_vec_ring res dofs 1 Hr Hd) as [_ G]. rewrite G, Hb in Hsol by auto.
    unfold vadd. rewrite (nth_map2 _ _ _ _ 0 0) by lia. rewrite Hsol. ring.
  Qed.

  Lemma newton_x0_value (dofs : list K) : length dofs = all_dofs gs ->
    length (newton_x0 p dofs) = all_dofs gs /\
    forall v n j, valid_dof gs v n j ->
      nth (dof_number gs v n j) (newton_x0 p dofs) 0 =
      match prescribed (fe_of p v) n j with Some b => b - nth (dof_number gs v n j) dofs 0 | None => 0 end.
  Proof.
    intros Hd. unfold newton_x0, vsub.
    assert (Hz : length (zeros (K := K) (num_total_dofs_all_vars p)) = all_dofs gs).
    { unfold zeros. rewrite repeat_length, all_dofs_total. reflexivity. }
    destruct (assign_bc_spec p BC _ Hz) as [L1 G1]. destruct (copy_bc_spec p BC dofs Hd) as [L2 G2].
    split; [rewrite length_map2; lia|]. intros v n j Hv. pose proof (dof_number_lt gs v n j Hv).
    rewrite (nth_map2 _ _ _ _ 0 0) by lia. rewrite G1, G2 by auto.
    destruct (prescribed (fe_of p v) n j); [reflexivity|]. unfold zeros. rewrite nth_repeat. ring.
  Qed.

  Lemma newton_x0_rows W (dofs res : list K) :
    length res = all_dofs gs -> length dofs = all_dofs gs ->
    forall v n j, valid_dof gs v n j -> constrained (fe_of p v) n j ->
      matvec (all_dofs gs) (tangent p W) (fun h => nth h (newton_x0 p dofs) 0) (dof_number gs v n j)
      = nth (dof_number gs v n j) (newton_rhs (apply_bc_vec res dofs p 1)) 0.
  Proof.
    intros Hr Hd v n j Hv C. rewrite row_value by auto. unfold newton_rhs. rewrite nth_vneg.
    destruct (newton_x0_value dofs Hd) as [_ G]. rewrite G by auto.
    destruct (apply_bc_vec_ring res dofs 1 Hr Hd) as [_ G2]. rewrite G2 by auto.
    apply prescribed_constrained in C as (b & E). rewrite E. ring.
  Qed.
End Ring.

Section Deriv.
  Context {V : Type}.
  Notation K := Rops.
  Variable jvp : (list K -> list K) -> list K -> list K -> list K.
  Variable sqrtK : R -> R.
  Variable p : problem K V.
  Variable pts : list (list (list K)).
  Variable sol dsol : list (list (list K)).
  Variable kf : nat -> face_in K V -> list K.
  Hypothesis WF : wf_problem p.
  Hypothesis NC : 0 < p_num_cells p.
  Hypothesis SOL : sol_ok p sol.
  Hypothesis DSOL : sol_ok p dsol.
  Hypothesis IVS : ivs_ok p.
  Hypothesis KER : kernels_ok p kf.
  Hypothesis JC : forall c, c < p_num_cells p -> jvp_correct jvp (cell_fun p pts sol c) (cell_values p sol c).
  Hypothesis JF : forall s i, s < length (boundary_inds_list p) -> i < num_sel_faces p s ->
    jvp_correct jvp (face_fun sqrtK p pts sol kf s i) (cell_values p sol (face_cell p s i)).
  Hypothesis BC : bcs_ok p.
  Hypothesis RNG : forall f, In f (fes p) -> bc_in_range f.

  Lemma tangent_derivative g (res : R -> list (list (list K))) r0 W :
    g < all_dofs (global_shapes p) ->
    (forall t, compute_residual sqrtK p pts (line3 sol dsol t) = Ok (res t)) ->
    newton_update jvp sqrtK p pts sol = Ok (r0, W) ->
    derivable_pt_lim (fun t => nth g (apply_bc_vec (ravel (res t)) (ravel (line3 sol dsol t)) p (@one K)) (@zero K)) 0
      (matvec (all_dofs (global_shapes p)) (tangent p W) (fun h => nth h (ravel dsol) (@zero K)) g).
  Proof.
    intros Hg Hres HW. destruct (dof_number_surj _ _ Hg) as (v & n & j & Hv & <-).
    assert (LS : forall s, sol_ok p s -> length (ravel s) = all_dofs (global_shapes p)).
    { intros s Hs. rewrite all_dofs_total. apply ravel_length. now apply sol_shapes_ok. }
    assert (LL : forall t, length (ravel (line3 sol dsol t)) = all_dofs (global_shapes p)).
    { intros t. apply LS. apply line_ok; auto. }
    assert (LR : forall t, length (ravel (res t)) = all_dofs (global_shapes p)).
    { intros t. rewrite all_dofs_total. apply ravel_length.
      pose proof (Hres t) as Ht. rewrite (compute_residual_ok sqrtK p pts _ kf) in Ht; auto using line_ok.
      injection Ht as Ht. rewrite <- Ht. apply (helper_shapes Rops_ring); auto using line_ok. }
    destruct (prescribed (fe_of p v) n j) as [b|] eqn:E.
    - pose proof (row_value Rops_ring p BC RNG W v n j (fun h => nth h (ravel dsol) (@zero K)) Hv
        (proj2 (prescribed_constrained _ _ _) (ex_intro _ b E))) as RV.
      rewrite RV.
      set (u := nth (dof_number (global_shapes p) v n j) (ravel sol) 0%R).
      set (d := nth (dof_number (global_shapes p) v n j) (ravel dsol) (@zero K)).
      apply (dlim_ext (fun t => (u - b) + t * d)%R).
      { intros t. destruct (apply_bc_vec_ring Rops_ring p BC _ _ (@one K) (LR t) (LL t)) as [_ G].
        rewrite G, E by auto.
        rewrite (nth_ravel_dof (@zero K) (global_shapes p)) by
          (auto; apply line3_shapes; apply sol_shapes_ok; auto).
        rewrite (get_line3 _ _ _ (global_shapes p)) by (auto; apply sol_shapes_ok; auto).
        rewrite <- !(nth_ravel_dof (@zero K) (global_shapes p)) by (auto; apply sol_shapes_ok; auto).
        change ((u - b) + t * d = (u + t * d) - 1 * b)%R. ring. }
      assert (D : derivable_pt_lim (fun t => (u - b) + t * d)%R 0 (0 + (1 * d + 0 * 0))%R).
      { apply (derivable_pt_lim_plus (fun _ => (u - b)%R) (fun t => (t * d)%R)); [apply derivable_pt_lim_const|].
        apply (derivable_pt_lim_mult (fun t => t) (fun _ => d)); [apply derivable_pt_lim_id|apply derivable_pt_lim_const]. }
      assert (Ed : forall d : R, (0 + (1 * d + 0 * 0))%R = d) by (intros; ring). rewrite Ed in D. exact D.
    - apply (dlim_ext (fun t => nth (dof_number (global_shapes p) v n j) (ravel (res t)) (@zero K))).
      { intros t. destruct (apply_bc_vec_ring Rops_ring p BC _ _ (@one K) (LR t) (LL t)) as [_ G].
        rewrite G, E by auto. reflexivity. }
      assert (matvec (all_dofs (global_shapes p)) (tangent p W) (fun h => nth h (ravel dsol) (@zero K)) (dof_number (global_shapes p) v n j)
        = sum_n (all_dofs (global_shapes p)) (fun h =>
         (coo_entry (p_I p) (p_J p) W (dof_number (global_shapes p) v n j) h * nth h (ravel dsol) 0)%num)) as ->.
      { unfold matvec. apply sum_n_ext. intros h Hh. f_equal.
        apply (tangent_spec p BC RNG W v n j h Hv).
        intros C. apply prescribed_constrained in C as (b & C). congruence. }
      apply (residual_derivative jvp sqrtK p pts sol dsol kf) with (r0 := r0); auto.
  Qed.
End Deriv.
