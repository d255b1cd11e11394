(** C36, C37: multipoint constraints (P_mat) and the adjoint. *)
From Coq Require Import List Arith Reals.
From Verif Require Import Num Arr ArrFacts ProblemFacts BcFacts Fe Problem SpecAssembly SolverBc SpecBc XNum PyDict LinSolve Newton SpecNewton NewtonFacts DynRelax
  Adjoint SpecAdjoint AdjointFacts AdjointMain Examples_solver Examples_arc Examples_relax Examples_adjoint.
Import ListNotations.
Local Open Scope R_scope.

(** C36. A solution returned by Newton's method is P_mat times a finite reduced vector; *)
Theorem C36_solution : forall (O V : Type) (ravel_obj : O -> list Xops) (B : backends O) jvp (p : problem Xops V) pts (P : pmat) fuel cfg out,
  solve_newton ravel_obj B jvp p pts (Some P) fuel cfg = Done (Ok out) ->
  exists y u, Forall (fun x => isfinite x = true) y /\ length y = m_cols P /\ length u = m_rows P /\
    (forall i, (i < m_rows P)%nat -> nth i u zero = sum_n (m_cols P) (fun j => mul (m_at P i j) (nth j y zero))) /\
    length u = num_total_dofs_all_vars p /\ out_sol out = unravel (sol_shapes p) u.
Proof.
  intros O V ravel_obj B jvp p pts P fuel cfg out H.
  destruct (solve_inv _ _ _ _ _ _ _ _ _ H) as (d0 & r0 & d & r & u & _ & _ & _ & (L1 & L2 & E) & L & ES & _ & F & _).
  exists d, u. auto 10.
Qed.
Print Assumptions C36_solution.

(** in particular the dofs of equal rows of P_mat (the two sides of a periodic cell) have equal values. *)
Theorem C36_equal_rows : forall (O V : Type) (ravel_obj : O -> list Xops) (B : backends O) jvp (p : problem Xops V) pts (P : pmat) fuel cfg out,
  solve_newton ravel_obj B jvp p pts (Some P) fuel cfg = Done (Ok out) ->
  forall i i', (i < m_rows P)%nat -> (i' < m_rows P)%nat -> (forall j, (j < m_cols P)%nat -> m_at P i j = m_at P i' j) ->
    nth i (ravel (out_sol out)) zero = nth i' (ravel (out_sol out)) zero.
Proof.
  intros O V ravel_obj B jvp p pts P fuel cfg out H i i' Hi Hi' E.
  destruct (C36_solution _ _ _ _ _ _ _ _ _ _ _ H) as (y & u & _ & _ & _ & Eu & L & ->).
  rewrite ravel_unravel by exact L. rewrite !Eu by assumption. apply sum_n_ext. intros j Hj. now rewrite E.
Qed.
Print Assumptions C36_equal_rows.

(** The residual and the matrix of a Newton step at y are P^T r and P^T A P, where r and A are the residual
    and the tangent of the unconstrained problem at P y; *)
Theorem C36_matrix : forall (K : ops) (V : Type) jvp sqrtK (p : problem K V) pts (P : mat K) y r A,
  g_update_helper jvp sqrtK p pts (Some P) y = Ok (r, A) ->
  exists u r' A', g_update_helper jvp sqrtK p pts None u = Ok (r', A') /\
    (length y = m_cols P /\ length u = m_rows P /\
     forall i, (i < m_rows P)%nat -> nth i u zero = sum_n (m_cols P) (fun j => mul (m_at P i j) (nth j y zero))) /\
    (length r' = m_rows P /\ length r = m_cols P /\
     forall j, (j < m_cols P)%nat -> nth j r zero = sum_n (m_rows P) (fun i => mul (m_at P i j) (nth i r' zero))) /\
    m_rows A' = m_rows P /\ m_cols A' = m_rows P /\ m_rows A = m_cols P /\ m_cols A = m_cols P /\
    forall i j, m_at A i j = sum_n (m_rows P) (fun k => mul (m_at P k i) (sum_n (m_rows P) (fun l => mul (m_at A' k l) (m_at P l j)))).
Proof.
  intros K V jvp sqrtK p pts P y r A H. exact (reduced_all jvp sqrtK p pts P y r A H).
Qed.
Print Assumptions C36_matrix.

(** over the extended reals of the solver model, this is Newton's evaluation. *)
Theorem C36_same_evaluation : forall (V : Type) jvp (p : problem Xops V) pts (P : option pmat) dofs,
  newton_update_helper jvp p pts P dofs = g_update_helper jvp xsqrt p pts P dofs.
Proof. intros. symmetry. apply helper_same. Qed.
Print Assumptions C36_same_evaluation.

(** The reduced matrix is the derivative of the reduced residual. *)
Theorem C36_derivative : forall (V : Type) jvp sqrtK (p : problem Rops V) pts (P : mat Rops) y dy u r0 A (r : R -> list R) (A' : R -> mat Rops),
  is_product P y u -> regular_problem jvp sqrtK p pts (unravel (sol_shapes p) u) -> length dy = m_cols P ->
  g_update_helper jvp sqrtK p pts (Some P) y = Ok (r0, A) ->
  (forall t, g_update_helper jvp sqrtK p pts (Some P) (along y dy t) = Ok (r t, A' t)) ->
  m_rows A = m_cols P /\ m_cols A = m_cols P /\
  forall i, (i < m_cols P)%nat -> derivable_pt_lim (fun t => nth i (r t) 0) 0 (rsum (m_cols P) (fun j => m_at A i j * nth j dy 0)).
Proof.
  intros V jvp sqrtK p pts P y dy u r0 A r A' HP REG Ldy H0 HT. pose proof (times_product P y u HP) as ->.
  exact (reduced_derivative jvp sqrtK p pts P y dy r0 A r A' REG (proj1 HP) Ldy H0 HT).
Qed.
Print Assumptions C36_derivative.
Example C36_derivative_nonvacuous : is_product d_P [3] [3; 6] /\ regular_problem d_jvp sqrt (d_prob [2]) (d_pts [2]) (unravel (sol_shapes (d_prob [2])) [3; 6]) /\
  (exists r A, g_update_helper d_jvp sqrt (d_prob [2]) (d_pts [2]) (Some d_P) [3] = Ok (r, A)) /\
  (forall t, exists r A, g_update_helper d_jvp sqrt (d_prob [2]) (d_pts [2]) (Some d_P) (along [3] [1] t) = Ok (r, A)).
Proof.
  split; [|split; [exact (d_regular 3 6 2)|split; [apply d_reduced_all|intros t; exact (d_reduced_all (3 + t * 1))]]].
  split; [reflexivity|]. split; [reflexivity|]. intros [|[|i]] Hi; unfold rsum; cbn in *; try (exfalso; inversion Hi as [|? X]; inversion X as [|? Y]; inversion Y); ring.
Qed.

(** The dynamic relaxation method does not respect P_mat. *)
Theorem C36_dynamic_relax_refuted : exists (V : Type) B jvp (p : problem Xops V) pts (P : pmat) fuel cfg out,
  solve_dynamic_relax (@ravel Xops) B jvp p pts (Some P) fuel cfg = Done (Ok out) /\
  ~ exists y, full_dofs (Some P) y (ravel (do_sol out)).
Proof.
  exists unit, a_B, n_jvp, n_prob, n_pts, same_P, 3%nat, r_cfg. eexists. split; [exact p_run|]. intros [y H]. exact (p_not y H).
Qed.
Print Assumptions C36_dynamic_relax_refuted.

(** C37. With exact adjoint solves, the backward pass of ad_wrapper returns, for an output cotangent v, the vector g
    for which g . dparams is the derivative of v . u along every curve of solutions u(t) at parameters
    params + t dparams through the forward solution; with P_mat, u = P y and the equations are P^T c = 0. *)
Theorem C37_adjoint : forall (V : Type) jvp sqrtK (prob : list R -> problem Rops V) pts P vjp solve fwd params sol saved v g J,
  f_fwd fwd params = Ok (sol, saved) ->
  regular_problem jvp sqrtK (prob params) (pts params) sol -> sol_ok (prob params) v ->
  let n := num_total_dofs_all_vars (prob params) in
  has_derivative (constraint_of sqrtK prob pts n) (ravel sol ++ params) J ->
  vjp_correct vjp (partial_params_c_fn sqrtK prob pts sol) params ->
  (forall A b x, solve A b = Ok x -> solves_exactly A b x) ->
  f_bwd jvp sqrtK prob pts P vjp solve saved v = Ok g ->
  length g = length params /\
  forall dparams (y u : R -> list R) dy r, length dparams = length params -> 0 < r ->
    u 0 = ravel sol -> (forall t, full_of P (y t) (u t) /\ length (u t) = n) -> length dy = length (y 0) -> velocity y dy ->
    (forall t, Rabs t < r -> equilibrium sqrtK prob pts P (along params dparams t) (u t)) ->
    derivable_pt_lim (fun t => inner (ravel v) (u t)) 0 (inner g dparams).
Proof.
  intros V jvp sqrtK prob pts P vjp solve fwd params sol saved v g J HF REG SV n D VJ SE H.
  unfold f_fwd in HF. apply bind_inv in HF as (s & _ & E). injection E as -> <-.
  exact (adjoint_identity jvp sqrtK prob pts params sol REG vjp solve P J v g D VJ SE SV H).
Qed.
Print Assumptions C37_adjoint.
Example C37_nonvacuous :
  regular_problem d_jvp sqrt (d_prob [2]) (d_pts [2]) (d_sol 5 10) /\ sol_ok (d_prob [2]) d_v /\
  has_derivative (constraint_of sqrt d_prob d_pts 2) [5; 10; 2] (d_J 5 2) /\
  vjp_correct (d_vjp 5) (partial_params_c_fn (K := Rops) sqrt d_prob d_pts (d_sol 5 10)) [2] /\
  (forall A b x, cramer A b = Ok x -> solves_exactly A b x) /\
  f_bwd d_jvp sqrt d_prob d_pts None (d_vjp 5) cramer ([2], d_sol 5 10) d_v = Ok [5] /\
  (forall t, equilibrium sqrt d_prob d_pts None (along [2] [1] t) [5; 5 * (2 + t)]).
Proof.
  split; [apply d_regular|]. split; [apply (d_regular 0 1 2)|]. split; [apply d_derivative|]. split; [apply d_vjp_ok|]. split; [exact cramer_exact|].
  split; [exact d_backward|]. intros t. apply d_curve.
Qed.
Example C37_nonvacuous_P :
  regular_problem d_jvp sqrt (d_prob [0]) (d_pts [0]) (d_sol 1 2) /\ sol_ok (d_prob [0]) d_w /\
  f_bwd d_jvp sqrt d_prob d_pts (Some d_P) (d_vjp 1) cramer ([0], d_sol 1 2) d_w = Ok [2 / 5] /\
  (forall t, Rabs t < 1 -> equilibrium sqrt d_prob d_pts (Some d_P) (along [0] [1] t) [5 / (5 - 2 * t); 2 * (5 / (5 - 2 * t))]).
Proof.
  split; [apply d_regular|]. split; [apply (d_regular 1 0 0)|]. split; [exact d_backward_P|]. intros t Ht. now apply d_curve_P.
Qed.
