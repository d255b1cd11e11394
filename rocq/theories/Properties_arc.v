(** Properties C31-C33 and C57: the arc-length method. *)
From Coq Require Import String List Arith Lia Bool Reals Lra ZArith.
From Verif Require Import Num Arr Fe Problem SolverBc XNum PyDict Options LinSolve Newton SpecNewton ArcLength SpecArc ArcFacts
  ArcMain SpecAssembly SpecBc ArcBc Examples_solver Examples_arc.
Import ListNotations.
Local Open Scope string_scope.
Local Open Scope R_scope.

Section Arc.
  Context {O V : Type}.
  Variable ravel_obj : O -> list Xops.
  Variable obj_of_sol : list (list (list Xops)) -> O.
  Variable B : backends O.
  Variable jvp : (list Xops -> list Xops) -> list Xops -> list Xops -> list Xops.
  Variable p : problem Xops V.
  Variable pts : list (list (list Xops)).
  Variable P_mat : option pmat.
  Variable callback : pyval O -> nat -> list Xops -> xr -> result unit.

  (** C31: whatever state an iteration starts from and whatever the linear solver returns, if the
      iteration ends normally then all numbers are finite, the new point is exactly on the arc, and the
      stored direction is the increment since the start of the step. *)
  Theorem C31_disp_iterate : forall psi Dl u0 lam0 st r st',
    disp_body B jvp p pts P_mat psi Dl u0 lam0 st = Ok (r, st') ->
    finite_on_arc psi Dl (assign_bc (map (fun _ => zero) u0) p) u0 lam0 (ar_u st') (ar_lam st') /\
    ar_du st' = vsub (ar_u st') u0 /\ ar_dlam st' = xsub (ar_lam st') lam0.
  Proof.
    intros psi Dl u0 lam0 st r st' H. apply disp_body_inv in H as (res & A & ub & ut & _ & _ & _ & _ & U).
    exact (update_on_arc _ _ _ _ _ _ _ _ _ _ U).
  Qed.
  Theorem C31_force_iterate : forall q psi Dl u0 lam0 st r st',
    force_body B jvp p pts P_mat q psi Dl u0 lam0 st = Ok (r, st') ->
    finite_on_arc psi Dl (assign_zeros_bc q p) u0 lam0 (ar_u st') (ar_lam st') /\
    ar_du st' = vsub (ar_u st') u0 /\ ar_dlam st' = xsub (ar_lam st') lam0.
  Proof.
    intros q psi Dl u0 lam0 st r st' H. apply force_body_inv in H as (res & tot & A & ub & ut & _ & _ & _ & _ & _ & U).
    exact (update_on_arc _ _ _ _ _ _ _ _ _ _ U).
  Qed.

  (** C31: with exact linear solves the new point satisfies the linearised equilibrium. *)
  Theorem C31_disp_linearised : forall psi Dl u0 lam0 st r st' res A,
    let u_b := assign_bc (map (fun _ => zero) u0) p in
    disp_body B jvp p pts P_mat psi Dl u0 lam0 st = Ok (r, st') ->
    arc_residual jvp p pts P_mat (ar_lam st) (ar_u st) = Ok (res, A) ->
    (forall t b x, (b = vneg res \/ b = u_b) -> b_spsolve B t A b = Ok x -> solves A b x) ->
    exists dlam, dlam = xsub (ar_lam st') (ar_lam st) /\
      solves A (vadd (vneg res) (vscale (dlam : Xops) u_b)) (vsub (ar_u st') (ar_u st)).
  Proof.
    intros psi Dl u0 lam0 st r st' res A u_b H Hr S. apply disp_body_inv in H as (res' & A' & ub & ut & Hr' & _ & S1 & S2 & U).
    rewrite Hr in Hr'. injection Hr' as <- <-. apply S in S1; [|now left]. apply S in S2; [|now right].
    destruct (linearised _ _ _ _ _ _ _ _ _ _ _ _ U S1 S2) as (dl & _ & E & X). eauto.
  Qed.
  Theorem C31_force_linearised : forall q psi Dl u0 lam0 st r st' res A tot,
    let q0 := assign_zeros_bc q p in
    force_body B jvp p pts P_mat q psi Dl u0 lam0 st = Ok (r, st') ->
    arc_residual jvp p pts P_mat (Fin 1) (ar_u st) = Ok (res, A) ->
    tot = vadd res (vscale (xsub (Fin 1) (ar_lam st) : Xops) q0) ->
    (forall t b x, (b = vneg tot \/ b = q0) -> b_spsolve B t A b = Ok x -> solves A b x) ->
    exists dlam, dlam = xsub (ar_lam st') (ar_lam st) /\
      solves A (vadd (vneg tot) (vscale (dlam : Xops) q0)) (vsub (ar_u st') (ar_u st)).
  Proof.
    intros q psi Dl u0 lam0 st r st' res A tot q0 H Hr Ht S.
    apply force_body_inv in H as (res' & tot' & A' & ub & ut & Hr' & Ht' & _ & S1 & S2 & U).
    rewrite Hr in Hr'. injection Hr' as <- <-. apply add_vec_ok in Ht' as [_ Ht']. 
    assert (tot' = tot) as -> by (rewrite Ht, Ht'; reflexivity).
    apply S in S1; [|now left]. apply S in S2; [|now right].
    destruct (linearised _ _ _ _ _ _ _ _ _ _ _ _ U S1 S2) as (dl & _ & E & X). eauto.
  Qed.

  (** C31: a whole corrector call. *)
  Theorem C31_disp_step : forall fuel Dl psi st st', length (ar_u st) = num_total_dofs_all_vars p ->
    arc_length_solver_disp_driven B jvp p pts P_mat fuel Dl psi st = Done (Ok st') ->
    finite_on_arc psi Dl (assign_bc (zeros (num_total_dofs_all_vars p)) p) (ar_u st) (ar_lam st) (ar_u st') (ar_lam st').
  Proof. exact (disp_arc B jvp p pts P_mat). Qed.
  Theorem C31_force_step : forall fuel q Dl psi st st',
    arc_length_solver_force_driven B jvp p pts P_mat fuel q Dl psi st = Done (Ok st') ->
    finite_on_arc psi Dl (assign_zeros_bc q p) (ar_u st) (ar_lam st) (ar_u st') (ar_lam st').
  Proof. exact (force_arc B jvp p pts P_mat). Qed.

  (** C32: of all points of the line u + delta_u_bar + z delta_u_t, lam + z that are on the arc, the one taken
      has the largest inner product with the previous direction; if all these products are below 1e-10 in
      absolute value it has the largest lam. *)
  Theorem C32_disp_choice : forall psi Dl u0 lam0 st r st' dx dl,
    disp_body B jvp p pts P_mat psi Dl u0 lam0 st = Ok (r, st') -> ar_du st = map Fin dx -> ar_dlam st = Fin dl ->
    exists psi' d q u0' l0 x l b t s,
      psi = Fin psi' /\ Dl = Fin d /\ assign_bc (map (fun _ => zero) u0) p = map Fin q /\ u0 = map Fin u0' /\ lam0 = Fin l0 /\
      ar_u st = map Fin x /\ ar_lam st = Fin l /\
      (exists res A, arc_residual jvp p pts P_mat (ar_lam st) (ar_u st) = Ok (res, A) /\
         b_spsolve B (ar_solves st) A (vneg res) = Ok (map Fin b) /\ b_spsolve B (S (ar_solves st)) A (map Fin q) = Ok (map Fin t)) /\
      let cand z := radd x (radd b (rscale z t)) in
      let prod z := arc_dot psi' q dx dl (rsub (cand z) u0') (l + z - l0) in
      let valid z := on_arc psi' d q u0' l0 (cand z) (l + z) in
      ar_u st' = map Fin (cand s) /\ ar_lam st' = Fin (l + s) /\ valid s /\
      ((forall z, valid z -> Rabs (prod z) < / 10 ^ 10) -> forall z, valid z -> l + z <= l + s) /\
      ((exists z, valid z /\ / 10 ^ 10 <= Rabs (prod z)) -> forall z, valid z -> prod z <= prod s).
  Proof.
    intros psi Dl u0 lam0 st r st' dx dl H H1 H2. apply disp_body_inv in H as (res & A & ub & ut & Hr & _ & S1 & S2 & U).
    destruct (update_choice _ _ _ _ _ _ _ _ _ _ dx dl U H1 H2) as
      (psi' & d & q & u0' & l0 & x & l & b & t & s & E1 & E2 & E3 & E4 & E5 & E6 & E7 & -> & -> & R).
    exists psi', d, q, u0', l0, x, l, b, t, s. repeat (split; [assumption|]). split; [|exact R]. exists res, A. rewrite <- E3. auto.
  Qed.
  Theorem C32_force_choice : forall q psi Dl u0 lam0 st r st' dx dl,
    force_body B jvp p pts P_mat q psi Dl u0 lam0 st = Ok (r, st') -> ar_du st = map Fin dx -> ar_dlam st = Fin dl ->
    exists psi' d q0 u0' l0 x l b t s,
      psi = Fin psi' /\ Dl = Fin d /\ assign_zeros_bc q p = map Fin q0 /\ u0 = map Fin u0' /\ lam0 = Fin l0 /\
      ar_u st = map Fin x /\ ar_lam st = Fin l /\
      (exists res A, arc_residual jvp p pts P_mat (Fin 1) (ar_u st) = Ok (res, A) /\
         b_spsolve B (ar_solves st) A (vneg (vadd res (vscale (Fin (1 - l) : Xops) (map Fin q0)))) = Ok (map Fin b) /\
         b_spsolve B (S (ar_solves st)) A (map Fin q0) = Ok (map Fin t)) /\
      let cand z := radd x (radd b (rscale z t)) in
      let prod z := arc_dot psi' q0 dx dl (rsub (cand z) u0') (l + z - l0) in
      let valid z := on_arc psi' d q0 u0' l0 (cand z) (l + z) in
      ar_u st' = map Fin (cand s) /\ ar_lam st' = Fin (l + s) /\ valid s /\
      ((forall z, valid z -> Rabs (prod z) < / 10 ^ 10) -> forall z, valid z -> l + z <= l + s) /\
      ((exists z, valid z /\ / 10 ^ 10 <= Rabs (prod z)) -> forall z, valid z -> prod z <= prod s).
  Proof.
    intros q psi Dl u0 lam0 st r st' dx dl H H1 H2. apply force_body_inv in H as (res & tot & A & ub & ut & Hr & Ht & _ & S1 & S2 & U).
    destruct (update_choice _ _ _ _ _ _ _ _ _ _ dx dl U H1 H2) as
      (psi' & d & q0 & u0' & l0 & x & l & b & t & s & E1 & E2 & E3 & E4 & E5 & E6 & E7 & -> & -> & R).
    exists psi', d, q0, u0', l0, x, l, b, t, s. repeat (split; [assumption|]). split; [|exact R]. exists res, A.
    apply add_vec_ok in Ht as [_ Ht]. rewrite E3, E7 in Ht. rewrite <- E3 at 2. split; [exact Hr|]. split; [|exact S2].
    rewrite Ht in S1. exact S1.
  Qed.

  (** C33: continuation runs, both controls. *)
  Theorem C33_displacement : forall fuel cfg out,
    lookup cfg "control" = Some (VStr "displacement") ->
    solve_arc_length ravel_obj obj_of_sol B jvp p pts P_mat callback fuel cfg = Done (Ok out) ->
    exists psi Dl N, number_option cfg "psi" (Fin 1) psi /\ number_option cfg "Delta_l" (Fin (/ 10)) Dl /\
      steps_option cfg "max_continuation_steps" 600 N /\
      good_history (num_total_dofs_all_vars p) N psi (fun _ => Dl) (assign_bc (repeat (Fin 0) (num_total_dofs_all_vars p)) p)
        (i_history (ao_info out)) /\
      ao_calls out = (match lookup cfg "step_callback" with None | Some VNone => [] | _ => i_history (ao_info out) end) /\
      i_control (ao_info out) = "displacement" /\
      ends_with obj_of_sol p (solve_newton ravel_obj B jvp p pts P_mat fuel) cfg out.
  Proof. exact (disp_run ravel_obj obj_of_sol B jvp p pts P_mat callback). Qed.
  Theorem C33_force : forall fuel cfg out,
    lookup cfg "control" = Some (VStr "force") ->
    solve_arc_length ravel_obj obj_of_sol B jvp p pts P_mat callback fuel cfg = Done (Ok out) ->
    exists q psi Dl late sw N, lookup cfg "q_vec_aux" = Some (VObj q) /\
      number_option cfg "psi" (Fin (/ 2)) psi /\ number_option cfg "Delta_l" (Fin (/ 10)) Dl /\
      number_option cfg "Delta_l_late" (Fin 1) late /\ number_option cfg "Delta_l_switch_step" (Fin 200) sw /\
      steps_option cfg "max_continuation_steps" 500 N /\
      good_history (num_total_dofs_all_vars p) N psi (fun i => if xltb (Fin (INR i)) sw then Dl else late)
        (assign_zeros_bc (ravel_obj q) p) (i_history (ao_info out)) /\
      ao_calls out = (match lookup cfg "step_callback" with None | Some VNone => [] | _ => i_history (ao_info out) end) /\
      i_control (ao_info out) = "force" /\
      ends_with obj_of_sol p (solve_newton ravel_obj B jvp p pts P_mat fuel) cfg out.
  Proof. exact (force_run ravel_obj obj_of_sol B jvp p pts P_mat callback). Qed.
  (** C33: if lam = 1 was reached the returned solution meets the Newton tolerances at full load. *)
  Theorem C33_polished : forall fuel cfg out t rt,
    P_mat = None -> (forall s, ravel_obj (obj_of_sol s) = ravel s) ->
    solve_arc_length ravel_obj obj_of_sol B jvp p pts P_mat callback fuel cfg = Done (Ok out) ->
    xgeb (i_lam (ao_info out)) (Fin 1) = true ->
    (forall d, lookup cfg "newton" = Some (VDict d) -> option_value d "tol" (/ 10 ^ 6) t /\ option_value d "rel_tol" (/ 10 ^ 8) rt) ->
    (lookup cfg "newton" = None -> t = / 10 ^ 6 /\ rt = / 10 ^ 8) ->
    exists r0v r0 u rv r,
      newton_residual p pts None (ravel (unravel (sol_shapes p) (fst (point_before (num_total_dofs_all_vars p)
         (i_history (ao_info out)) (List.length (i_history (ao_info out))))))) r0v /\ xnorm r0v = Fin r0 /\
      newton_residual p pts None u rv /\ xnorm rv = Fin r /\
      length u = num_total_dofs_all_vars p /\ ao_sol out = unravel (sol_shapes p) u /\ (r <= t \/ r <= rt * r0).
  Proof.
    intros fuel cfg out t rt HP HR H G T0 T1. assert (E : ends_with obj_of_sol p (solve_newton ravel_obj B jvp p pts P_mat fuel) cfg out).
    { pose proof H as H'. unfold solve_arc_length in H'. destruct (lookup cfg "control") as [v|] eqn:Ec; [|discriminate].
      destruct v as [| | | |c| |]; try discriminate. destruct (String.eqb_spec c "displacement") as [->|].
      - destruct (disp_run _ _ _ _ _ _ _ _ _ _ _ Ec H) as (? & ? & ? & _ & _ & _ & _ & _ & _ & E). exact E.
      - destruct (String.eqb_spec c "force") as [->|]; [|discriminate].
        destruct (force_run _ _ _ _ _ _ _ _ _ _ _ Ec H) as (? & ? & ? & ? & ? & ? & _ & _ & _ & _ & _ & _ & _ & _ & _ & E). exact E. }
    eapply polished_converged; eassumption.
  Qed.
  (** C33: a missing or unknown control, or force control without a load vector, raises ValueError. *)
  Theorem C33_control_required : forall fuel cfg,
    (forall c, lookup cfg "control" = Some (VStr c) -> c <> "displacement" /\ c <> "force") ->
    solve_arc_length ravel_obj obj_of_sol B jvp p pts P_mat callback fuel cfg = Done (Err ValueErr).
  Proof. exact (control_errors ravel_obj obj_of_sol B jvp p pts P_mat callback). Qed.
  Theorem C33_load_required : forall fuel cfg, lookup cfg "control" = Some (VStr "force") ->
    (lookup cfg "q_vec_aux" = None \/ lookup cfg "q_vec_aux" = Some VNone) ->
    solve_arc_length ravel_obj obj_of_sol B jvp p pts P_mat callback fuel cfg = Done (Err ValueErr).
  Proof. exact (force_needs_q ravel_obj obj_of_sol B jvp p pts P_mat callback). Qed.

  (** C57: a corrector call makes at least one update; every update but the last started from a point with
      residual norm above 1e-6, the last one from a point where that was not so. *)
  Theorem C57_disp_last_update : forall fuel Dl psi st st',
    arc_length_solver_disp_driven B jvp p pts P_mat fuel Dl psi st = Done (Ok st') ->
    exists k st1 res A, iterations (disp_body B jvp p pts P_mat psi Dl (ar_u st) (ar_lam st)) k st st1 /\
      arc_residual jvp p pts P_mat (ar_lam st1) (ar_u st1) = Ok (res, A) /\ xgtb (xnorm res) (Fin (/ 10 ^ 6)) = false /\
      disp_body B jvp p pts P_mat psi Dl (ar_u st) (ar_lam st) st1 = Ok (xnorm res, st').
  Proof.
    intros fuel Dl psi st st' H. apply loop_last in H; [|exact tol_lt_1]. destruct H as (k & st1 & r & I & E & G).
    pose proof E as E'. apply disp_body_inv in E' as (res & A & ub & ut & Hr & -> & _). eauto 10.
  Qed.
  Theorem C57_force_last_update : forall fuel q Dl psi st st',
    arc_length_solver_force_driven B jvp p pts P_mat fuel q Dl psi st = Done (Ok st') ->
    exists k st1 res A, iterations (force_body B jvp p pts P_mat q psi Dl (ar_u st) (ar_lam st)) k st st1 /\
      arc_residual jvp p pts P_mat (Fin 1) (ar_u st1) = Ok (res, A) /\
      (let r := xnorm (vadd res (vscale (xsub (Fin 1) (ar_lam st1) : Xops) (assign_zeros_bc q p))) in
       xgtb r (Fin (/ 10 ^ 6)) = false /\
       force_body B jvp p pts P_mat q psi Dl (ar_u st) (ar_lam st) st1 = Ok (r, st')).
  Proof.
    intros fuel q Dl psi st st' H. unfold arc_length_solver_force_driven in H. destruct (_ =? _)%nat; [|discriminate].
    apply loop_last in H; [|exact tol_lt_1]. destruct H as (k & st1 & r & I & E & G).
    pose proof E as E'. apply force_body_inv in E' as (res & tot & A & ub & ut & Hr & Ht & -> & _).
    apply add_vec_ok in Ht as [_ Ht]. subst tot. exists k, st1, res, A. auto.
  Qed.
End Arc.
Print Assumptions C31_disp_iterate.
Print Assumptions C31_force_iterate.
Print Assumptions C31_disp_linearised.
Print Assumptions C31_force_linearised.
Print Assumptions C31_disp_step.
Print Assumptions C31_force_step.
Print Assumptions C32_disp_choice.
Print Assumptions C32_force_choice.
Print Assumptions C33_displacement.
Print Assumptions C33_force.
Print Assumptions C33_polished.
Print Assumptions C33_control_required.
Print Assumptions C33_load_required.
Print Assumptions C57_disp_last_update.
Print Assumptions C57_force_last_update.

(** C31: for finite data of matching sizes and a load direction that is not zero, an iteration's update
    succeeds exactly when the line meets the arc, and otherwise raises AssertionError. *)
Theorem C31_update_raises : forall psi d q u0 l0 x l dx dl b t m n,
  length x = length u0 -> length b = length u0 -> length t = length u0 -> length dx = length u0 ->
  len2 t + psi * psi * len2 q <> 0 ->
  let run := arc_update (Fin psi) (Fin d) (map Fin q) (map Fin u0) (Fin l0)
      (mkArc (map Fin x) (Fin l) (map Fin dx) (Fin dl) m) (map Fin b) (map Fin t) n in
  ((exists st', run = Ok st') <-> exists z, on_arc psi d q u0 l0 (radd x (radd b (rscale z t))) (l + z)) /\
  ((~ exists z, on_arc psi d q u0 l0 (radd x (radd b (rscale z t))) (l + z)) -> run = Err AssertionErr).
Proof. exact update_iff. Qed.
Print Assumptions C31_update_raises.

(** C31: what the correctors drive to zero.  At a constrained dof the entry of the residual is u - scale b for the prescribed value b (scale is
    lam in displacement control and 1 in force control), at any other dof it is the assembled residual of the weak form; A is the tangent. *)
Theorem C31_residual : forall (V : Type) jvp (p : problem Xops V) pts P_mat kf,
  wf_problem p -> (0 < p_num_cells p)%nat -> ivs_ok p -> kernels_ok p kf -> bcs_ok p ->
  forall (scale : xr) d res A, arc_residual jvp p pts P_mat scale d = Ok (res, A) ->
    let gs := global_shapes p in
    length d = all_dofs gs /\ length res = all_dofs gs /\
    exists r W, newton_update jvp xsqrt p pts (unravel (sol_shapes p) d) = Ok (r, W) /\
      compute_residual xsqrt p pts (unravel (sol_shapes p) d) = Ok r /\ A = get_A p P_mat W /\
      forall v n j, valid_dof gs v n j ->
        nth (dof_number gs v n j) res (Fin 0) =
        match prescribed (fe_of p v) n j with
        | Some b => xadd (nth (dof_number gs v n j) d (Fin 0)) (xmul (xopp b) scale)
        | None => nth (dof_number gs v n j) (ravel r) (Fin 0)
        end.
Proof. exact (@arc_residual_entries). Qed.
Print Assumptions C31_residual.
(** C57: where the last update of a displacement-controlled corrector started, with a finite residual, every constrained dof was within 1e-6 of
    lam times its prescribed value. *)
Theorem C57_disp_prescribed : forall (O V : Type) (B : backends O) jvp (p : problem Xops V) pts P_mat kf,
  wf_problem p -> (0 < p_num_cells p)%nat -> ivs_ok p -> kernels_ok p kf -> bcs_ok p ->
  forall fuel Dl psi st st', arc_length_solver_disp_driven B jvp p pts P_mat fuel Dl psi st = Done (Ok st') ->
    exists k st1 r, iterations (disp_body B jvp p pts P_mat psi Dl (ar_u st) (ar_lam st)) k st st1 /\
      disp_body B jvp p pts P_mat psi Dl (ar_u st) (ar_lam st) st1 = Ok (r, st') /\
      (isfinite r = true -> forall v n j b, valid_dof (global_shapes p) v n j -> prescribed (fe_of p v) n j = Some b ->
        exists u c l, nth (dof_number (global_shapes p) v n j) (ar_u st1) (Fin 0) = Fin u /\ b = Fin c /\ ar_lam st1 = Fin l /\
          Rabs (u - l * c) <= / 10 ^ 6).
Proof. exact (@disp_bc_reached). Qed.
Print Assumptions C57_disp_prescribed.
Example C31_residual_nonvacuous :
  (wf_problem n_prob /\ (0 < p_num_cells n_prob)%nat /\ ivs_ok n_prob /\ kernels_ok n_prob (fun _ _ => []) /\ bcs_ok n_prob) /\
  exists A, arc_residual n_jvp n_prob n_pts None (Fin (1 / 2)) [Fin 0; Fin 0] = Ok ([Fin (0 + - (5) * (1 / 2)); Fin (0 + (0 + - 0))], A).
Proof. split; [exact n_ok|]. destruct (a_residual (1 / 2) 0 0) as (A & E & _). eauto. Qed.

(** C57: the point a corrector call returns need not be in equilibrium: the residual is not checked after the
    last update.  Here the call starts in equilibrium, derivative and linear solves are exact, and the
    returned point has residual norm 1/8. *)
Theorem C57_returned_point_in_equilibrium_refuted :
  ~ forall (p : problem Xops unit) pts (B : backends sol_obj) jvp fuel q Dl psi st st' res A,
      (forall A0 b t x, b_spsolve B t A0 b = Ok x -> forall a c, b = [Fin c] -> m_rows A0 = 1%nat -> m_cols A0 = 1%nat ->
         m_at A0 0 0 = Fin a -> a <> 0 -> solves A0 b x) ->
      arc_length_solver_force_driven B jvp p pts None fuel q Dl psi st = Done (Ok st') ->
      arc_residual jvp p pts None (Fin 1) (ar_u st') = Ok (res, A) ->
      xleb (xnorm (vadd res (vscale (xsub (Fin 1) (ar_lam st') : Xops) (assign_zeros_bc q p)))) (Fin (/ 10 ^ 6)) = true.
Proof.
  intros H. destruct (c_off []) as (res & A & E & N).
  assert (G := H (s_prob c_g) [] c_B c_jvp 1%nat [Fin 1] (Fin (1 / 2)) (Fin 0) c_start c_next res A).
  change (assign_zeros_bc [Fin 1] (s_prob c_g)) with [Fin 1] in G. rewrite N in G. clear H.
  assert (X : xleb (Fin (1 / 8)) (Fin (/ 10 ^ 6)) = true).
  { apply G; [|apply c_step|exact E]. intros A0 b t x Hx a c -> R C M Na. cbn [b_spsolve c_B nth] in Hx. injection Hx as <-.
    rewrite M. cbn [xdiv]. destruct (Req_EM_T a 0) as [|_]; [contradiction|]. apply (solves1 A0 a); auto. field. exact Na. }
  unfold xleb in X. cbn [xltb xeqb] in X. apply orb_true_iff in X.
  assert (S : / 10 ^ 6 < 1 / 8).
  { replace (1 / 8) with (/ 8) by lra. apply Rinv_lt_contravar; lra. }
  destruct X as [X|X]; [apply Rltb_true in X|apply Reqb_true in X]; lra.
Qed.
Print Assumptions C57_returned_point_in_equilibrium_refuted.

(** The hypotheses are met: a whole run in displacement control (one step, polished), one corrector step in
    force control with exact solves. *)
Example C33_run : solve_arc_length (@ravel Xops) (fun s => s) a_B n_jvp n_prob n_pts None (fun _ _ _ _ => Ok tt) 5 a_cfg = Done (Ok a_out)
  /\ lookup a_cfg "control" = Some (VStr "displacement") /\ lookup a_cfg "newton" = None /\ xgeb (i_lam (ao_info a_out)) (Fin 1) = true.
Proof. split; [exact a_run|]. split; [reflexivity|]. split; [reflexivity|]. exact ge_1_1. Qed.
Example C31_body_runs :
  disp_body a_B n_jvp n_prob n_pts None (Fin (1 / 2)) (Fin (15 / 2)) [Fin 0; Fin 0] (Fin 0) a_start = Ok (Fin 0, a_next) /\
  force_body c_B c_jvp (s_prob c_g) [] None [Fin 1] (Fin 0) (Fin (1 / 2)) [Fin 0] (Fin 0) c_start = Ok (Fin 0, c_next) /\
  arc_length_solver_force_driven c_B c_jvp (s_prob c_g) [] None 1 [Fin 1] (Fin (1 / 2)) (Fin 0) c_start = Done (Ok c_next).
Proof. split; [exact a_body|]. split; [|apply c_step]. now destruct (c_body []) as (? & _ & _ & _ & _ & _ & E). Qed.
