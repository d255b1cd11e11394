(** Properties C34, C35, C58, C59: dynamic relaxation and the form of the result of solver(). *)
From Coq Require Import String List Arith Lia Bool Reals Lra ZArith Permutation.
From Verif Require Import Num Arr Fe Problem SpecAssembly SolverBc SpecBc XNum PyDict Options LinSolve Newton SpecNewton ArcLength SpecArc
  DynRelax SpecRelax RelaxFacts RelaxMain Solver SolverMain Examples_solver Examples_arc Examples_relax.
Import ListNotations.
Local Open Scope string_scope.
Local Open Scope R_scope.

Section Relax.
  Context {O V : Type}.
  Variable ravel_obj : O -> list Xops.
  Variable B : backends O.
  Variable jvp : (list Xops -> list Xops) -> list Xops -> list Xops -> list Xops.
  Variable p : problem Xops V.
  Variable pts : list (list (list Xops)).
  Variable P_mat : option pmat.
  Variable kf : nat -> face_in Xops V -> list Xops.
  Hypothesis WF : wf_problem p.
  Hypothesis NC : (0 < p_num_cells p)%nat.
  Hypothesis IVS : ivs_ok p.
  Hypothesis KER : kernels_ok p kf.
  Hypothesis BC : bcs_ok p.
  Hypothesis RNG : forall f, In f (fes p) -> bc_in_range f.

  (** C34: after any number of iterations, either all dofs are NaN or every constrained dof has the
      value it had at the start. *)
  Theorem C34_iterates : forall u0 st0 nKMat nPrint n st,
    dr_start jvp p pts u0 = Ok st0 -> relaxes jvp p pts nKMat nPrint n st0 st ->
    dr_nIters st = n /\ length (dr_q st) = num_total_dofs_all_vars p /\
    (all_nan (dr_q st) \/ keeps_constrained p u0 (dr_q st)).
  Proof. exact (iterates_keep jvp p pts kf WF NC IVS KER BC RNG). Qed.

  (** C34: what is returned, with the residual of the problem there.  "finished" is reported exactly if
      no free residual is NaN, and then all free residuals are within the tolerance. *)
  Theorem C34_result : forall fuel cfg out, solve_dynamic_relax ravel_obj B jvp p pts P_mat fuel cfg = Done (Ok out) ->
    exists tol u res, number_option cfg "tol" (Fin (/ 10 ^ 6)) tol /\
      do_sol out = unravel (sol_shapes p) u /\ residual_at p pts u res /\ (do_iters out <= fuel)%nat /\
      (do_finished out = true <->
        forall g, (g < num_total_dofs_all_vars p)%nat -> ~ constrained_dof p g -> nth g res (Fin 0) <> NaN) /\
      (forall t, tol = Fin t -> do_finished out = true ->
        forall g, (g < num_total_dofs_all_vars p)%nat -> ~ constrained_dof p g ->
          exists a, nth g res (Fin 0) = Fin a /\ Rabs a <= t).
  Proof.
    intros fuel cfg out H. apply solve_options in H as (tol & nK & nP & g & T & _ & H).
    apply (solve_relax_inv B jvp p pts P_mat kf WF NC IVS KER BC RNG) in H as (u0 & st0 & st & n & res & _ & _ & _ & I & F & _ & _ & S & _ & R & N & E).
    exists tol, (dr_q st), res. rewrite I. auto 10.
  Qed.

  (** C34: with an initial guess, the returned solution satisfies the Dirichlet conditions exactly, or
      is NaN everywhere. *)
  Theorem C34_guess : forall fuel cfg out o, lookup cfg "initial_guess" = Some (VObj o) ->
    solve_dynamic_relax ravel_obj B jvp p pts P_mat fuel cfg = Done (Ok out) ->
    (forall v n j, valid_dof (global_shapes p) v n j -> get2 (Fin 0) (nth v (do_sol out) []) n j = NaN) \/
    (forall v n j b, valid_dof (global_shapes p) v n j -> prescribed (fe_of p v) n j = Some b ->
       get2 (Fin 0) (nth v (do_sol out) []) n j = b).
  Proof.
    intros fuel cfg out o L H. apply solve_options in H as (tol & nK & nP & g & _ & G & H). rewrite L in G. destruct G as (o' & _ & ->).
    apply (solve_relax_inv B jvp p pts P_mat kf WF NC IVS KER BC RNG) in H as (u0 & st0 & st & n & res & I & _ & _ & _ & _ & _ & Lq & S & K & _).
    rewrite S. destruct K as [K|K]; [left; exact (nan_values p _ Lq K)|right].
    exact (kept_values p _ _ Lq (guess_bc B jvp p pts P_mat BC _ _ _ I) K).
  Qed.

  (** C34: without a guess the same holds if the one linear solve made at the start is exact. *)
  Theorem C34_no_guess : forall fuel cfg out, lookup cfg "initial_guess" = None -> P_mat = None ->
    (forall t A b x0 lo x, snd (linear_solver B t A b x0 lo) = Ok x -> solves A b x) ->
    (forall v n j b, valid_dof (global_shapes p) v n j -> prescribed (fe_of p v) n j = Some b -> isfinite b = true) ->
    solve_dynamic_relax ravel_obj B jvp p pts P_mat fuel cfg = Done (Ok out) ->
    (forall v n j, valid_dof (global_shapes p) v n j -> get2 (Fin 0) (nth v (do_sol out) []) n j = NaN) \/
    (forall v n j b, valid_dof (global_shapes p) v n j -> prescribed (fe_of p v) n j = Some b ->
       get2 (Fin 0) (nth v (do_sol out) []) n j = b).
  Proof.
    intros fuel cfg out L PN EX FI H. apply solve_options in H as (tol & nK & nP & g & _ & G & H). rewrite L in G. subst g.
    apply (solve_relax_inv B jvp p pts P_mat kf WF NC IVS KER BC RNG) in H as (u0 & st0 & st & n & res & I & _ & _ & _ & _ & _ & Lq & S & K & _).
    rewrite S. destruct K as [K|K]; [left; exact (nan_values p _ Lq K)|right].
    exact (kept_values p _ _ Lq (exact_start B jvp p pts P_mat kf WF NC IVS KER BC RNG _ _ PN EX FI I) K).
  Qed.

  (** C35: in every iteration either all new velocities are NaN, or each is m times the old one minus
      k r / M with |m| < 1 and 0 < k < 1. *)
  Theorem C35_velocity : forall u0 st0 nKMat nPrint n st st',
    dr_start jvp p pts u0 = Ok st0 -> relaxes jvp p pts nKMat nPrint n st0 st -> dr_body jvp p pts nKMat nPrint st = Ok st' ->
    all_nan (dr_qdot st') \/
    exists m k : R, Rabs m < 1 /\ 0 < k < 1 /\
      forall g v r w, (g < num_total_dofs_all_vars p)%nat ->
        nth g (dr_qdot st) (Fin 0) = Fin v -> nth g (dr_R st') (Fin 0) = Fin r -> nth g (dr_M st') (Fin 0) = Fin w -> w <> 0 ->
        nth g (dr_qdot st') (Fin 0) = Fin (m * v - k * r / w).
  Proof. exact (velocities jvp p pts kf WF NC IVS KER BC RNG). Qed.

  (** C58: a run that returns started from a tangent all of whose rows have a finite nonzero sum of
      absolute values. *)
  Theorem C58_rows : forall fuel cfg out, solve_dynamic_relax ravel_obj B jvp p pts P_mat fuel cfg = Done (Ok out) ->
    exists u r W, length u = num_total_dofs_all_vars p /\
      newton_update jvp xsqrt p pts (unravel (sol_shapes p) u) = Ok (r, W) /\
      forall g, (g < num_total_dofs_all_vars p)%nat ->
        exists s, 0 < s /\ sum_n (K := Xops) (num_total_dofs_all_vars p) (fun h => xabs (tangent p W g h)) = Fin s.
  Proof.
    intros fuel cfg out H. apply solve_options in H as (tol & nK & nP & g & _ & _ & H).
    apply (solve_relax_inv B jvp p pts P_mat kf WF NC IVS KER BC RNG) in H as (u0 & st0 & st & n & res & _ & S & _).
    pose proof (start_rows jvp p pts kf WF NC IVS KER BC u0 st0 S) as (_ & r & W & E & Hs).
    pose proof (iterates_keep jvp p pts kf WF NC IVS KER BC RNG u0 st0 (Fin 0) 1%Z 0 st0 S (rx_none _ _ _ _ _ st0)) as (_ & Lq & _).
    exists u0, r, W. split; [|split; [exact E|exact Hs]].
    unfold dr_start in S. destruct (assembleVec p pts u0) as [R|]; [|discriminate]. cbn [bind] in S.
    destruct (assembleCSR jvp p pts u0) as [A|]; [|discriminate]. cbn [bind] in S. destruct (masses _ A) as [M|]; [|discriminate]. cbn [bind] in S.
    cbv zeta in S. do 3 (destruct (negb _); [discriminate|]). destruct (max_abs R) as [e|]; [|discriminate]. injection S as <-. exact Lq.
  Qed.
  (** C58: all variables but the first have no dofs. *)
  Theorem C58_one_variable : forall fuel cfg out v, solve_dynamic_relax ravel_obj B jvp p pts P_mat fuel cfg = Done (Ok out) ->
    (0 < v < length (fes p))%nat -> num_total_dofs (fe_of p v) = 0%nat.
  Proof.
    intros fuel cfg out v H Hv. apply solve_options in H as (tol & nK & nP & g & _ & _ & H).
    apply (solve_relax_inv B jvp p pts P_mat kf WF NC IVS KER BC RNG) in H as (u0 & st0 & st & n & res & _ & S & _).
    pose proof (start_rows jvp p pts kf WF NC IVS KER BC u0 st0 S) as [E _]. clear NC. unfold num_total_dofs_all_vars, fe0 in E. unfold fe_of.
    unfold sol_shapes in E. destruct (fes p) as [|f l]; [cbn in Hv; lia|]. destruct v as [|v]; [lia|]. cbn [nth length map hd] in *.
    change (num_total_dofs f = num_total_dofs f + total_size (map (fun f => (num_total_nodes f, vec f)) l))%nat in E.
    assert (Z : total_size (map (fun f => (num_total_nodes f, vec f)) l) = 0%nat) by lia.
    assert (Hv' : (v < length l)%nat) by lia. clear - Z Hv'. revert v Z Hv'.
    induction l as [|a l IH]; [cbn; lia|]. intros [|v] Z Hv; cbn [map total_size fold_right fst snd nth length] in *.
    - unfold num_total_dofs. lia.
    - apply IH; [unfold total_size in *; lia|lia].
  Qed.
End Relax.
Print Assumptions C34_iterates.
Print Assumptions C34_result.
Print Assumptions C34_guess.
Print Assumptions C34_no_guess.
Print Assumptions C35_velocity.
Print Assumptions C58_rows.
Print Assumptions C58_one_variable.

(** C35: the damping coefficient: NaN for NaN, otherwise the clamp of 2 sqrt(max(0, t)) to [1e-3, 3.9]. *)
Theorem C35_damping : calC NaN dr_cmin dr_cmax = NaN /\ calC PInf dr_cmin dr_cmax = Fin (39 / 10) /\
  calC NInf dr_cmin dr_cmax = Fin (1 / 1000) /\
  forall t, exists c, calC (Fin t) dr_cmin dr_cmax = Fin c /\ 1 / 1000 <= c <= 39 / 10 /\
    c = Rmin (39 / 10) (Rmax (1 / 1000) (2 * sqrt (Rmax 0 t))).
Proof.
  split; [exact calC_nan|]. split; [exact calC_pinf|]. split; [exact calC_ninf|]. intros t. exists (damping t).
  split; [exact (calC_fin t)|]. split; [exact (damping_range t)|reflexivity].
Qed.
Print Assumptions C35_damping.
(** C35: so the velocity multiplier is below one in absolute value. *)
Theorem C35_multiplier : forall t c, isnan t = false -> calC t dr_cmin dr_cmax = Fin c -> Rabs ((2 - c * 1) / (2 + c * 1)) < 1.
Proof.
  intros t c N E. destruct (calC_range t N) as (c' & E' & Hc). rewrite E in E'. injection E' as <-. rewrite Rmult_1_r. now apply multiplier_bound.
Qed.
Print Assumptions C35_multiplier.

(** The run of Examples_relax: prescribed value 5, one iteration, free residual -42/121. *)
Example C34_run : solve_dynamic_relax (@ravel Xops) a_B n_jvp n_prob n_pts None 3 r_cfg
  = Done (Ok (mkDrOut [[[Fin 5]; [Fin (563 / 121)]]] 1 true)).
Proof. exact r_run. Qed.
Example C34_hypotheses : wf_problem n_prob /\ (0 < p_num_cells n_prob)%nat /\ ivs_ok n_prob /\ kernels_ok n_prob (fun _ _ => []) /\
  bcs_ok n_prob /\ (forall f, In f (fes n_prob) -> bc_in_range f) /\ prescribed (fe_of n_prob 0) 0 0 = Some (Fin 5).
Proof. destruct n_ok as (A & C & D & E & F). do 5 (split; [assumption|]). split; [exact r_ok|reflexivity]. Qed.
Example C58_two_variables : exists e, solve_dynamic_relax (@ravel Xops) t_B n_jvp t_prob t_pts None 3 [] = Done (Err e).
Proof. exact t_run. Qed.

Section Result.
  Context {O V : Type}.
  Variable ravel_obj : O -> list Xops.
  Variable obj_of_sol : list (list (list Xops)) -> O.
  Variable B : backends O.
  Variable jvp : (list Xops -> list Xops) -> list Xops -> list Xops -> list Xops.
  Variable p : problem Xops V.
  Variable pts : list (list (list Xops)).
  Variable P_mat : option pmat.
  Variable callback : pyval O -> nat -> list Xops -> xr -> result unit.
  Variables mk lk nk : list string.

  (** C59: whatever the method, the options, P_mat, the linear back-end and the derivative, a returned
      solution has one array per variable, of shape (number of nodes, vec). *)
  Theorem C59_shapes : forall fuel opts r,
    solver ravel_obj obj_of_sol B jvp p pts P_mat callback mk lk nk fuel opts = Done (Ok r) ->
    let sol := match r with SolOnly s => s | SolInfo s _ => s end in
    length sol = length (fes p) /\
    forall v, (v < length (fes p))%nat -> shaped (length (points (fe_of p v))) (vec (fe_of p v)) (nth v sol []).
  Proof. exact (solver_shapes ravel_obj obj_of_sol B jvp p pts P_mat callback mk lk nk). Qed.

  (** C59: a pair is returned only by the arc-length method with a true return_info ... *)
  Theorem C59_pair : Permutation mk METHOD_KEYS -> forall fuel opts s i,
    solver ravel_obj obj_of_sol B jvp p pts P_mat callback mk lk nk fuel opts = Done (Ok (SolInfo s i)) ->
    exists d cfg v, opts = Some d /\ lookup d "arc_length" = Some (VDict cfg) /\ lookup cfg "return_info" = Some v /\ truthy v = true.
  Proof. intros MK. exact (pair_only_arc ravel_obj obj_of_sol B jvp p pts P_mat callback mk lk nk MK). Qed.
  (** ... and always by it. *)
  Theorem C59_no_pair : Permutation mk METHOD_KEYS -> forall fuel d cfg s,
    lookup d "arc_length" = Some (VDict cfg) ->
    solver ravel_obj obj_of_sol B jvp p pts P_mat callback mk lk nk fuel (Some d) = Done (Ok (SolOnly s)) ->
    lookup cfg "return_info" = None \/ exists v, lookup cfg "return_info" = Some v /\ truthy v = false.
  Proof. intros MK. exact (arc_pair ravel_obj obj_of_sol B jvp p pts P_mat callback mk lk nk MK). Qed.
End Result.
Print Assumptions C59_shapes.
Print Assumptions C59_pair.
Print Assumptions C59_no_pair.
