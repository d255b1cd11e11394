(** Properties of the solver options, linear back-ends, Newton loop, tangent cache and AMGX handles
    (C24-C30, C38). *)
From Coq Require Import String List Arith Bool Lia Reals Permutation.
From Verif Require Import Num Arr Fe Problem SpecAssembly SolverBc SpecBc XNum PyDict Options OptionsFacts LinSolve Newton
  SpecNewton NewtonFacts ConfigFacts Amgx SolverCache SpecSolver CacheFacts SolverFacts ResolveFacts Examples_solver.
Import ListNotations.
Local Open Scope string_scope.

(** C24. After any history of boundary-condition updates and tangent requests, a tangent request
    returns the matrix made from scratch for the current boundary conditions. *)
Theorem C24_cache_fresh : forall (K : ops) (V : Type) (p : problem K V) (history : list (op K)) (W : list K),
  Forall updates_and_requests history ->
  let s := run (initial_state p) history in
  snd (get_A_cached s W) = tangent (s_p s) W.
Proof. exact (@cache_never_stale). Qed.
Print Assumptions C24_cache_fresh.

(** It fails for a program that assigns the index lists itself: after a tangent request, lists moved
    from one variable to another keep the rows of the first. *)
Theorem C24_moved_lists_refuted : exists (p : problem Zops unit) (history : list (op Zops)) (W : list Zops),
  let s := run (initial_state p) history in snd (get_A_cached s W) <> tangent (s_p s) W.
Proof.
  exists c_p, [GetA c_W; MoveLists 0 1], c_W. intros s H. pose proof (f_equal (fun A => A 0%nat 0%nat) H) as E.
  discriminate E.
Qed.
Print Assumptions C24_moved_lists_refuted.

(** C25. A dict without method key is Newton with exactly the recognised keys. *)
Theorem C25_flat : forall (O : Type) mk lk nk, Permutation mk METHOD_KEYS -> Permutation lk LINEAR_OPTION_KEYS ->
  Permutation nk NEWTON_OPTION_KEYS ->
  forall d : dict O, (forall m, In m METHOD_KEYS -> lookup d m = None) ->
  exists cfg, resolve_solver_options mk lk nk (Some d) = Ok ("newton", cfg) /\ nested_form d cfg /\
    forall k, ~ In k NEWTON_OPTION_KEYS -> k <> "linear" -> lookup cfg k = None.
Proof. exact (@flat_resolves). Qed.
Print Assumptions C25_flat.
(** solver_options=None is the empty dict *)
Theorem C25_none : forall (O : Type) mk lk nk,
  resolve_solver_options (O := O) mk lk nk None = resolve_solver_options mk lk nk (Some []).
Proof. reflexivity. Qed.
(** one method key selects that method with its block as it is; a block that is not a dict raises *)
Theorem C25_method : forall (O : Type) mk lk nk, Permutation mk METHOD_KEYS ->
  forall (d : dict O) m, In m METHOD_KEYS -> (forall m', In m' METHOD_KEYS -> m' <> m -> lookup d m' = None) ->
  (forall c, lookup d m = Some (VDict c) -> resolve_solver_options mk lk nk (Some d) = Ok (m, c)) /\
  (forall v, lookup d m = Some v -> (forall c, v <> VDict c) -> resolve_solver_options mk lk nk (Some d) = Err ValueErr).
Proof. exact (@resolve_method). Qed.
Print Assumptions C25_method.
(** two method keys raise *)
Theorem C25_two_methods : forall (O : Type) mk lk nk, Permutation mk METHOD_KEYS ->
  forall (d : dict O) m m', In m METHOD_KEYS -> In m' METHOD_KEYS -> m <> m' ->
  lookup d m <> None -> lookup d m' <> None -> resolve_solver_options mk lk nk (Some d) = Err ValueErr.
Proof. exact (@resolve_two). Qed.
Print Assumptions C25_two_methods.
(** the flat form and the nested form end the same way *)
Theorem C25_flat_is_nested : forall (O V : Type) ravel_obj (B : backends O) jvp (p : problem Xops V) pts P,
  custom_reads_contents B ->
  forall mk lk nk, Permutation mk METHOD_KEYS -> Permutation lk LINEAR_OPTION_KEYS -> Permutation nk NEWTON_OPTION_KEYS ->
  forall (flat nested opts : dict O) fuel,
  (forall m, In m METHOD_KEYS -> lookup flat m = None) -> nested_form flat nested ->
  lookup opts "newton" = Some (VDict nested) -> lookup opts "arc_length" = None -> lookup opts "dynamic_relax" = None ->
  exists c c', resolve_solver_options mk lk nk (Some flat) = Ok ("newton", c) /\
    resolve_solver_options mk lk nk (Some opts) = Ok ("newton", c') /\
    same_outcome same_solution (solve_newton ravel_obj B jvp p pts P fuel c) (solve_newton ravel_obj B jvp p pts P fuel c').
Proof. exact (@flat_is_nested). Qed.
Print Assumptions C25_flat_is_nested.
(** keys that are not recognised change nothing *)
Theorem C25_unrecognised : forall (O V : Type) ravel_obj (B : backends O) jvp (p : problem Xops V) pts P,
  custom_reads_contents B ->
  forall mk lk nk, Permutation mk METHOD_KEYS -> Permutation lk LINEAR_OPTION_KEYS -> Permutation nk NEWTON_OPTION_KEYS ->
  forall (d d' : dict O) fuel,
  (forall m, In m METHOD_KEYS -> lookup d m = None) -> (forall m, In m METHOD_KEYS -> lookup d' m = None) ->
  (forall k, In k NEWTON_OPTION_KEYS \/ In k LINEAR_OPTION_KEYS -> lookup d k = lookup d' k) ->
  exists c c', resolve_solver_options mk lk nk (Some d) = Ok ("newton", c) /\
    resolve_solver_options mk lk nk (Some d') = Ok ("newton", c') /\
    same_outcome same_solution (solve_newton ravel_obj B jvp p pts P fuel c) (solve_newton ravel_obj B jvp p pts P fuel c').
Proof. exact (@unrecognised_ignored). Qed.
Print Assumptions C25_unrecognised.

(** C26. The first of jax, amgx, spsolve, petsc, custom that is present is used, with its defaults. *)
Theorem C26_selection : forall (O : Type) (B : backends O) t A b x0 (lo : dict O),
  let run := snd (linear_solver B t A b x0 lo) in
  let absent k := lookup lo k = None in
  (forall s, lookup lo "jax_solver" = Some (VDict s) ->
     run = jax_solve B t A b x0 (get_default s "precond" (VBool true))) /\
  (forall s, absent "jax_solver" -> lookup lo "amgx_solver" = Some (VDict s) ->
     run = AMGX_solve B t A b x0 (get_default s "cfg_path" VNone)) /\
  (forall v, absent "jax_solver" -> absent "amgx_solver" -> lookup lo "spsolve_solver" = Some v ->
     run = scipy_spsolve B t A b) /\
  (forall s, absent "jax_solver" -> absent "amgx_solver" -> absent "spsolve_solver" ->
     lookup lo "petsc_solver" = Some (VDict s) ->
     run = petsc_solve B t A b (get_default s "ksp_type" (VStr "bcgsl")) (get_default s "pc_type" (VStr "ilu"))) /\
  (forall f, absent "jax_solver" -> absent "amgx_solver" -> absent "spsolve_solver" -> absent "petsc_solver" ->
     lookup lo "custom_solver" = Some f -> run = b_custom B t f A b x0 lo) /\
  (absent "jax_solver" -> absent "amgx_solver" -> absent "spsolve_solver" -> absent "petsc_solver" ->
     absent "custom_solver" -> run = jax_solve B t A b x0 (VBool true)).
Proof. exact (@selection). Qed.
Print Assumptions C26_selection.
(** Only the key jax_solver is ever written, and only if no solver was named. *)
Theorem C26_dict_after : forall (O : Type) (B : backends O) t A b x0 (lo : dict O),
  let lo' := fst (linear_solver B t A b x0 lo) in
  (forall k, k <> "jax_solver" -> lookup lo' k = lookup lo k) /\
  ((exists k, In k LINEAR_OPTION_KEYS /\ lookup lo k <> None) -> lo' = lo) /\
  ((forall k, In k LINEAR_OPTION_KEYS -> lookup lo k = None) -> lookup lo' "jax_solver" = Some (VDict [])).
Proof. exact (@dict_after). Qed.
Print Assumptions C26_dict_after.
(** Solves that share one dict give what solves with a new copy of it each time give. *)
Theorem C26_sharing : forall (O : Type) (B : backends O) (lo : dict O) systems,
  solves_sharing B lo systems = solves_fresh B lo systems.
Proof. exact (@sharing_fresh). Qed.
Print Assumptions C26_sharing.
(** But the written default wins over a solver that the caller adds to the dict afterwards. *)
Theorem C26_default_sticks : forall (O : Type) (B : backends O) t A b x0 (lo : dict O),
  (forall k, In k LINEAR_OPTION_KEYS -> lookup lo k = None) ->
  forall k v, In k LINEAR_OPTION_KEYS -> k <> "jax_solver" ->
  forall t' A' b' x0',
    snd (linear_solver B t' A' b' x0' (dset (fst (linear_solver B t A b x0 lo)) k v)) = jax_solve B t' A' b' x0' (VBool true).
Proof. exact (@default_sticks). Qed.
Print Assumptions C26_default_sticks.

(** C27. jax_solver returns what the iterative method returned, only if its residual is finite and
    below 0.1; in the other case it raises AssertionError. *)
Theorem C27_jax : forall (O : Type) (B : backends O) t A b x0 precond x,
  (jax_solve B t A b x0 precond = Ok x <->
   b_bicgstab B t A b x0 (jax_pc A precond) = Ok x /\ exists e, linear_residual A x b e /\ (e < / 10)%R) /\
  (b_bicgstab B t A b x0 (jax_pc A precond) = Ok x -> List.length x = m_cols A -> List.length b = m_rows A ->
   (forall e, linear_residual A x b e -> (/ 10 <= e)%R) -> jax_solve B t A b x0 precond = Err AssertionErr).
Proof.
  intros. split; [|apply jax_raises]. split; [apply jax_checked|]. intros (H & e & R & L). eapply jax_accepts; eassumption.
Qed.
Print Assumptions C27_jax.
(** The same for petsc_solver, whatever KSP does. *)
Theorem C27_petsc : forall (O : Type) (B : backends O) t A b ksp pc x,
  (petsc_solve B t A b ksp pc = Ok x -> exists e, linear_residual A x b e /\ (e < / 10)%R) /\
  ((forall m, b_ksp B t ksp pc m A b (zeros (List.length b)) = (Ok tt, x)) ->
   (forall e, linear_residual A x b e -> (e < / 10)%R -> petsc_solve B t A b ksp pc = Ok x) /\
   (List.length x = m_cols A -> List.length b = m_rows A -> (forall e, linear_residual A x b e -> (/ 10 <= e)%R) ->
    petsc_solve B t A b ksp pc = Err AssertionErr)).
Proof.
  intros. split; [apply petsc_checked|]. intros H. split; [intros; eapply petsc_accepts; eassumption|apply petsc_raises; exact H].
Qed.
Print Assumptions C27_petsc.

(** C28. What Newton returns: a finite state whose residual norm is finite and meets one of the two
    tolerances; tol and rel_tol are the given numbers or the defaults. *)
Theorem C28_newton_contract : forall (O V : Type) ravel_obj (B : backends O) jvp (p : problem Xops V) pts P fuel cfg out t rt,
  option_value cfg "tol" (/ 10 ^ 6) t -> option_value cfg "rel_tol" (/ 10 ^ 8) rt ->
  solve_newton ravel_obj B jvp p pts P fuel cfg = Done (Ok out) ->
  exists d0 r0v r0 d rv r u,
    starts_from ravel_obj p P cfg d0 /\ newton_residual p pts P d0 r0v /\ xnorm r0v = Fin r0 /\
    newton_residual p pts P d rv /\ xnorm rv = Fin r /\
    full_dofs P d u /\ List.length u = num_total_dofs_all_vars p /\ out_sol out = unravel (sol_shapes p) u /\
    Forall (fun x => isfinite x = true) d /\
    (r <= t \/ r <= rt * r0)%R.
Proof. exact (@newton_contract). Qed.
Print Assumptions C28_newton_contract.
(** A start that meets the tolerance is returned unchanged, without any linear solve. *)
Theorem C28_converged_start : forall (O V : Type) ravel_obj (B : backends O) jvp (p : problem Xops V) pts P fuel cfg d0 u0 r0v t rt r0,
  option_value cfg "tol" (/ 10 ^ 6) t -> option_value cfg "rel_tol" (/ 10 ^ 8) rt ->
  starts_from ravel_obj p P cfg d0 -> newton_residual p pts P d0 r0v ->
  xnorm r0v = Fin r0 -> (r0 <= t \/ 1 <= rt \/ r0 = 0)%R ->
  full_dofs P d0 u0 -> Forall (fun x => isfinite x = true) d0 ->
  solve_newton ravel_obj B jvp p pts P fuel cfg = Done (Ok (mkOut (unravel (sol_shapes p) u0) 0 cfg)).
Proof. exact (@start_good). Qed.
Print Assumptions C28_converged_start.
(** A start whose residual is not finite raises. *)
Theorem C28_bad_start : forall (O V : Type) ravel_obj (B : backends O) jvp (p : problem Xops V) pts P fuel cfg d0 r0v t rt,
  option_value cfg "tol" (/ 10 ^ 6) t -> option_value cfg "rel_tol" (/ 10 ^ 8) rt ->
  starts_from ravel_obj p P cfg d0 -> newton_residual p pts P d0 r0v -> isfinite (xnorm r0v) = false ->
  solve_newton ravel_obj B jvp p pts P fuel cfg = Done (Err AssertionErr).
Proof. exact (@start_bad). Qed.
Print Assumptions C28_bad_start.
(** So does a NaN residual at any later iterate. *)
Theorem C28_nan_raises : forall (O V : Type) (B : backends O) jvp (p : problem Xops V) pts P fuel rel tol res0 st,
  isnan (xnorm (st_res st)) = true ->
  newton_loop B jvp p pts P fuel rel tol res0 st = Done (Ok st) /\ newton_finish p P st = Err AssertionErr.
Proof. exact (@nan_raises). Qed.
Print Assumptions C28_nan_raises.

(** C29. In a returned solution every constrained dof is within the tolerance of its value. *)
Theorem C29_bc_to_tolerance : forall (O V : Type) ravel_obj (B : backends O) jvp (p : problem Xops V) pts kf,
  wf_problem p -> 0 < p_num_cells p -> ivs_ok p -> kernels_ok p kf -> bcs_ok p ->
  forall fuel cfg out t rt,
  option_value cfg "tol" (/ 10 ^ 6) t -> option_value cfg "rel_tol" (/ 10 ^ 8) rt ->
  solve_newton ravel_obj B jvp p pts None fuel cfg = Done (Ok out) ->
  exists d0 r0v r0 r, starts_from ravel_obj p None cfg d0 /\ newton_residual p pts None d0 r0v /\ xnorm r0v = Fin r0 /\
    (r <= Rmax t (rt * r0))%R /\
    forall v n j b, valid_dof (global_shapes p) v n j -> prescribed (fe_of p v) n j = Some b ->
      exists u c, get2 (Fin 0) (nth v (out_sol out) []) n j = Fin u /\ b = Fin c /\ (Rabs (u - c) <= r)%R.
Proof. exact (@bc_to_tolerance). Qed.
Print Assumptions C29_bc_to_tolerance.

(** C30. The line search goes 1, 1/2, 1/4 or 1/8 of the way; no larger trial step has a smaller
    residual norm (if none is NaN); half the step would be worse, unless the step is 1/8. *)
Theorem C30_line_search : forall (V : Type) (p : problem Xops V) pts dofs inc d,
  line_search p pts dofs inc = Ok d ->
  exists m N, m <= 3 /\ d = vadd dofs (vscale (Fin (/ 2 ^ m) : Xops) inc) /\
    (forall i, i <= m -> exists r,
       newton_residual p pts None (vadd dofs (vscale (Fin (/ 2 ^ i) : Xops) inc)) r /\ N i = xnorm r) /\
    ((forall i, i <= m -> isnan (N i) = false) -> forall i, i <= m -> xleb (N m) (N i) = true) /\
    (m < 3 -> exists r, newton_residual p pts None (vadd dofs (vscale (Fin (/ 2 ^ S m) : Xops) inc)) r /\
                xgtb (xnorm r) (N m) = true).
Proof. exact (@line_search_spec). Qed.
Print Assumptions C30_line_search.

(** With NaN norms the chosen step can be worse than a larger one. *)
Theorem C30_nan_refuted : exists (p : problem Xops unit) pts dofs inc d r1 r,
  line_search p pts dofs inc = Ok d /\
  newton_residual p pts None (vadd dofs (vscale (Fin 1 : Xops) inc)) r1 /\ newton_residual p pts None d r /\
  xgtb (xnorm r) (xnorm r1) = true.
Proof. exact nan_worse. Qed.
Print Assumptions C30_nan_refuted.

(** C56. There is no limit on the number of iterations: some solves never return. *)
Theorem C56_no_iteration_limit : exists (B : backends unit) jvp (p : problem Xops unit) pts cfg,
  forall fuel, solve_newton (fun _ => []) B jvp p pts None fuel cfg = Running.
Proof. exists stuck_B, n_jvp, (s_prob one_g), [], sp_cfg. intros fuel. apply stuck_forever. Qed.
Print Assumptions C56_no_iteration_limit.

(** C38. Whatever step raises, the handles created are destroyed once each, in reverse order, after
    everything else; the call succeeds exactly if no step raises. *)
Theorem C38_amgx_released : forall (api : amgx_step -> result unit) destroy, (forall h, destroy h = Ok tt) ->
  let '(ev, r) := AMGX_solve_host api destroy in
  ev = (map Created (creations ev) ++ map Destroyed (destructions ev))%list /\
  destructions ev = rev (creations ev) /\ NoDup (creations ev) /\
  (r = Ok tt <-> forall s, In s amgx_body -> api s = Ok tt) /\
  (forall e, r = Err e -> exists s, In s amgx_body /\ api s = Err e).
Proof. exact host_released. Qed.
Print Assumptions C38_amgx_released.
(** If destroying a handle raises, that exception - not one of the body - leaves the call, and the handles created before it are not destroyed. *)
Theorem C38_amgx_errors : forall (api : amgx_step -> result unit) destroy,
  let '(ev, r) := AMGX_solve_host api destroy in
  forall l1 h l2 e, rev (creations ev) = (l1 ++ h :: l2)%list -> (forall h', In h' l1 -> destroy h' = Ok tt) -> destroy h = Err e ->
    r = Err e /\ destructions ev = l1.
Proof. exact host_errors. Qed.
Print Assumptions C38_amgx_errors.
(** It fails if a destroy raises: the remaining handles leak. *)
Theorem C38_amgx_refuted : exists (api : amgx_step -> result unit) destroy,
  let '(ev, _) := AMGX_solve_host api destroy in ~ (forall h, In h (creations ev) -> In h (destructions ev)).
Proof.
  exists (fun _ => Ok tt), (fun h => match h with HX => Err RuntimeErr | _ => Ok tt end). cbn.
  intros H. exact (H HCfg (or_introl eq_refl)).
Qed.
Print Assumptions C38_amgx_refuted.
