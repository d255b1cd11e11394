(** Model of the Newton solver: jax_fem/solver.py:391-463 (newton_step, line_search), 540-553 (get_A)
    and 1280-1356 (solver, Newton branch), over extended reals. *)
From Coq Require Import String List Arith Bool Reals.
From Verif Require Import Num Arr Fe Problem SolverBc XNum PyDict Options LinSolve.
Import ListNotations.
Local Open Scope string_scope.

(** What a model of a loop with fuel returns: the value, or "still running". *)
Inductive outcome (A : Type) := Done (r : result A) | Running.
Arguments Done {A}. Arguments Running {A}.

Section Newton.
  Context {O V : Type}.
  (** jax.flatten_util.ravel_pytree of an object (an initial guess) *)
  Variable ravel_obj : O -> list Xops.
  Variable B : backends O.
  (** jax.jvp *)
  Variable jvp : (list Xops -> list Xops) -> list Xops -> list Xops -> list Xops.
  Variable p : problem Xops V.
  (** the points of the last initialize_geometric_quantities call *)
  Variable pts : list (list (list Xops)).
  (** problem.P_mat if the attribute exists *)
  Variable P_mat : option pmat.

  (** problem.unflatten_fn_sol_list raises on a vector of the wrong size (problem.py:126-128) *)
  Definition unflatten (dofs : list Xops) : result (list (list (list Xops))) :=
    if (List.length dofs =? num_total_dofs_all_vars p)%nat then Ok (unravel (sol_shapes p) dofs) else Err ValueErr.

  (** solver.py:540-553; the cached matrix has the rows of the current conditions (SolverCache.v) *)
  Definition get_A (W : list Xops) : pmat :=
    let n := num_total_dofs_all_vars p in
    let A := mkMat n n (tangent p W) in
    match P_mat with
    | None => A
    | Some P => mat_mul (mat_T P) (mat_mul A P)
    end.

  (** solver.py:1298-1317 *)
  Definition newton_update_helper (dofs : list Xops) : result (list Xops * pmat) :=
    bind (match P_mat with Some P => mat_mul_vec P dofs | None => Ok dofs end) (fun dofs =>
    bind (unflatten dofs) (fun sol_list =>
    bind (newton_update jvp xsqrt p pts sol_list) (fun rV =>
    let res_vec := apply_bc_vec (ravel (fst rV)) dofs p one in
    bind (match P_mat with Some P => mat_mul_vec (mat_T P) res_vec | None => Ok res_vec end) (fun res_vec =>
    Ok (res_vec, get_A (snd rV)))))).

  (** solver.py:428-430: apply_bc(get_flatten_fn(problem.compute_residual)); get_flatten_fn (solver.py:369-376) is the unflatten before and the ravel after *)
  Definition bc_residual (dofs : list Xops) : result (list Xops) :=
    bind (unflatten dofs) (fun sol_list =>
    bind (compute_residual xsqrt p pts sol_list) (fun res_list =>
    Ok (apply_bc_vec (ravel res_list) dofs p one))).

  (** solver.py:432-434 *)
  Definition res_norm_fn (dofs inc : list Xops) (alpha : xr) : result xr :=
    bind (add_vec dofs (vscale (alpha : Xops) inc)) (fun x => bind (bc_residual x) (fun r => Ok (xnorm r))).

  (** solver.py:449-461, k more halvings; returns alpha *)
  Fixpoint halve (res_norm : xr -> result xr) (k : nat) (alpha cur : xr) : result xr :=
    match k with
    | 0 => Ok alpha
    | S k =>
        let alpha := xmul alpha (Fin (/ 2)) in
        bind (res_norm alpha) (fun half =>
        if xgtb half cur then Ok (xmul alpha (Fin 2)) else halve res_norm k alpha half)
    end.
  (** solver.py:425-463 *)
  Definition line_search (dofs inc : list Xops) : result (list Xops) :=
    bind (res_norm_fn dofs inc (Fin 1)) (fun r1 =>
    bind (halve (res_norm_fn dofs inc) 3 (Fin 1) r1) (fun alpha =>
    add_vec dofs (vscale (alpha : Xops) inc))).

  (** newton_cfg.get('linear', {}) must be a dict: .keys() raises AttributeError otherwise *)
  Definition linear_options_of (cfg : dict O) : result (dict O) :=
    match lookup cfg "linear" with
    | None => Ok []
    | Some (VDict d) => Ok d
    | Some _ => Err AttributeErr
    end.
  (** the dict cfg['linear'] (if any) is the one linear_solver writes its default into *)
  Definition linear_options_back (cfg lo : dict O) : dict O :=
    if has cfg "linear" then dset cfg "linear" (VDict lo) else cfg.

  (** solver.py:391-422; [t] numbers the linear solve; also returns the caller's cfg dict *)
  Definition newton_step (t : nat) (res_vec : list Xops) (A : pmat) (dofs : list Xops) (cfg : dict O)
    : result (list Xops * dict O) :=
    let b := vneg res_vec in
    let x0_1 := assign_bc (zeros (num_total_dofs_all_vars p)) p in
    bind (match P_mat with
          | Some P =>
              bind (mat_mul_vec P dofs) (fun full =>
              bind (sub_vec x0_1 (copy_bc full p)) (fun d => mat_mul_vec (mat_T P) d))
          | None => sub_vec x0_1 (copy_bc dofs p)
          end) (fun x0 =>
    bind (linear_options_of cfg) (fun lin =>
    let '(lo, r) := linear_solver B t A b (Some x0) lin in
    bind r (fun inc =>
    bind (if truthy (get_default cfg "line_search_flag" (VBool false))
          then line_search dofs inc else add_vec dofs inc) (fun dofs =>
    Ok (dofs, linear_options_back cfg lo))))).

  (** A number option; comparing a non-number raises (bools are not modelled as numbers) *)
  Definition num_option (cfg : dict O) (k : string) (default : xr) : result xr :=
    match lookup cfg k with
    | None => Ok default
    | Some (VNum x) => Ok x
    | Some (VInt z) => Ok (Fin (IZR z))
    | Some _ => Err TypeErr
    end.

  (** solver.py:1285-1293 *)
  Definition initial_dofs (cfg : dict O) : result (list Xops) :=
    match lookup cfg "initial_guess" with
    | Some (VObj o) => Ok (ravel_obj o)
    | Some _ => Err TypeErr
    | None => Ok (zeros (match P_mat with Some P => m_cols P | None => num_total_dofs_all_vars p end))
    end.

  Record newton_state := mkState {
    st_dofs : list Xops;
    st_res : list Xops;
    st_A : pmat;
    st_iters : nat;
    st_cfg : dict O
  }.

  (** the test of solver.py:1326 *)
  Definition keeps_going (rel_tol tol res0 res : xr) : bool :=
    xgtb (xdiv res res0) rel_tol && xgtb res tol.

  (** solver.py:1326-1333 *)
  Fixpoint newton_loop (fuel : nat) (rel_tol tol res0 : xr) (st : newton_state) : outcome newton_state :=
    if keeps_going rel_tol tol res0 (xnorm (st_res st)) then
      match fuel with
      | 0 => Running
      | S fuel =>
          match newton_step (st_iters st) (st_res st) (st_A st) (st_dofs st) (st_cfg st) with
          | Err e => Done (Err e)
          | Ok (dofs, cfg) =>
              match newton_update_helper dofs with
              | Err e => Done (Err e)
              | Ok (res_vec, A) =>
                  newton_loop fuel rel_tol tol res0 (mkState dofs res_vec A (S (st_iters st)) cfg)
              end
          end
      end
    else Done (Ok st).

  (** What solver() returns, and what can be observed: number of iterations, caller's dict. *)
  Record newton_out := mkOut {
    out_sol : list (list (list Xops));
    out_iters : nat;
    out_cfg : dict O
  }.

  (** solver.py:1335-1348 *)
  Definition newton_finish (st : newton_state) : result newton_out :=
    if negb (isfinite (xnorm (st_res st))) then Err AssertionErr else
    if negb (forallb isfinite (st_dofs st)) then Err AssertionErr else
    bind (match P_mat with Some P => mat_mul_vec P (st_dofs st) | None => Ok (st_dofs st) end) (fun dofs =>
    bind (unflatten dofs) (fun sol_list => Ok (mkOut sol_list (st_iters st) (st_cfg st)))).

  (** solver.py:1280-1356, Newton branch *)
  Definition solve_newton (fuel : nat) (cfg : dict O) : outcome newton_out :=
    match initial_dofs cfg with Err e => Done (Err e) | Ok dofs =>
    match newton_update_helper dofs with Err e => Done (Err e) | Ok (res_vec, A) =>
    match num_option cfg "rel_tol" (Fin (/ 10 ^ 8)) with Err e => Done (Err e) | Ok rel_tol =>
    match num_option cfg "tol" (Fin (/ 10 ^ 6)) with Err e => Done (Err e) | Ok tol =>
    match newton_loop fuel rel_tol tol (xnorm res_vec) (mkState dofs res_vec A 0 cfg) with
    | Running => Running
    | Done (Err e) => Done (Err e)
    | Done (Ok st) => Done (newton_finish st)
    end end end end end.
End Newton.
