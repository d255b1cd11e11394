(** Model of the tangent and residual with multipoint constraints (P_mat) and of the adjoint,
    jax_fem/solver.py:540-555, 1298-1317, 1362-1455, over any numbers.
    Over extended reals the first part is that of Newton.v (AdjointFacts.helper_same). *)
From Coq Require Import List Arith Bool.
From Verif Require Import Num Arr Fe Problem SolverBc LinSolve.
Import ListNotations.

Section Reduced.
  Context {K : ops} {V : Type}.
  Variable jvp : (list K -> list K) -> list K -> list K -> list K.
  Variable sqrtK : K -> K.
  Variable p : problem K V.
  Variable pts : list (list (list K)).
  (** problem.P_mat if the attribute exists *)
  Variable P_mat : option (mat K).

  (** problem.unflatten_fn_sol_list (problem.py:126-128) *)
  Definition g_unflatten (dofs : list K) : result (list (list (list K))) :=
    if length dofs =? num_total_dofs_all_vars p then Ok (unravel (sol_shapes p) dofs) else Err ValueErr.

  (** solver.py:540-555 *)
  Definition g_get_A (W : list K) : mat K :=
    let n := num_total_dofs_all_vars p in
    let A := mkMat n n (tangent p W) in
    match P_mat with
    | None => A
    | Some P => mat_mul (mat_T P) (mat_mul A P)
    end.

  (** solver.py:1298-1317 *)
  Definition g_update_helper (dofs : list K) : result (list K * mat K) :=
    bind (match P_mat with Some P => mat_mul_vec P dofs | None => Ok dofs end) (fun dofs =>
    bind (g_unflatten dofs) (fun sol_list =>
    bind (newton_update jvp sqrtK p pts sol_list) (fun rV =>
    let res_vec := apply_bc_vec (ravel (fst rV)) dofs p one in
    bind (match P_mat with Some P => mat_mul_vec (mat_T P) res_vec | None => Ok res_vec end) (fun res_vec =>
    Ok (res_vec, g_get_A (snd rV)))))).
End Reduced.

Section Adjoint.
  Context {K : ops} {V : Type}.
  Variable jvp : (list K -> list K) -> list K -> list K -> list K.
  Variable sqrtK : K -> K.
  (** The problem and its points after problem.set_params(params).
      Simplification: params is a vector (jax flattens any pytree of arrays to one). *)
  Variable prob : list K -> problem K V.
  Variable pts : list K -> list (list (list K)).
  Variable P_mat : option (mat K).
  (** jax.vjp(f, x)[1](v) *)
  Variable vjp : (list K -> list K) -> list K -> list K -> list K.
  (** linear_solver(A, b, None, adjoint_solver_options); its dispatch is in LinSolve.v *)
  Variable solve : mat K -> list K -> result (list K).

  (** solver.py:1364-1371 *)
  Definition constraint_fn (dofs params : list K) : result (list K) :=
    let p := prob params in
    bind (g_unflatten p dofs) (fun sol_list =>
    bind (compute_residual sqrtK p (pts params) sol_list) (fun res =>
    Ok (apply_bc_vec (ravel res) dofs p one))).

  (** solver.py:1373-1376 *)
  Definition constraint_fn_sol_to_sol (sol_list : list (list (list K))) (params : list K) : result (list (list (list K))) :=
    bind (constraint_fn (ravel sol_list) params) (fun con_vec => g_unflatten (prob params) con_vec).

  (** solver.py:1378-1385; under jax.vjp an exception propagates: see implicit_vjp *)
  Definition partial_params_c_fn (sol_list : list (list (list K))) (params : list K) : list K :=
    match constraint_fn_sol_to_sol sol_list params with Ok r => ravel r | Err _ => [] end.

  (** solver.py:1387-1395 *)
  Definition vjp_linear_fn (params : list K) (sol_list v_list : list (list (list K))) : result (list K) :=
    bind (constraint_fn_sol_to_sol sol_list params) (fun _ =>
    Ok (vjp (partial_params_c_fn sol_list) params (ravel v_list))).

  (** solver.py:1362-1418 *)
  Definition implicit_vjp (sol_list : list (list (list K))) (params : list K) (v_list : list (list (list K)))
    : result (list K) :=
    let p := prob params in
    bind (newton_update jvp sqrtK p (pts params) sol_list) (fun rV =>
    let A := g_get_A p P_mat (snd rV) in
    bind (match P_mat with Some P => mat_mul_vec (mat_T P) (ravel v_list) | None => Ok (ravel v_list) end) (fun v_vec =>
    bind (solve (mat_T A) v_vec) (fun adjoint_vec =>
    bind (match P_mat with Some P => mat_mul_vec P adjoint_vec | None => Ok adjoint_vec end) (fun adjoint_vec =>
    bind (g_unflatten p adjoint_vec) (fun adjoint_list =>
    bind (vjp_linear_fn params sol_list adjoint_list) (fun vjp_result =>
    Ok (map opp vjp_result))))))).

  (** ad_wrapper, solver.py:1421-1455: the forward function, and the backward function applied to the
      residuals (params, sol_list) that the forward function keeps.
      [fwd params] is solver(problem, solver_options) after set_params(params). *)
  Variable fwd : list K -> result (list (list (list K))).
  Definition f_fwd (params : list K) : result (list (list (list K)) * (list K * list (list (list K)))) :=
    bind (fwd params) (fun sol_list => Ok (sol_list, (params, sol_list))).
  Definition f_bwd (res : list K * list (list (list K))) (v : list (list (list K))) : result (list K) :=
    implicit_vjp (snd res) (fst res) v.
End Adjoint.
