(** Model of the option handling in jax_fem/solver.py: the registry (1079-1106), the linear
    solver dispatch (261-284). *)
From Coq Require Import String List Arith Bool Reals.
From Verif Require Import Num Fe Problem XNum PyDict.
Import ListNotations.
Local Open Scope string_scope.

(** solver.py:1079-1083; frozensets, so iteration order is any permutation of these lists. *)
Definition METHOD_KEYS : list string := ["newton"; "arc_length"; "dynamic_relax"].
Definition LINEAR_OPTION_KEYS : list string :=
  ["jax_solver"; "amgx_solver"; "spsolve_solver"; "petsc_solver"; "custom_solver"].
Definition NEWTON_OPTION_KEYS : list string := ["tol"; "rel_tol"; "line_search_flag"; "initial_guess"].

Section Options.
  Context {O : Type}.

  (** solver.py:1088-1106.  [mk], [lk], [nk]: the iteration orders of the three frozensets.
      Simplification: solver_options is None or a dict. *)
  Definition resolve_solver_options (mk lk nk : list string) (solver_options : option (dict O))
    : result (string * dict O) :=
    let opts := match solver_options with None => [] | Some d => d end in
    let methods := filter (has opts) mk in
    match methods with
    | [] =>
        let linear := restrict lk opts in
        let cfg := restrict nk opts in
        let cfg := match linear with [] => cfg | _ => dset cfg "linear" (VDict linear) end in
        Ok ("newton", cfg)
    | [method] =>
        match lookup opts method with
        | Some (VDict d) => Ok (method, d)
        | _ => Err ValueErr
        end
    | _ => Err ValueErr
    end.

  (** sub[name] if name in sub else default (solver.py:267, 270, 275, 276), for sub a dict; `in` on
      a str is a substring test, on None, a bool or a number a TypeError.
      Simplification: other objects raise TypeError. *)
  Definition sub_get (sub : pyval O) (name : string) (default : pyval O) : result (pyval O) :=
    match sub with
    | VDict d => Ok (get_default d name default)
    | VStr s => match index 0 name s with Some _ => Err TypeErr | None => Ok default end
    | _ => Err TypeErr
    end.

  (** The call a dispatch ends in: back-end and its options. *)
  Inductive call :=
    | CJax (precond : pyval O)
    | CAmgx (cfg_path : pyval O)
    | CSpsolve
    | CPetsc (ksp_type pc_type : pyval O)
    | CCustom (f : pyval O) (linear_options : dict O).

  (** solver.py:263-264: the default is written into the caller's dict *)
  Definition with_default (linear_options : dict O) : dict O :=
    if existsb (has linear_options) LINEAR_OPTION_KEYS then linear_options
    else dset linear_options "jax_solver" (VDict []).

  (** solver.py:266-282, on the dict with the default written *)
  Definition choose (lo : dict O) : result call :=
    match lookup lo "jax_solver" with
    | Some sub => bind (sub_get sub "precond" (VBool true)) (fun p => Ok (CJax p))
    | None =>
    match lookup lo "amgx_solver" with
    | Some sub => bind (sub_get sub "cfg_path" VNone) (fun c => Ok (CAmgx c))
    | None =>
    match lookup lo "spsolve_solver" with
    | Some _ => Ok CSpsolve
    | None =>
    match lookup lo "petsc_solver" with
    | Some sub => bind (sub_get sub "ksp_type" (VStr "bcgsl")) (fun ksp =>
                  bind (sub_get sub "pc_type" (VStr "ilu")) (fun pc => Ok (CPetsc ksp pc)))
    | None =>
    match lookup lo "custom_solver" with
    | Some f => Ok (CCustom f lo)
    | None => Err NotImplementedErr
    end end end end end.

  (** solver.py:261-284: the dict after the call and the back-end call *)
  Definition linear_dispatch (linear_options : dict O) : dict O * result call :=
    let lo := with_default linear_options in (lo, choose lo).
End Options.
Arguments call : clear implicits.
