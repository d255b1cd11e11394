(** Model of the top level of solver(), jax_fem/solver.py:1112 and 1270-1356: choice of the method and
    form of the result. *)
From Coq Require Import String List Arith Bool Reals ZArith.
From Verif Require Import Num Arr Fe Problem SolverBc XNum PyDict Options LinSolve Newton ArcLength DynRelax.
Import ListNotations.
Local Open Scope string_scope.

(** What solver() returns: sol_list, or the pair (sol_list, info). *)
Inductive solver_value :=
  | SolOnly (sol : list (list (list Xops)))
  | SolInfo (sol : list (list (list Xops))) (info : arc_info).

Definition omap {A B} (f : A -> B) (o : outcome A) : outcome B :=
  match o with
  | Running => Running
  | Done (Err e) => Done (Err e)
  | Done (Ok a) => Done (Ok (f a))
  end.

Section Solver.
  Context {O V : Type}.
  Variable ravel_obj : O -> list Xops.
  Variable obj_of_sol : list (list (list Xops)) -> O.
  Variable B : backends O.
  Variable jvp : (list Xops -> list Xops) -> list Xops -> list Xops -> list Xops.
  Variable p : problem Xops V.
  Variable pts : list (list (list Xops)).
  Variable P_mat : option pmat.
  Variable callback : pyval O -> nat -> list Xops -> xr -> result unit.
  (** the iteration orders of the three frozensets of keys *)
  Variables mk lk nk : list string.

  (** solver.py:1270-1356 *)
  Definition solver (fuel : nat) (solver_options : option (dict O)) : outcome solver_value :=
    match resolve_solver_options mk lk nk solver_options with
    | Err e => Done (Err e)
    | Ok (method, cfg) =>
        if method =? "arc_length" then
          omap (fun out => if truthy (get_default cfg "return_info" (VBool false))
                           then SolInfo (ao_sol out) (ao_info out) else SolOnly (ao_sol out))
               (solve_arc_length ravel_obj obj_of_sol B jvp p pts P_mat callback fuel cfg)
        else if method =? "dynamic_relax" then
          omap (fun out => SolOnly (do_sol out)) (solve_dynamic_relax ravel_obj B jvp p pts P_mat fuel cfg)
        else omap (fun out => SolOnly (out_sol out)) (solve_newton ravel_obj B jvp p pts P_mat fuel cfg)
    end.
End Solver.
