(** Vocabulary for the solver properties (C24-C30, C38). *)
From Coq Require Import String List Arith Bool Reals.
From Verif Require Import Num Arr Fe Problem SolverBc XNum PyDict Options LinSolve Newton Amgx SolverCache.
Import ListNotations.

(** C27: the residual of A x = b is a finite vector of norm e. *)
Definition linear_residual (A : pmat) (x b : list Xops) (e : R) : Prop :=
  length x = m_cols A /\ length b = m_rows A /\
  exists d : nat -> R,
    (forall i, i < m_rows A ->
       sub (sum_n (m_cols A) (fun j => mul (m_at A i j) (nth j x zero))) (nth i b zero) = Fin (d i)) /\
    e = sqrt (sum_n (K := Rops) (m_rows A) (fun i => (d i * d i)%R)).

(** C25: two solves end the same way: both still running, both raise the same, both return related values. *)
Definition same_outcome {X Y} (R : X -> Y -> Prop) (o : outcome X) (o' : outcome Y) : Prop :=
  match o, o' with
  | Running, Running => True
  | Done (Ok x), Done (Ok y) => R x y
  | Done (Err e), Done (Err e') => e = e'
  | _, _ => False
  end.
(** the same solution after the same number of iterations *)
Definition same_solution {O} (o o' : newton_out (O := O)) : Prop :=
  out_sol o = out_sol o' /\ out_iters o = out_iters o'.
(** the options of a flat dict, written as the nested form {'newton': nested} *)
Definition nested_form {O} (flat nested : dict O) : Prop :=
  (forall k, In k NEWTON_OPTION_KEYS -> lookup nested k = lookup flat k) /\
  (if existsb (has flat) LINEAR_OPTION_KEYS
   then exists lin, lookup nested "linear" = Some (VDict lin) /\
          (forall k, In k LINEAR_OPTION_KEYS -> lookup lin k = lookup flat k) /\
          (forall k, ~ In k LINEAR_OPTION_KEYS -> lookup lin k = None)
   else lookup nested "linear" = None \/ lookup nested "linear" = Some (VDict [])).
(** custom solvers see only the contents of the option dict, not the order of its keys *)
Definition custom_reads_contents {O} (B : backends O) : Prop :=
  forall t f A b x0 (l l' : dict O), (forall k, lookup l k = lookup l' k) ->
    b_custom B t f A b x0 l = b_custom B t f A b x0 l'.

(** C26: linear solves one after the other on one dict (and with a new copy of it each time). *)
Fixpoint solves_sharing {O} (B : backends O) (lo : dict O) (systems : list (nat * pmat * xvec * option xvec))
  : list (result xvec) :=
  match systems with
  | [] => []
  | (t, A, b, x0) :: systems =>
      let '(lo, r) := linear_solver B t A b x0 lo in r :: solves_sharing B lo systems
  end.
Definition solves_fresh {O} (B : backends O) (lo : dict O) (systems : list (nat * pmat * xvec * option xvec))
  : list (result xvec) :=
  map (fun s => let '(t, A, b, x0) := s in snd (linear_solver B t A b x0 lo)) systems.

(** C38: the handles created and destroyed in a list of events, in order. *)
Definition creations (ev : list event) : list handle :=
  flat_map (fun e => match e with Created h => [h] | Destroyed _ => [] end) ev.
Definition destructions (ev : list event) : list handle :=
  flat_map (fun e => match e with Destroyed h => [h] | Created _ => [] end) ev.

(** C24: histories made of boundary-condition updates and tangent requests. *)
Definition updates_and_requests {K} (o : op K) : Prop := match o with MoveLists _ _ => False | _ => True end.
