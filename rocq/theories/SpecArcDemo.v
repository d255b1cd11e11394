(** Vocabulary for C107. *)
From Coq Require Import List Arith Bool Reals.
Local Open Scope R_scope.
(** a point of the plane of displacement and load factor *)
Definition force (x : R) : R := x - x * x.
(** distance Delta_l from (u0, l0), the load measured with q *)
Definition on_circle (Dl u0 l0 q u l : R) : Prop := (u - u0) * (u - u0) + q * q * ((l - l0) * (l - l0)) = Dl * Dl.
(** (u', l') is in equilibrium for the force linearised at u *)
Definition on_tangent (q u u' l' : R) : Prop := force u + (1 - 2 * u) * (u' - u) + l' * q = 0.
Definition out_of_balance (q u l : R) : R := force u + l * q.
(** all points of the list are defined and neighbours have the given distance *)
Fixpoint chain (Dl q : R) (p : R * R) (l : list (option (R * R))) : Prop :=
  match l with
  | nil => True
  | cons (Some p') l => on_circle Dl (fst p) (snd p) q (fst p') (snd p') /\ chain Dl q p' l
  | cons None l => Forall (fun o => o = None) l
  end.
