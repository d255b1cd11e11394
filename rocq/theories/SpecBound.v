(** Vocabulary for C113. *)
From Coq Require Import List Arith Bool Reals.
From Verif Require Import Num Fe SpecFe Lagrangian.
Import ListNotations.
Local Open Scope R_scope.

(** the two location functions take a permitted number of arguments or both do not, and accept the same nodes *)
Definition agree {K : ops} (pts : list (list K)) (l l' : location_fn K) : Prop :=
  loc_wrong l = loc_wrong l' /\ forall n, (n < length pts)%nat -> loc_holds l (nth n pts []) n = loc_holds l' (nth n pts []) n.
(** coordinate k of the point is a, up to the tolerance 1e-5 of the examples *)
Definition at_coordinate (k : nat) (a : R) (point : list Rops) : bool := isclose (nth k point 0) a (/ 10 ^ 5).
(** N cells over the length L are wider than the tolerance *)
Definition wider (N : nat) (L : R) : Prop := 0 < L /\ / 10 ^ 5 + / 10 ^ 5 * L < L / INR N.
