(** Vocabulary for C108: one array of three columns as two arrays. *)
From Coq Require Import Reals String List Arith Bool.
From Verif Require Import Num Arr Fe Problem SpecAssembly.
Import ListNotations.
Local Open Scope R_scope.

(** x is the first column of u and y holds the second and third *)
Definition split3 (u x y : list (list Rops)) : Prop :=
  length x = length u /\ length y = length u /\
  forall n, (n < length u)%nat -> nth n x [] = [nth 0 (nth n u []) 0] /\ nth n y [] = [nth 1 (nth n u []) 0; nth 2 (nth n u []) 0].
(** within the tolerance 1e-5 of 0, or 2e-5 of 1 *)
Definition at_left (x : R) : Prop := Rabs x <= / 10 ^ 5.
Definition at_right (x : R) : Prop := Rabs (x - 1) <= 2 / 10 ^ 5.
