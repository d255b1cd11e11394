(** Vocabulary for C109. *)
From Coq Require Import Reals List Arith Bool.
Import ListNotations.
Local Open Scope R_scope.

(** x with entry i replaced by t *)
Definition put (x : nat -> R) (i : nat) (t : R) : nat -> R := fun k => if (k =? i)%nat then t else x k.
Definition put2 (x : nat -> nat -> R) (r i : nat) (t : R) : nat -> nat -> R := fun s => if (s =? r)%nat then put (x s) i t else x s.
(** 2 x 2 matrices *)
Definition mat2 (a b c d : R) : nat -> nat -> R := fun i j => match i, j with 0%nat, 0%nat => a | 0%nat, _ => b | _, 0%nat => c | _, _ => d end.
Definition times2 (A B : nat -> nat -> R) (i j : nat) : R := A i 0%nat * B 0%nat j + A i 1%nat * B 1%nat j.
Definition transp (A : nat -> nat -> R) (i j : nat) : R := A j i.
Definition one2 : nat -> nat -> R := mat2 1 0 0 1.
Definition same2 (A B : nat -> nat -> R) : Prop := forall i j, (i < 2)%nat -> (j < 2)%nat -> A i j = B i j.
(** Q^T Q = 1: rotations and reflections *)
Definition orthogonal2 (Q : nat -> nat -> R) : Prop := same2 (times2 (transp Q) Q) one2.
(** the entries of A, matrix by matrix, times those of B *)
Definition contract2 (A B : nat -> nat -> R) : R := A 0%nat 0%nat * B 0%nat 0%nat + A 0%nat 1%nat * B 0%nat 1%nat + A 1%nat 0%nat * B 1%nat 0%nat + A 1%nat 1%nat * B 1%nat 1%nat.
(** Psi, a function of the four entries of the displacement gradient, has the stress S as its partial derivatives *)
Definition stored_energy (S : (nat -> nat -> R) -> nat -> nat -> R) (Psi : R -> R -> R -> R -> R) : Prop :=
  forall a b c d, derivable_pt_lim (fun t => Psi t b c d) a (S (mat2 a b c d) 0%nat 0%nat) /\ derivable_pt_lim (fun t => Psi a t c d) b (S (mat2 a b c d) 0%nat 1%nat) /\
    derivable_pt_lim (fun t => Psi a b t d) c (S (mat2 a b c d) 1%nat 0%nat) /\ derivable_pt_lim (fun t => Psi a b c t) d (S (mat2 a b c d) 1%nat 1%nat).
