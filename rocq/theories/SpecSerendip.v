(** Vocabulary for C114. *)
From Coq Require Import List Arith Reals.
From Verif Require Import Num.
Import ListNotations.
Local Open Scope R_scope.

(** coordinate k of point n *)
Definition coord (pts : list (list Rops)) (n k : nat) : R := nth k (nth n pts []) 0.
Definition least (pts : list (list Rops)) (k : nat) (m : R) : Prop := (exists n, (n < length pts)%nat /\ coord pts n k = m) /\ forall n, (n < length pts)%nat -> m <= coord pts n k.
Definition greatest (pts : list (list Rops)) (k : nat) (m : R) : Prop := (exists n, (n < length pts)%nat /\ coord pts n k = m) /\ forall n, (n < length pts)%nat -> coord pts n k <= m.
Definition in_space (pts : list (list Rops)) : Prop := forall p, In p pts -> length p = 3%nat.
Definition moved_by (a : nat -> R) (pts : list (list Rops)) : list (list Rops) := map (fun p => [nth 0 p 0 + a 0%nat; nth 1 p 0 + a 1%nat; nth 2 p 0 + a 2%nat]) pts.
