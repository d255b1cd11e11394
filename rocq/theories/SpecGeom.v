(** Vocabulary for C07, C08: edge vectors, cross product, size of a facet. *)
From Coq Require Import List Arith Reals.
From Verif Require Import Num Fe SpecFe.
Import ListNotations.

(** edge vectors of a cell: column j is vertex j+1 minus vertex 0 *)
Definition edge_mat {K : ops} (pts : list (list K)) (f : fe K) (c i j : nat) : K :=
  sub (vx pts f c (S j) i) (vx pts f c 0 i).

Local Open Scope R_scope.
Definition cross3 (u v : nat -> R) (i : nat) : R :=
  match i with
  | 0%nat => u 1%nat * v 2%nat - u 2%nat * v 1%nat
  | 1%nat => u 2%nat * v 0%nat - u 0%nat * v 2%nat
  | _ => u 0%nat * v 1%nat - u 1%nat * v 0%nat
  end.
Definition dot3 (u v : nat -> R) : R := u 0%nat * v 0%nat + u 1%nat * v 1%nat + u 2%nat * v 2%nat.
Definition sign (x : R) : R := if Rlt_dec x 0 then -1 else 1.
(** length of the edge e_0 in the plane; area of the parallelogram spanned by e_0, e_1 in space *)
Definition facet_size (d : nat) (e : nat -> nat -> R) : R :=
  match d with
  | 2%nat => sqrt (e 0%nat 0%nat * e 0%nat 0%nat + e 0%nat 1%nat * e 0%nat 1%nat)
  | _ => sqrt (dot3 (cross3 (e 0%nat) (e 1%nat)) (cross3 (e 0%nat) (e 1%nat)))
  end.
