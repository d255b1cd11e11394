(** Vocabulary for C94: what an entry of the solution means for the elements of second order. *)
From Coq Require Import String List Arith Bool Reals.
From Coquelicot Require Import Hierarchy RInt.
From Verif Require Import Num Fe Basis SpecBasis SpecFe.
Import ListNotations.
Local Open Scope R_scope.

Definition serendipity_names : list string := ["QUAD8"; "HEX20"]%string.
Definition quadratic_names : list string := ["TRI6"; "TET10"; "HEX27"]%string.
(** reference coordinate k of mesh node a *)
Definition rc (s : string) (a k : nat) : R := INR (nth k (nth a (mesh_nodes2 s) []) 0%nat) / 2.
(** mesh node a is a vertex of the square or the cube; otherwise it is the midpoint of an edge, which runs along the axis whose coordinate is 1/2 *)
Definition is_vertex (s : string) (a : nat) : bool := forallb Nat.even (nth a (mesh_nodes2 s) []).
Definition edge_axis (s : string) (a : nat) : nat := match find (fun k => Nat.odd (nth k (nth a (mesh_nodes2 s) []) 0%nat)) (seq 0 3) with Some k => k | None => 0%nat end.
Definition ref_node (s : string) (a : nat) : list R := map (rc s a) (seq 0 (element_dim s)).
(** the point of that edge at the fraction t of its length *)
Definition edge_point (s : string) (a : nat) (t : R) : list R := map (fun k => if (k =? edge_axis s a)%nat then t else rc s a k) (seq 0 (element_dim s)).

(** v is the value of u at the vertex a, or the mean of u over the edge whose midpoint is a *)
Definition entry_of (s : string) (a : nat) (u : list R -> R) (v : R) : Prop :=
  if is_vertex s a then u (ref_node s a) = v else is_RInt (fun t => u (edge_point s a t)) 0 1 v.
(** the field with the entries U on the reference cell *)
Definition field_at (i : element_info) (n : nat) (U : nat -> R) (x : list R) : R := sum_n (K := Rops) n (fun a => U a * shape_value (K := Rops) i x a).
(** a polynomial of degree at most two in the coordinates of a point *)
Definition quadratic (d : nat) (c : R) (b : nat -> R) (A : nat -> nat -> R) (x : list R) : R :=
  c + sum_n (K := Rops) d (fun k => b k * nth k x 0) + sum_n (K := Rops) d (fun k => sum_n (K := Rops) d (fun l => A k l * (nth k x 0 * nth l x 0))).
