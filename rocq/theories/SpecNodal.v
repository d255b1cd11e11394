(** Vocabulary for C89: fields and places inside a cell. *)
From Coq Require Import String List Arith Reals.
From Verif Require Import Num Arr Fe Basis SpecBasis SpecFe.
Import ListNotations.
Local Open Scope R_scope.

(** component k of the field, and coordinate i of the place, at the reference point x of cell c *)
Definition field_in_cell (info : element_info) (f : fe Rops) (sol : list (list Rops)) (c k : nat) (x : list Rops) : R :=
  sum_n (K := Rops) (num_nodes f) (fun a => cell_sol_at f sol c a k * shape_value info x a).
Definition place_in_cell (info : element_info) (f : fe Rops) (c i : nat) (x : list Rops) : R :=
  sum_n (K := Rops) (num_nodes f) (fun a => coo (points f) f c a i * shape_value info x a).
(** the reference point x moved by t in direction j *)
Definition moved (x : list Rops) (j : nat) (t : R) : list Rops := upd_nth j (fun y => y + t) x.
(** Jacobian of the place at the reference point x *)
Definition place_jacobian (info : element_info) (f : fe Rops) (c : nat) (x : list Rops) : nat -> nat -> R :=
  fun i j => sum_n (K := Rops) (num_nodes f) (fun a => coo (points f) f c a i * shape_grad info x a j).
(** G is the gradient, with respect to the place, of the field at the reference point x of cell c: when the point moves, the field changes by G times
    the change of the place. *)
Definition is_gradient_at (info : element_info) (f : fe Rops) (sol : list (list Rops)) (c : nat) (x : list Rops) (G : nat -> nat -> R) : Prop :=
  forall k j D, (k < vec f)%nat -> (j < dim f)%nat ->
    (forall i, (i < dim f)%nat -> derivable_pt_lim (fun t => place_in_cell info f c i (moved x j t)) 0 (D i)) ->
    derivable_pt_lim (fun t => field_in_cell info f sol c k (moved x j t)) 0 (sum_n (K := Rops) (dim f) (fun i => G k i * D i)).
