(** Vocabulary for C85: nonlinear problems whose stress grows with the gradient. *)
From Coq Require Import List Arith Bool Reals.
From Verif Require Import Num Arr Fe Problem SpecAssembly SpecBc SpecWeak SpecEnergy SpecPosed.
Import ListNotations.
Local Open Scope R_scope.

(** What a field is at a quadrature point: its gradient and its value. *)
Definition local_field : Type := ((nat -> nat -> R) * (nat -> R))%type.
Definition lcomb (x : local_field) (t : R) (y : local_field) : local_field :=
  (fun k j => fst x k j + t * fst y k j, fun k => snd x k + t * snd y k).
Definition lminus (x y : local_field) : local_field := lcomb x (-1) y.
Definition lsame (m d : nat) (x y : local_field) : Prop :=
  (forall k j, (k < m)%nat -> (j < d)%nat -> fst x k j = fst y k j) /\ (forall k, (k < m)%nat -> snd x k = snd y k).
(** An inner product of local fields, which may be zero for some of them. *)
Definition semi_inner (m d : nat) (e : local_field -> local_field -> R) : Prop :=
  (forall x t y z, e (lcomb x t y) z = e x z + t * e y z) /\ (forall x y, e x y = e y x) /\ (forall x, 0 <= e x x) /\
  (forall x x' y, lsame m d x x' -> e x y = e x' y).
(** products of the entries *)
Definition grad_product (m d : nat) (x y : local_field) : R := dot2 (K := Rops) m d (fst x) (fst y).
Definition strain_product (d : nat) (x y : local_field) : R :=
  dot2 (K := Rops) d d (fun i j => / 2 * (fst x i j + fst x j i)) (fun i j => / 2 * (fst y i j + fst y j i)).

Section Spec.
  Context {V : Type}.
  (** what the maps of the problem return at quadrature point q of cell c for a local field; a missing map is zero *)
  Definition flux_at (p : problem Rops V) (f : fe Rops) (P : list (list Rops)) (c q : nat) (x : local_field) : local_field :=
    (match tensor_map (maps p) with None => fun _ _ => 0 | Some tm => tm (fst x) (iv_at p c q) end,
     match mass_map (maps p) with None => fun _ => 0 | Some mm => mm (snd x) (get_physical_quad_points P f c q) (iv_at p c q) end).
  Definition lwork (m d : nat) (s x : local_field) : R := dot2 (K := Rops) m d (fst s) (fst x) + dot1 (K := Rops) m (snd s) (snd x).
  (** a field at a quadrature point *)
  Definition field_at (f : fe Rops) (P u : list (list Rops)) (c q : nat) : local_field := (sol_to_grad P f u c q, convert_from_dof_to_quad f u c q).
  (** The maps grow at least k times as fast as their arguments, measured in e, and at most L times as fast. *)
  Definition grows (p : problem Rops V) (f : fe Rops) (P : list (list Rops)) (e : nat -> nat -> local_field -> local_field -> R) (k L : R) : Prop :=
    forall c q, (c < p_num_cells p)%nat -> (q < num_quads f)%nat -> forall x y,
      k * e c q (lminus x y) (lminus x y) <= lwork (vec f) (dim f) (lminus (flux_at p f P c q x) (flux_at p f P c q y)) (lminus x y) /\
      forall z, let b := lwork (vec f) (dim f) (lminus (flux_at p f P c q x) (flux_at p f P c q y)) z in
        b * b <= L * L * e c q (lminus x y) (lminus x y) * e c q z z.
  (** surface loads that do not depend on the solution *)
  Definition dead_tractions (p : problem Rops V) : Prop :=
    forall sms sm u u' x iv k, surface_maps (maps p) = Some sms -> In sm sms -> sm u x iv k = sm u' x iv k.
  (** Only the zero field is zero at every prescribed dof and has no size, measured in e, at any quadrature point. *)
  Definition all_seen (p : problem Rops V) (f : fe Rops) (P : list (list Rops)) (e : nat -> nat -> local_field -> local_field -> R) : Prop :=
    forall d, sol_ok p [d] -> held_zero f d ->
      (forall c q, (c < p_num_cells p)%nat -> (q < num_quads f)%nat -> e c q (field_at f P d c q) (field_at f P d c q) = 0) ->
      forall n k, (n < length (points f))%nat -> (k < vec f)%nat -> get2 (@zero Rops) d n k = 0.
End Spec.

Section Sizes.
  Context {V : Type}.
  (** the square of the size of a field over the mesh, measured in e; the sum of the squares of its entries *)
  Definition size_of (p : problem Rops V) (f : fe Rops) (P : list (list Rops)) (e : nat -> nat -> local_field -> local_field -> R) (d : list (list Rops)) : R :=
    over_cells (K := Rops) p f P (fun c q => e c q (field_at f P d c q) (field_at f P d c q)).
  Definition squares (f : fe Rops) (d : list (list Rops)) : R := work (K := Rops) (length (points f)) (vec f) d d.
  (** x has the prescribed values *)
  Definition meets_bcs (f : fe Rops) (x : list (list Rops)) : Prop :=
    forall n k b, (n < length (points f))%nat -> (k < vec f)%nat -> prescribed f n k = Some b -> get2 (@zero Rops) x n k = b.
  (** the entries of r at the dofs that are not prescribed have squares that add up to at most t *)
  Definition free_squares (f : fe Rops) (r : list (list Rops)) : R :=
    sum_n (K := Rops) (length (points f)) (fun n => sum_n (K := Rops) (vec f) (fun k =>
      match prescribed f n k with Some _ => 0 | None => get2 (@zero Rops) r n k * get2 (@zero Rops) r n k end)).
End Sizes.

Section Maps.
  Context {V : Type}.
  (** the source does not depend on the solution *)
  Definition dead_source (m : user_maps Rops V) : Prop := forall mm u u' x iv k, mass_map m = Some mm -> mm u x iv k = mm u' x iv k.
  Definition minus2 (A B : nat -> nat -> R) : nat -> nat -> R := fun i j => A i j - B i j.
  (** The flux tm grows at least k and at most L times as fast as the gradient, in the sum of squares of the entries. *)
  Definition flux_grows (m d : nat) (tm : (nat -> nat -> R) -> nat -> nat -> R) (k L : R) : Prop :=
    forall A B, k * dot2 (K := Rops) m d (minus2 A B) (minus2 A B) <= dot2 (K := Rops) m d (minus2 (tm A) (tm B)) (minus2 A B) /\
      dot2 (K := Rops) m d (minus2 (tm A) (tm B)) (minus2 (tm A) (tm B)) <= L * L * dot2 (K := Rops) m d (minus2 A B) (minus2 A B).
  (** The stress tm is symmetric and grows at least k and at most L times as fast as the strain. *)
  Definition sym2 (A : nat -> nat -> R) : nat -> nat -> R := fun i j => / 2 * (A i j + A j i).
  Definition stress_grows (d : nat) (tm : (nat -> nat -> R) -> nat -> nat -> R) (k L : R) : Prop :=
    forall A B, let D := sym2 (minus2 A B) in let S := minus2 (tm A) (tm B) in
      (forall i j, (i < d)%nat -> (j < d)%nat -> S i j = S j i) /\
      k * dot2 (K := Rops) d d D D <= dot2 (K := Rops) d d S D /\ dot2 (K := Rops) d d S S <= L * L * dot2 (K := Rops) d d D D.
End Maps.
