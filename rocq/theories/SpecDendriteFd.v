(** Vocabulary for C100: solidification by finite differences. *)
From Coq Require Import List Arith Bool Reals.
From Verif Require Import Num Dendrite SpecDendrite DendriteFd.
Import ListNotations.
Local Open Scope R_scope.

Section Spec.
  Variables (nx ny : nat).
  Definition on_grid (i j : nat) : Prop := (i < nx)%nat /\ (j < ny)%nat.
  Definition inner (i j : nat) : Prop := (0 < i /\ S i < nx /\ 0 < j /\ S j < ny)%nat.
  Definition same_on (g h : grid) : Prop := forall i j, on_grid i j -> g i j = h i j.
  (** sums over the grid and over its inner places *)
  Definition grid_sum (g : grid) : R := sum_n (K := Rops) nx (fun i => sum_n (K := Rops) ny (fun j => g i j)).
  Definition inner_sum (g : grid) : R := sum_n (K := Rops) (nx - 2) (fun i => sum_n (K := Rops) (ny - 2) (fun j => g (S i) (S j))).
  (** every edge value is that of the place next to it *)
  Definition mirrored (g : grid) : Prop :=
    (forall j, (j < ny)%nat -> g 0%nat j = g 1%nat j /\ g (nx - 1)%nat j = g (nx - 2)%nat j) /\
    (forall i, (i < nx)%nat -> g i 0%nat = g i 1%nat /\ g i (ny - 1)%nat = g i (ny - 2)%nat).
  (** central differences and the five-point formula at an inner place *)
  Definition diff_x (g : grid) (hx : R) (i j : nat) : R := (g (i + 1)%nat j - g (i - 1)%nat j) / (2 * hx).
  Definition diff_y (g : grid) (hy : R) (i j : nat) : R := (g i (j + 1)%nat - g i (j - 1)%nat) / (2 * hy).
  Definition five_point (g : grid) (hx hy : R) (i j : nat) : R :=
    (g (i + 1)%nat j - 2 * g i j + g (i - 1)%nat j) / (hx * hx) + (g i (j + 1)%nat - 2 * g i j + g i (j - 1)%nat) / (hy * hy).
  Variable P : dn_params.
  (** width of the interface in the direction theta *)
  Definition width (theta : R) : R := eps_bar P * (1 + delta P * cos (J_mode P * theta)).
  Variables hx hy : R.
  (** direction of the gradient of a phase field, the widths there *)
  Definition gx (p : grid) : grid := fst (fd_grad nx ny p hx hy).
  Definition gy (p : grid) : grid := snd (fd_grad nx ny p hx hy).
  Definition dir (p : grid) : grid := fun i j => get_theta (gx p i j) (gy p i j).
  Definition wid (p : grid) : grid := fun i j => fst (get_eps P (dir p i j)).
  Definition wid' (p : grid) : grid := fun i j => snd (get_eps P (dir p i j)).
  Definition wid2 (p : grid) : grid := fun i j => wid p i j ^ 2.
  (** Kobayashi's right-hand side at an inner place, with (grad eps^2) taken of the phase field q *)
  Definition rhs (q p T chi : grid) (i j : nat) : R :=
    - diff_x (fun i j => wid p i j * wid' p i j * gy p i j) hx i j + diff_y (fun i j => wid p i j * wid' p i j * gx p i j) hy i j
    + (diff_x (wid2 q) hx i j * diff_x p hx i j + diff_y (wid2 q) hy i j * diff_y p hy i j) + wid2 p i j * five_point p hx hy i j
    + p i j * (1 - p i j) * (p i j - / 2 + driving P (T i j)) + a_noise P * p i j * (1 - p i j) * chi i j.
  (** one step: the equations at the inner places, with the grad eps^2 of the field q, and copied edges *)
  Definition frozen_step (q chi p T p' T' : grid) : Prop :=
    mirrored p' /\ mirrored T' /\
    (forall i j, inner i j -> p' i j = p i j + dt P / tau P * rhs q p T chi i j) /\
    (forall i j, inner i j -> T' i j = T i j + dt P * five_point T hx hy i j + K_lat P * (p' i j - p i j)).
  (** one step as the equations say *)
  Definition kobayashi (chi p T p' T' : grid) : Prop := frozen_step p chi p T p' T'.
End Spec.
