(** Vocabulary for C97: the Galerkin problem with continuous piecewise linear functions on a triangulation, and what it means that a mesh is
    distributed over ranks. *)
From Coq Require Import List Arith Bool Reals ZArith Permutation.
From Verif Require Import Num Parallel.
Import ListNotations.
Local Open Scope R_scope.

(** sum over a list *)
Definition total {A} (l : list A) (g : A -> R) : R := fold_right (fun a s => g a + s) 0 l.
(** twice the signed area of a triangle *)
Definition cross (p q r : pt) : R := (fst q - fst p) * (snd r - snd p) - (snd q - snd p) * (fst r - fst p).
Section Mesh.
  Variable coords : list pt.
  Definition at_ (k : nat) : pt := nth k coords (0, 0).
  (** g is the gradient, on the cell c, of the linear function with the values u at the vertices of c *)
  Definition gradient_on (c : list nat) (u : nat -> R) (g : pt) : Prop :=
    forall k l, In k c -> In l c -> u k - u l = fst g * (fst (at_ k) - fst (at_ l)) + snd g * (snd (at_ k) - snd (at_ l)).
  Definition cell_area (c : list nat) : R := Rabs (cross (at_ (nth 0 c 0%nat)) (at_ (nth 1 c 0%nat)) (at_ (nth 2 c 0%nat))) / 2.
  Definition centroid (c : list nat) : pt := (total c (fun k => fst (at_ k)) / 3, total c (fun k => snd (at_ k)) / 3).
  (** a triangulation without degenerate cells *)
  Definition triangulation (cells : list (list nat)) : Prop :=
    forall c, In c cells -> exists i j k, c = [i; j; k] /\ (i < length coords)%nat /\ (j < length coords)%nat /\ (k < length coords)%nat /\ cross (at_ i) (at_ j) (at_ k) <> 0.
  (** e is the integral of grad u . grad w: any gradients of u and w on the cells give it *)
  Definition energy_is (cells : list (list nat)) (u w : nat -> R) (e : R) : Prop :=
    forall gu gw : list nat -> pt, (forall c, In c cells -> gradient_on c u (gu c) /\ gradient_on c w (gw c)) ->
    e = total cells (fun c => cell_area c * (fst (gu c) * fst (gw c) + snd (gu c) * snd (gw c))).
  (** the load: one point per cell, at the centroid *)
  Definition load_of (cells : list (list nat)) (f : R -> R -> R) (w : nat -> R) : R :=
    total cells (fun c => cell_area c * f (fst (centroid c)) (snd (centroid c)) * (total c w / 3)).
  Definition on_boundary (k : nat) : Prop := near_boundary (at_ k) = true.
  (** the values w vanish on the boundary *)
  Definition vanishes (w : nat -> R) : Prop := forall k, (k < length coords)%nat -> on_boundary k -> w k = 0.
  (** u solves the Galerkin problem *)
  Definition galerkin (cells : list (list nat)) (f : R -> R -> R) (u : nat -> R) : Prop :=
    vanishes u /\ forall w, vanishes w -> energy_is cells u w (load_of cells f w).

  (** The mesh is distributed: [num] numbers the vertices 0 .. n-1; rank by rank, [vert] says which vertex a local vertex is.  Offsets of vertices that
      are not in the rank's range are encoded as -(g + 1).  Every vertex is owned by one rank, which has it.  The cells of all ranks are the
      cells of the mesh in some order, each with its vertices in some order. *)
  Record distributes (cells : list (list nat)) (num : nat -> nat) (ranks : list rank_view) (vert : list (nat -> nat)) : Prop := {
    d_range : forall k, (k < length coords)%nat -> (num k < length coords)%nat;
    d_inj : forall k l, (k < length coords)%nat -> (l < length coords)%nat -> num k = num l -> k = l;
    d_len : length vert = length ranks;
    d_local : forall r v m, In (r, m) (combine ranks vert) -> (v < rv_nv r)%nat -> (m v < length coords)%nat /\ rv_xy r v = at_ (m v) /\
      rv_off r v = if (rv_lo r <=? Z.of_nat (num (m v)))%Z && (Z.of_nat (num (m v)) <? rv_hi r)%Z then Z.of_nat (num (m v)) else (- (Z.of_nat (num (m v)) + 1))%Z;
    d_owner : forall k, (k < length coords)%nat -> exists r m v, In (r, m) (combine ranks vert) /\ (v < rv_nv r)%nat /\ m v = k /\
      (rv_lo r <= Z.of_nat (num k) < rv_hi r)%Z;
    d_cells : forall r c v, In r ranks -> In c (rv_cells r) -> In v c -> (v < rv_nv r)%nat;
    d_cover : exists cells', Permutation (flat_map (fun rm => map (map (snd rm)) (rv_cells (fst rm))) (combine ranks vert)) cells' /\
      Forall2 (@Permutation nat) cells' cells }.
End Mesh.
