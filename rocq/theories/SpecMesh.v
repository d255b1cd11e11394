(** Vocabulary for the mesh properties (C44-C47, C67). *)
From Coq Require Import String List Arith Reals.
From Verif Require Import Num Arr Fe Mesh.
Import ListNotations.
Local Open Scope R_scope.

(** Coordinate i of the a-th vertex of a cell *)
Definition vertex (M : mesh) (c : list nat) (a i : nat) : R := nth i (nth (nth a c 0%nat) (m_points M) []) 0.
(** The sum over the cells of a mesh *)
Definition over_cells (M : mesh) (f : list nat -> R) : R := fold_right Rplus 0 (map f (m_cells M)).

(** Twice the signed area of the triangle p, q, (x, y) where p, q are the vertices a, b of the cell *)
Definition turn (M : mesh) (c : list nat) (a b : nat) (x y : R) : R :=
  (vertex M c b 0 - vertex M c a 0) * (y - vertex M c a 1) - (vertex M c b 1 - vertex M c a 1) * (x - vertex M c a 0).
(** (x, y) is on the left of, or on, every side of the quadrilateral when it is walked around; strictly left *)
Definition in_quad (M : mesh) (c : list nat) (x y : R) : Prop :=
  0 <= turn M c 0 1 x y /\ 0 <= turn M c 1 2 x y /\ 0 <= turn M c 2 3 x y /\ 0 <= turn M c 3 0 x y.
Definition inside_quad (M : mesh) (c : list nat) (x y : R) : Prop :=
  0 < turn M c 0 1 x y /\ 0 < turn M c 1 2 x y /\ 0 < turn M c 2 3 x y /\ 0 < turn M c 3 0 x y.
(** The signed area of a quadrilateral (Gauss) *)
Definition quad_area (M : mesh) (c : list nat) : R :=
  let s a b := vertex M c a 0 * vertex M c b 1 - vertex M c b 0 * vertex M c a 1 in (s 0%nat 1%nat + s 1%nat 2%nat + s 2%nat 3%nat + s 3%nat 0%nat) / 2.

(** (x, y, z) is between vertex 0 and vertex 6 in every coordinate; strictly *)
Definition in_hex (M : mesh) (c : list nat) (x y z : R) : Prop :=
  vertex M c 0 0 <= x <= vertex M c 6 0 /\ vertex M c 0 1 <= y <= vertex M c 6 1 /\ vertex M c 0 2 <= z <= vertex M c 6 2.
Definition inside_hex (M : mesh) (c : list nat) (x y z : R) : Prop :=
  vertex M c 0 0 < x < vertex M c 6 0 /\ vertex M c 0 1 < y < vertex M c 6 1 /\ vertex M c 0 2 < z < vertex M c 6 2.
(** The determinant of the edges from vertex 0 to vertices 1, 3 and 4: the volume of a parallelepiped in HEX8 order, positive if right-handed *)
Definition hex_volume (M : mesh) (c : list nat) : R :=
  let e a i := vertex M c a i - vertex M c 0 i in
  e 1%nat 0%nat * (e 3%nat 1%nat * e 4%nat 2%nat - e 3%nat 2%nat * e 4%nat 1%nat)
  - e 1%nat 1%nat * (e 3%nat 0%nat * e 4%nat 2%nat - e 3%nat 2%nat * e 4%nat 0%nat)
  + e 1%nat 2%nat * (e 3%nat 0%nat * e 4%nat 1%nat - e 3%nat 1%nat * e 4%nat 0%nat).

(** A tetrahedral mesh: points in space, cells of four existing points *)
Definition tet_mesh {K : ops} (pts : list (list K)) (cells : list (list nat)) : Prop :=
  (forall p, In p pts -> length p = 3%nat) /\
  (forall c, In c cells -> length c = 4%nat /\ forall n, In n c -> (n < length pts)%nat).
(** The cell with the nodes at positions a and b exchanged *)
Definition swap_at (a b : nat) (c : list nat) : list nat :=
  map (fun i => nth (if (i =? a)%nat then b else if (i =? b)%nat then a else i) c 0%nat) (seq 0 (length c)).
