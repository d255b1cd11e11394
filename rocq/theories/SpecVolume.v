(** Vocabulary for C106: deformed meshes, areas. *)
From Coq Require Import String List Arith Bool Reals.
From Verif Require Import Num Arr Fe Basis SpecBasis SpecFe SpecGeom SpecBc.
Import ListNotations.
Local Open Scope R_scope.

(** P' are the points P moved by the displacements u *)
Definition displaced (d : nat) (P u P' : list (list Rops)) : Prop :=
  length u = length P /\ length P' = length P /\ forall n i, (n < length P)%nat -> (i < d)%nat -> nth i (nth n P' []) 0 = nth i (nth n P []) 0 + nth i (nth n u []) 0.
(** the measures of all quadrature points of the mesh with the points P *)
Definition mesh_volume (P : list (list Rops)) (f : fe Rops) : R := sum_n (K := Rops) (num_cells f) (fun c => sum_n (K := Rops) (num_quads f) (fun q => get_JxW P f c q)).
(** P is moved by x -> A x + b *)
Definition moved_affinely (d : nat) (A : nat -> nat -> R) (b : nat -> R) (P u : list (list Rops)) : Prop :=
  length u = length P /\ forall n i, (n < length P)%nat -> (i < d)%nat -> nth i (nth n P []) 0 + nth i (nth n u []) 0 = affine (K := Rops) d A b (fun m => nth m (nth n P []) 0) i.
(** sum over i, j < d of A_ij B_ij *)
Definition double_dot (d : nat) (A B : nat -> nat -> R) : R := sum_n (K := Rops) d (fun i => sum_n (K := Rops) d (fun j => A i j * B i j)).
(** cofactor of the entry i, j of a 2x2 or 3x3 matrix *)
Definition cofactor (d : nat) (m : nat -> nat -> R) (i j : nat) : R :=
  match d with
  | 2%nat => if (i =? j)%nat then m (1 - i)%nat (1 - j)%nat else - m (1 - i)%nat (1 - j)%nat
  | _ => let i1 := ((i + 1) mod 3)%nat in let i2 := ((i + 2) mod 3)%nat in let j1 := ((j + 1) mod 3)%nat in let j2 := ((j + 2) mod 3)%nat in
         m i1 j1 * m i2 j2 - m i1 j2 * m i2 j1
  end.
(** within the tolerance 1e-5 of 0, or 2e-5 of 1 *)
Definition near0 (x : R) : Prop := Rabs x <= / 10 ^ 5.
Definition near1 (x : R) : Prop := Rabs (x - 1) <= 2 / 10 ^ 5.
(** an array with a row of vec numbers per node *)
Definition fits (f : fe Rops) (sol : list (list Rops)) : Prop := length sol = length (points f) /\ forall row, In row sol -> length row = vec f.
(** the two variables differ at most in their Dirichlet conditions *)
Definition same_mesh (f f' : fe Rops) : Prop :=
  points f' = points f /\ cells f' = cells f /\ vec f' = vec f /\ dim f' = dim f /\ num_quads f' = num_quads f /\ (forall P c q, get_JxW P f' c q = get_JxW P f c q) /\ forall P sol c q i j, sol_to_grad P f' sol c q i j = sol_to_grad P f sol c q i j.
(** the columns of the matrix are orthonormal *)
Definition orthonormal (d : nat) (A : nat -> nat -> R) : Prop := forall i j, (i < d)%nat -> (j < d)%nat -> sum_n (K := Rops) d (fun k => A k i * A k j) = if (i =? j)%nat then 1 else 0.
(** the edges of a face of a cell from its first vertex *)
Definition facet_edges (P : list (list Rops)) (f : fe Rops) (c fc : nat) : nat -> nat -> R :=
  let fv k := nth k (nth fc (face_inds f) []) 0%nat in fun k i => vx P f c (fv (S k)) i - vx P f c (fv 0%nat) i.
(** the normals of the reference faces have length one and are orthogonal to the faces *)
Definition facet_normals (s : string) (d : nat) (f : fe Rops) : Prop := forall fc, (fc < length (face_inds f))%nat ->
  let fv k := nth k (nth fc (face_inds f) []) 0%nat in
  let tangent k i := ref_coord (K := Rops) (/ 2) s (fv (S k)) i - ref_coord (K := Rops) (/ 2) s (fv 0%nat) i in
  sum_n (K := Rops) d (fun i => face_normals f fc i * face_normals f fc i) = 1 /\ forall k, (S k < d)%nat -> sum_n (K := Rops) d (fun i => face_normals f fc i * tangent k i) = 0.
(** the solution has the prescribed values *)
Definition obeys (f : fe Rops) (u : list (list Rops)) : Prop := forall n k b, (n < length (points f))%nat -> prescribed f n k = Some b -> nth k (nth n u []) 0 = b.
(** the body displaced by u, turned about the third axis by the angle w, is the body displaced by u' *)
Definition spun (w : R) (P u u' : list (list Rops)) : Prop :=
  length u' = length P /\ forall n, (n < length P)%nat ->
    let y k := nth k (nth n P []) 0 + nth k (nth n u []) 0 in
    let y' k := nth k (nth n P []) 0 + nth k (nth n u' []) 0 in
    y' 0%nat = cos w * y 0%nat - sin w * y 1%nat /\ y' 1%nat = sin w * y 0%nat + cos w * y 1%nat /\ y' 2%nat = y 2%nat.
