(** Model of the mesh generators and checks of jax_fem/generate_mesh.py that do not call gmsh.
    Arrays are nested lists.  Lengths are real numbers (rounding is not modelled); numbers of cells are not
    negative (numpy raises for negative ones). *)
From Coq Require Import String List Arith Bool Reals ZArith.
From Verif Require Import Num Arr Fe Problem.
Import ListNotations.

(** meshio.Mesh(points=..., cells={cell_type: ...}) *)
Record mesh := mkMesh { m_points : list (list R); m_type : string; m_cells : list (list nat) }.

(** np.linspace(0, stop, num): multiples of the step; the last one is set to stop *)
Definition linspace (stop : R) (num : nat) : list R :=
  map (fun i => if (num =? 1)%nat then (INR i * stop)%R
                else if (S i =? num)%nat then stop else (INR i * (stop / INR (num - 1)))%R) (seq 0 num).

Section Arrays.
  Context {A : Type}.
  (** np.stack(arrays, axis=k) for k-dimensional arrays of one shape, k = 1, 2, 3: a new last axis *)
  Definition stack1 (l : list (list A)) : list (list A) := fold_right (map2 cons) (map (fun _ => []) (hd [] l)) l.
  Definition stack2 (l : list (list (list A))) : list (list (list A)) :=
    fold_right (map2 (map2 cons)) (map (map (fun _ => [])) (hd [] l)) l.
  Definition stack3 (l : list (list (list (list A)))) : list (list (list (list A))) :=
    fold_right (map2 (map2 (map2 cons))) (map (map (map (fun _ => []))) (hd [] l)) l.
  (** x[:-1] and x[1:] on the first axis *)
  Definition upto_last (l : list A) : list A := removelast l.
  Definition from_second (l : list A) : list A := tl l.
End Arrays.

(** x.reshape(a, b, c) of a flat array *)
Definition chunk3 {A} (a b c : nat) (l : list A) : list (list (list A)) := map (chunk b c) (chunk a (b * c) l).

(** generate_mesh.py:120-148.  onp.meshgrid(x, y, indexing='ij') repeats x along the second axis and y along the first. *)
Definition rectangle_mesh (Nx Ny : nat) (domain_x domain_y : R) : mesh :=
  let x := linspace domain_x (Nx + 1) in
  let y := linspace domain_y (Ny + 1) in
  let xv := map (fun a => map (fun _ => a) y) x in
  let yv := map (fun _ => y) x in
  let points := concat (stack2 [xv; yv]) in
  let points_inds := seq 0 (length points) in
  let inds := chunk (Nx + 1) (Ny + 1) points_inds in
  let inds1 := map upto_last (upto_last inds) in
  let inds2 := map upto_last (from_second inds) in
  let inds3 := map from_second (from_second inds) in
  let inds4 := map from_second (upto_last inds) in
  mkMesh points "quad" (concat (stack2 [inds1; inds2; inds3; inds4])).

(** generate_mesh.py:151-189 *)
Definition box_mesh (Nx Ny Nz : nat) (domain_x domain_y domain_z : R) : mesh :=
  let x := linspace domain_x (Nx + 1) in
  let y := linspace domain_y (Ny + 1) in
  let z := linspace domain_z (Nz + 1) in
  let xv := map (fun a => map (fun _ => map (fun _ => a) z) y) x in
  let yv := map (fun _ => map (fun b => map (fun _ => b) z) y) x in
  let zv := map (fun _ => map (fun _ => z) y) x in
  let points := concat (concat (stack3 [xv; yv; zv])) in
  let points_inds := seq 0 (length points) in
  let inds := chunk3 (Nx + 1) (Ny + 1) (Nz + 1) points_inds in
  let lo := map (map upto_last) in
  let hi := map (map from_second) in
  let inds1 := lo (map upto_last (upto_last inds)) in
  let inds2 := lo (map upto_last (from_second inds)) in
  let inds3 := lo (map from_second (from_second inds)) in
  let inds4 := lo (map from_second (upto_last inds)) in
  let inds5 := hi (map upto_last (upto_last inds)) in
  let inds6 := hi (map upto_last (from_second inds)) in
  let inds7 := hi (map from_second (from_second inds)) in
  let inds8 := hi (map from_second (upto_last inds)) in
  mkMesh points "hexahedron" (concat (concat (stack3 [inds1; inds2; inds3; inds4; inds5; inds6; inds7; inds8]))).

(** generate_mesh.py:356-358: the points gmsh adds are dropped and the cells renumbered (signed integers) *)
Definition cylinder_cleanup {P} (points : list P) (cells : list (list Z)) : list P * list (list Z) :=
  (slice 1 14 points ++ slice_from 15 points,
   map (map (fun c => if (c >? 14)%Z then (c - 2)%Z else (c - 1)%Z)) cells).
(** numpy indexing with a signed integer: negative ones count from the end, others out of range raise *)
Definition np_index {P} (l : list P) (i : Z) : result P :=
  let n := Z.of_nat (length l) in
  let j := if (i <? 0)%Z then (i + n)%Z else i in
  if ((0 <=? j) && (j <? n))%Z then match nth_error l (Z.to_nat j) with Some p => Ok p | None => Err IndexErr end else Err IndexErr.

(** generate_mesh.py:58-80, over any numbers.  points[cells] of jax clamps an index that is out of range; a cell must have 4 nodes
    ("p1, p2, p3, p4 = pts"). *)
Section Check.
  Context {K : ops}.
  Open Scope num_scope.
  Definition vec_sub (a b : list K) : list K := map2 sub a b.
  (** np.cross and np.dot of vectors of 3 entries *)
  Definition np_cross (a b : list K) : list K :=
    let a0 := nth 0 a zero in let a1 := nth 1 a zero in let a2 := nth 2 a zero in
    let b0 := nth 0 b zero in let b1 := nth 1 b zero in let b2 := nth 2 b zero in
    [a1 * b2 - a2 * b1; a2 * b0 - a0 * b2; a0 * b1 - a1 * b0].
  Definition np_dot (a b : list K) : K := sumK (map2 mul a b).
  Definition quality (pts : list (list K)) : result K :=
    match pts with
    | [p1; p2; p3; p4] => Ok (np_dot (np_cross (vec_sub p2 p1) (vec_sub p3 p1)) (vec_sub p4 p1))
    | _ => Err ValueErr
    end.
  Fixpoint vmap_result {A B} (f : A -> result B) (l : list A) : result (list B) :=
    match l with [] => Ok [] | a :: l => bind (f a) (fun b => bind (vmap_result f l) (fun l => Ok (b :: l))) end.
  Definition check_mesh_TET4 (points : list (list K)) (cells : list (list nat)) : result (list K) :=
    vmap_result (fun c => quality (take [] points c)) cells.
End Check.
