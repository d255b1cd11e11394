(** C97: the distributed Poisson example. *)
From Coq Require Import List Arith Bool Lia Reals Lra ZArith Permutation.
From Verif Require Import Num Fe Problem Parallel SpecParallel ParallelFacts ParallelMain ParallelGrid.
Import ListNotations.
Local Open Scope R_scope.
Local Notation sum n g := (sum_n (K := Rops) n g).

(** C97. The mesh: vertex (i, j) has number i (ny + 1) + j and lies at lower + (i / nx, j / ny) (upper - lower); the cells are two triangles per
    square, all with the same orientation and the area of half a square; no subdivision means an error. *)
Theorem C97_mesh : forall nx ny lower upper junk,
  (nx = 0%nat \/ ny = 0%nat -> unit_square_triangle_mesh nx ny lower upper junk = Err ZeroDivErr) /\
  ((0 < nx)%nat -> (0 < ny)%nat -> fst lower < fst upper -> snd lower < snd upper ->
   exists coords cells, unit_square_triangle_mesh nx ny lower upper junk = Ok (coords, cells) /\
     length coords = ((nx + 1) * (ny + 1))%nat /\ length cells = (2 * (nx * ny))%nat /\
     (forall i j, (i <= nx)%nat -> (j <= ny)%nat ->
        at_ coords (i * (ny + 1) + j) = (fst lower + (fst upper - fst lower) * (INR i / INR nx), snd lower + (snd upper - snd lower) * (INR j / INR ny))) /\
     (forall c, In c cells <-> exists i j, (i < nx)%nat /\ (j < ny)%nat /\ let v a b := ((i + a) * (ny + 1) + (j + b))%nat in
        (c = [v 0%nat 0%nat; v 1%nat 0%nat; v 1%nat 1%nat] \/ c = [v 0%nat 0%nat; v 1%nat 1%nat; v 0%nat 1%nat])) /\
     triangulation coords cells /\
     (forall c, In c cells -> cross (at_ coords (nth 0 c 0%nat)) (at_ coords (nth 1 c 0%nat)) (at_ coords (nth 2 c 0%nat))
        = (fst upper - fst lower) * (snd upper - snd lower) / (INR nx * INR ny)) /\
     total cells (cell_area coords) = (fst upper - fst lower) * (snd upper - snd lower)).
Proof. exact mesh_all. Qed.
(** On the unit square the vertices treated as boundary vertices are the vertices of the four sides, up to 10^8 squares per side. *)
Theorem C97_boundary : forall nx ny junk coords cells i j, unit_square_triangle_mesh nx ny (0, 0) (1, 1) junk = Ok (coords, cells) ->
  (nx <= 10 ^ 8)%nat -> (ny <= 10 ^ 8)%nat -> (i <= nx)%nat -> (j <= ny)%nat ->
  on_boundary coords (i * (ny + 1) + j) <-> i = 0%nat \/ i = nx \/ j = 0%nat \/ j = ny.
Proof. exact mesh_boundary. Qed.
(** Assembly over the ranks: whatever the partition, the numbering, the ghosts and the order of cells and of their vertices, the assembled matrix is
    the form of grad u . grad w and the vector the load with one point per cell. *)
Theorem C97_assembled : forall coords cells num ranks vert f, triangulation coords cells -> distributes coords cells num ranks vert ->
  exists A b, assemble f ranks = Ok (A, b) /\
    (forall w u, energy_is coords cells u w (sum (length coords) (fun k => w k * sum (length coords) (fun l => A (Z.of_nat (num k)) (Z.of_nat (num l)) * u l)))) /\
    (forall w, sum (length coords) (fun k => w k * b (Z.of_nat (num k))) = load_of coords cells f w).
Proof. intros coords cells num ranks vert f TR D. exact (assembled coords cells TR num ranks vert D f). Qed.
(** The system solved is the Galerkin problem. *)
Theorem C97_galerkin : forall coords cells num ranks vert f, triangulation coords cells -> distributes coords cells num ranks vert ->
  exists A b, parallel_system f ranks = Ok (A, b) /\
    forall u, (forall k, (k < length coords)%nat -> sum (length coords) (fun l => A (Z.of_nat (num k)) (Z.of_nat (num l)) * u l) = b (Z.of_nat (num k)))
      <-> galerkin coords cells f u.
Proof. exact system_galerkin. Qed.
(** On the grid of the unit square the Galerkin problem has one solution. *)
Theorem C97_unique : forall nx ny junk coords cells f, unit_square_triangle_mesh nx ny (0, 0) (1, 1) junk = Ok (coords, cells) ->
  exists u, galerkin coords cells f u /\ forall u', galerkin coords cells f u' -> forall k, (k < length coords)%nat -> u' k = u k.
Proof. exact mesh_unique. Qed.
(** The whole run on the unit square: for any distribution of the mesh, a solution x of the global system gives, after the owned values are gathered,
    the values of the Galerkin solution at the vertices of the grid - if the rounded coordinates tell the vertices apart. *)
Theorem C97_run : forall nx ny junk coords cells f num ranks vert xykey A b x, unit_square_triangle_mesh nx ny (0, 0) (1, 1) junk = Ok (coords, cells) ->
  distributes coords cells num ranks vert ->
  (forall k l, (k < length coords)%nat -> (l < length coords)%nat -> xykey (at_ coords k) = xykey (at_ coords l) -> k = l) ->
  parallel_system f ranks = Ok (A, b) ->
  (forall g, (g < length coords)%nat -> sum (length coords) (fun h => A (Z.of_nat g) (Z.of_nat h) * x (Z.of_nat h)) = b (Z.of_nat g)) ->
  exists us, u_vtk xykey x ranks coords = Ok us /\ length us = length coords /\ galerkin coords cells f (fun k => nth k us 0).
Proof. exact mesh_run. Qed.
(** At an interior vertex the row of the matrix is the five-point stencil: the entries for the two diagonal neighbours cancel. *)
Theorem C97_stencil : forall nx ny junk coords cells f num ranks vert A b i j u, unit_square_triangle_mesh nx ny (0, 0) (1, 1) junk = Ok (coords, cells) ->
  distributes coords cells num ranks vert -> parallel_system f ranks = Ok (A, b) ->
  (0 < i < nx)%nat -> (0 < j < ny)%nat -> (nx <= 10 ^ 8)%nat -> (ny <= 10 ^ 8)%nat ->
  let v a b := (a * (ny + 1) + b)%nat in
  sum (length coords) (fun l => A (Z.of_nat (num (v i j))) (Z.of_nat (num l)) * u l) =
  INR nx / INR ny * (2 * u (v i j) - u (v (i - 1)%nat j) - u (v (i + 1)%nat j)) + INR ny / INR nx * (2 * u (v i j) - u (v i (j - 1)%nat) - u (v i (j + 1)%nat)).
Proof. exact mesh_stencil. Qed.
(** What conjugate gradients with a Jacobi preconditioner need: on the vectors that vanish on the boundary - to which the right-hand side belongs and
    which the matrix maps to themselves - the matrix is symmetric and positive definite, and its diagonal is positive. *)
Theorem C97_cg : forall nx ny junk coords cells f num ranks vert A b, unit_square_triangle_mesh nx ny (0, 0) (1, 1) junk = Ok (coords, cells) ->
  distributes coords cells num ranks vert -> parallel_system f ranks = Ok (A, b) ->
  let n := length coords in let app x := fun k => sum n (fun l => A (Z.of_nat (num k)) (Z.of_nat (num l)) * x l) in let dot x y := sum n (fun k => x k * y k) in
  vanishes coords (fun k => b (Z.of_nat (num k))) /\
  (forall x, vanishes coords x -> vanishes coords (app x)) /\
  (forall x y, vanishes coords x -> vanishes coords y -> dot x (app y) = dot y (app x)) /\
  (forall x, vanishes coords x -> (exists k, (k < n)%nat /\ x k <> 0) -> 0 < dot x (app x)) /\
  (forall k, (k < n)%nat -> 0 < A (Z.of_nat (num k)) (Z.of_nat (num k))).
Proof. exact mesh_cg. Qed.
(** The matrix as a whole is not symmetric when there is an interior vertex: only rows are replaced, not columns. *)
Theorem C97_symmetric_refuted : forall nx ny junk coords cells f num ranks vert A b, unit_square_triangle_mesh nx ny (0, 0) (1, 1) junk = Ok (coords, cells) ->
  distributes coords cells num ranks vert -> parallel_system f ranks = Ok (A, b) -> (2 <= nx <= 10 ^ 8)%nat -> (2 <= ny <= 10 ^ 8)%nat ->
  ~ forall k l, (k < length coords)%nat -> (l < length coords)%nat -> A (Z.of_nat (num k)) (Z.of_nat (num l)) = A (Z.of_nat (num l)) (Z.of_nat (num k)).
Proof. exact mesh_not_symmetric. Qed.

(** two ranks on the 2 x 2 grid: rank 0 has the left half and owns the vertices 0 .. 5 (numbers 8 .. 3), rank 1 has the right half, owns 6, 7, 8
    (numbers 2, 1, 0) and sees 3, 4, 5 as ghosts; its cells list their vertices in another order *)
Example C97_nonvacuous : forall junk, exists coords cells ranks vert,
  unit_square_triangle_mesh 2 2 (0, 0) (1, 1) junk = Ok (coords, cells) /\ length ranks = 2%nat /\
  distributes coords cells (fun k => 8 - k)%nat ranks vert /\
  (exists r v, In r ranks /\ (v < rv_nv r)%nat /\ (rv_off r v < 0)%Z) /\
  (forall k l, (k < length coords)%nat -> (l < length coords)%nat ->
     (fun p : pt => (up (2 * fst p), up (2 * snd p))) (at_ coords k) = (fun p : pt => (up (2 * fst p), up (2 * snd p))) (at_ coords l) -> k = l).
Proof. exact two_ranks. Qed.
