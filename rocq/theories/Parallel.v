(** Model of applications/parallel/example.py: triangles, the grid, assembly over the views of a distributed mesh, boundary rows, gathering.
    Real arithmetic.  PETSc (DMPlex, Mat, Vec, KSP) and MPI are not modelled: what a rank sees of the distributed mesh is an argument (rank_view),
    Mat and Vec are functions of global indices, and collective calls of all ranks are made rank after rank. *)
From Coq Require Import List Arith Bool Reals ZArith.
From Verif Require Import Num Arr Fe Problem XNum.
Import ListNotations.
Local Open Scope R_scope.
Local Notation sum n g := (sum_n (K := Rops) n g).

Definition pt : Type := R * R.
Definition vtx (v : list pt) (a : nat) : pt := nth a v (0, 0).
(** example.py:99-101, 138-141 *)
Definition tri_area (v : list pt) : R :=
  let v0 := vtx v 0 in let v1 := vtx v 1 in let v2 := vtx v 2 in
  1 / 2 * Rabs ((fst v1 - fst v0) * (snd v2 - snd v0) - (snd v1 - snd v0) * (fst v2 - fst v0)).
(** example.py:103-109 *)
Definition ref_grads (a i : nat) : R := nth i (nth a [[-1; -1]; [1; 0]; [0; 1]] []) 0.
(** example.py:111-116 *)
Definition tri_J (v : list pt) (i j : nat) : R :=
  let v0 := vtx v 0 in let v1 := vtx v 1 in let v2 := vtx v 2 in
  nth j (nth i [[fst v1 - fst v0; fst v2 - fst v0]; [snd v1 - snd v0; snd v2 - snd v0]] []) 0.
(** example.py:117: jnp.linalg.inv of a 2 x 2 matrix (not meaningful when the determinant is zero) *)
Definition tri_invJ (v : list pt) (i j : nat) : R :=
  let J := tri_J v in let d := J 0%nat 0%nat * J 1%nat 1%nat - J 0%nat 1%nat * J 1%nat 0%nat in
  nth j (nth i [[J 1%nat 1%nat / d; - J 0%nat 1%nat / d]; [- J 1%nat 0%nat / d; J 0%nat 0%nat / d]] []) 0.
(** example.py:120 *)
Definition tri_grads (v : list pt) (a j : nat) : R := sum 2 (fun i => ref_grads a i * tri_invJ v i j).
(** example.py:90-122 *)
Definition element_stiffness (v : list pt) (a b : nat) : R := tri_area v * sum 2 (fun j => tri_grads v a j * tri_grads v b j).
(** example.py:125-143 *)
Definition element_load (v : list pt) (f : R -> R -> R) : R :=
  let cx := (fst (vtx v 0) + fst (vtx v 1) + fst (vtx v 2)) / 3 in
  let cy := (snd (vtx v 0) + snd (vtx v 1) + snd (vtx v 2)) / 3 in
  tri_area v / 3 * f cx cy.

(** example.py:159-164 *)
Definition global_dof (off : Z) : Z := (if off <? 0 then - off - 1 else off)%Z.

(** example.py:177-202: unit_square_triangle_mesh; [junk] is what np.empty holds.  The cells are written in order (t = 0, 2, 4, ...). *)
Definition grid_coords (nx ny : nat) (lower upper : pt) (junk : pt) : list pt :=
  fold_left (fun coords ij => let '(i, j) := ij in
      upd_nth (i * (ny + 1) + j)%nat (fun _ => (fst lower + (fst upper - fst lower) * (INR i / INR nx), snd lower + (snd upper - snd lower) * (INR j / INR ny))) coords)
    (list_prod (seq 0 (nx + 1)) (seq 0 (ny + 1))) (repeat junk ((nx + 1) * (ny + 1))).
Definition grid_cells (nx ny : nat) : list (list nat) :=
  flat_map (fun ij => let '(i, j) := ij in
    let v00 := (i * (ny + 1) + j)%nat in let v10 := ((i + 1) * (ny + 1) + j)%nat in
    let v11 := ((i + 1) * (ny + 1) + (j + 1))%nat in let v01 := (i * (ny + 1) + (j + 1))%nat in
    [[v00; v10; v11]; [v00; v11; v01]]) (list_prod (seq 0 nx) (seq 0 ny)).
Definition unit_square_triangle_mesh (nx ny : nat) (lower upper junk : pt) : result (list pt * list (list nat)) :=
  if (nx =? 0)%nat || (ny =? 0)%nat then Err ZeroDivErr else Ok (grid_coords nx ny lower upper junk, grid_cells nx ny).

(** What a rank sees: its vertices 0 .. rv_nv - 1 (v_start .. v_end), the offset of each in the global section, their coordinates, the vertices of
    its cells (the closure points of depth 0), its range of rows. *)
Record rank_view := mkRank { rv_nv : nat; rv_off : nat -> Z; rv_xy : nat -> pt; rv_cells : list (list nat); rv_lo : Z; rv_hi : Z }.
Definition mat := Z -> Z -> R.
Definition vec_ := Z -> R.
(** Mat.setValues and Vec.setValues with ADD_VALUES *)
Definition add_values (m : mat) (dofs : nat -> Z) (k : nat -> nat -> R) : mat := fun g h =>
  m g h + sum 3 (fun a => sum 3 (fun b => if (dofs a =? g)%Z && (dofs b =? h)%Z then k a b else 0)).
Definition add_vec_values (x : vec_) (dofs : nat -> Z) (w : R) : vec_ := fun g => x g + sum 3 (fun a => if (dofs a =? g)%Z then w else 0).
(** example.py:296-308 *)
Definition assemble_cell (f : R -> R -> R) (r : rank_view) (s : result (mat * vec_)) (cell : list nat) : result (mat * vec_) :=
  bind s (fun mb =>
  if negb (length cell =? 3)%nat then Err RuntimeErr else
  let vert_coords := map (rv_xy r) cell in
  let dofs a := global_dof (rv_off r (nth a cell 0%nat)) in
  Ok (add_values (fst mb) dofs (element_stiffness vert_coords), add_vec_values (snd mb) dofs (element_load vert_coords f))).
Definition assemble (f : R -> R -> R) (ranks : list rank_view) : result (mat * vec_) :=
  fold_left (fun s r => fold_left (assemble_cell f r) (rv_cells r) s) ranks (Ok ((fun _ _ => 0), (fun _ => 0))).
(** example.py:317-323 *)
Definition near_boundary (c : pt) : bool :=
  let tol := / 10 ^ 8 in
  Rltb (Rabs (fst c)) tol || Rltb (Rabs (fst c - 1)) tol || Rltb (Rabs (snd c)) tol || Rltb (Rabs (snd c - 1)) tol.
(** example.py:315-327 *)
Definition boundary_dofs (r : rank_view) : list Z :=
  filter (fun gd => (rv_lo r <=? gd)%Z && (gd <? rv_hi r)%Z)
    (map (fun v => global_dof (rv_off r v)) (filter (fun v => near_boundary (rv_xy r v)) (seq 0 (rv_nv r)))).
(** example.py:328-331: Mat.zeroRows with diag = 1 and zero entries of b *)
Definition dirichlet (mb : mat * vec_) (r : rank_view) : mat * vec_ :=
  let bd g := existsb (Z.eqb g) (boundary_dofs r) in
  ((fun g h => if bd g then (if (g =? h)%Z then 1 else 0) else fst mb g h), (fun g => if bd g then 0 else snd mb g)).
(** example.py:296-335 *)
Definition parallel_system (f : R -> R -> R) (ranks : list rank_view) : result (mat * vec_) :=
  bind (assemble f ranks) (fun mb => Ok (fold_left dirichlet ranks mb)).

(** example.py:171-172, 356-364, 378-390: owned values keyed by rounded coordinates ([xykey]: the integers 10^10 x rounded), put on the vertices of
    the grid; a missing key raises KeyError *)
Definition owned (xykey : pt -> Z * Z) (x : vec_) (r : rank_view) : list ((Z * Z) * R) :=
  map (fun v => (xykey (rv_xy r v), x (global_dof (rv_off r v))))
    (filter (fun v => (rv_lo r <=? global_dof (rv_off r v))%Z && (global_dof (rv_off r v) <? rv_hi r)%Z) (seq 0 (rv_nv r))).
Definition key_eqb (a b : Z * Z) : bool := (fst a =? fst b)%Z && (snd a =? snd b)%Z.
(** a dict filled in order: the last entry of a key counts *)
Definition dict_get (d : list ((Z * Z) * R)) (k : Z * Z) : result R :=
  match find (fun e => key_eqb (fst e) k) (rev d) with Some e => Ok (snd e) | None => Err KeyErr end.
Definition u_vtk (xykey : pt -> Z * Z) (x : vec_) (ranks : list rank_view) (coords : list pt) : result (list R) :=
  let pos_to_u := flat_map (owned xykey x) ranks in
  mapM (fun c => dict_get pos_to_u (xykey c)) coords.
