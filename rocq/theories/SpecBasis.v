(** Vocabulary for the element properties (C01-C04): the mesh-side node tables. *)
From Coq Require Import List Arith Bool String ZArith.
From Verif Require Import Num Basis.
Import ListNotations.

(** The nine documented names, fe.py:40-52. *)
Definition nine_names : list string :=
  ["QUAD4"; "QUAD8"; "TRI3"; "TRI6"; "HEX8"; "HEX20"; "HEX27"; "TET4"; "TET10"]%string.
(** those whose shape functions are Lagrange polynomials *)
Definition lagrange_names : list string :=
  ["QUAD4"; "TRI3"; "TRI6"; "HEX8"; "HEX27"; "TET4"; "TET10"]%string.

(** Reference nodes in mesh (meshio) order, coordinates doubled.
    Hexahedra: bottom square counter-clockwise, top square; bottom edges, top edges,
    vertical edges; faces x=0, x=1, y=0, y=1, z=0, z=1; centre.
    Tetrahedra: vertices; edges 01, 12, 20, 03, 13, 23. *)
Definition hex_mesh_nodes : list (list nat) :=
  [[0; 0; 0]; [2; 0; 0]; [2; 2; 0]; [0; 2; 0]; [0; 0; 2]; [2; 0; 2]; [2; 2; 2]; [0; 2; 2];
   [1; 0; 0]; [2; 1; 0]; [1; 2; 0]; [0; 1; 0]; [1; 0; 2]; [2; 1; 2]; [1; 2; 2]; [0; 1; 2];
   [0; 0; 1]; [2; 0; 1]; [2; 2; 1]; [0; 2; 1];
   [0; 1; 1]; [2; 1; 1]; [1; 0; 1]; [1; 2; 1]; [1; 1; 0]; [1; 1; 2]; [1; 1; 1]].
Definition tet_mesh_nodes : list (list nat) :=
  [[0; 0; 0]; [2; 0; 0]; [0; 2; 0]; [0; 0; 2]; [1; 0; 0]; [1; 1; 0]; [0; 1; 0]; [0; 0; 1]; [1; 0; 1]; [0; 1; 1]].
Definition quad_mesh_nodes : list (list nat) :=
  [[0; 0]; [2; 0]; [2; 2]; [0; 2]; [1; 0]; [2; 1]; [1; 2]; [0; 1]].
Definition tri_mesh_nodes : list (list nat) := [[0; 0]; [2; 0]; [0; 2]; [1; 0]; [1; 1]; [0; 1]].
Definition mesh_nodes2 (ele_type : string) : list (list nat) :=
  if String.eqb ele_type "HEX8" then firstn 8 hex_mesh_nodes
  else if String.eqb ele_type "HEX20" then firstn 20 hex_mesh_nodes
  else if String.eqb ele_type "HEX27" then hex_mesh_nodes
  else if String.eqb ele_type "TET4" then firstn 4 tet_mesh_nodes
  else if String.eqb ele_type "TET10" then tet_mesh_nodes
  else if String.eqb ele_type "QUAD4" then firstn 4 quad_mesh_nodes
  else if String.eqb ele_type "QUAD8" then quad_mesh_nodes
  else if String.eqb ele_type "TRI3" then firstn 3 tri_mesh_nodes
  else if String.eqb ele_type "TRI6" then tri_mesh_nodes
  else [].
(** The number of nodes of the element, the number in its name. *)
Definition node_count (ele_type : string) : nat := List.length (mesh_nodes2 ele_type).

(** coordinate i of mesh node a, given half = 1/2 *)
Definition ref_coord {K : ops} (half : K) (ele_type : string) (a i : nat) : K :=
  mul (ofZ (Z.of_nat (nth i (nth a (mesh_nodes2 ele_type) []) 0))) half.
Definition ref_point {K : ops} (half : K) (ele_type : string) (a : nat) : list K :=
  map (fun n => mul (ofZ (Z.of_nat n)) half) (nth a (mesh_nodes2 ele_type) []).

(** meshio's cell types: dimension and number of nodes (meshio/_common.py, num_nodes_per_cell) *)
Definition meshio_cell (cell_type : string) : option (nat * nat) :=
  match find (fun e => String.eqb (fst e) cell_type)
    [("line", (1, 2)); ("line3", (1, 3)); ("triangle", (2, 3)); ("triangle6", (2, 6)); ("triangle7", (2, 7)); ("quad", (2, 4)); ("quad8", (2, 8)); ("quad9", (2, 9));
     ("tetra", (3, 4)); ("tetra10", (3, 10)); ("hexahedron", (3, 8)); ("hexahedron20", (3, 20)); ("hexahedron24", (3, 24)); ("hexahedron27", (3, 27)); ("wedge", (3, 6)); ("pyramid", (3, 5))]%string
  with Some e => Some (snd e) | None => None end.
