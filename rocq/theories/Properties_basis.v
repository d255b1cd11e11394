(** C01-C04: element tables, face re-indexing, shape functions. *)
From Coq Require Import List Arith Bool String Permutation ZArith Reals.
From Verif Require Import Num Arr Fe Basis SpecBasis SpecFe BasisFacts NansonFacts GeomFacts FacetFacts.
Import ListNotations.

(** C01. The two tables accept the nine names and nothing else ... *)
Theorem C01_names : forall s,
  (In s nine_names -> (exists i, get_elements s = Ok i) /\ (exists c, get_meshio_cell_type s = Ok c)) /\
  (~ In s nine_names -> get_elements s = Err NotImplementedErr /\ get_meshio_cell_type s = Err NotImplementedErr).
Proof.
  intros s. split; intros H; split;
    [now apply get_elements_ok|now apply get_meshio_ok|now apply get_elements_err|now apply get_meshio_err].
Qed.
Print Assumptions C01_names.

(** ... re_order is a permutation of the element's node numbers ... *)
Theorem C01_re_order_permutation : forall s i, get_elements s = Ok i ->
  Permutation (re_order i) (seq 0 (node_count s)).
Proof. exact re_order_perm. Qed.
Print Assumptions C01_re_order_permutation.

(** ... different names give different meshio cell types. *)
Theorem C01_meshio_injective : forall s s' c,
  get_meshio_cell_type s = Ok c -> get_meshio_cell_type s' = Ok c -> s = s'.
Proof. exact get_meshio_inj. Qed.
Print Assumptions C01_meshio_injective.

(** The meshio cell type has the dimension and the number of nodes of the element. *)
Theorem C01_meshio_cell : forall s i c, get_elements s = Ok i -> get_meshio_cell_type s = Ok c -> meshio_cell c = Some (element_dim s, node_count s).
Proof. exact meshio_cell_ok. Qed.
Print Assumptions C01_meshio_cell.
(** The face cell is one dimension lower and has as many vertices as each facet. *)
Theorem C01_face_cell : forall s i fc, get_elements s = Ok i -> fc < List.length (facets (basix_ele i)) ->
  S (cell_dim (basix_face_ele i)) = element_dim s /\ List.length (geometry (basix_face_ele i)) = List.length (nth fc (facets (basix_ele i)) []).
Proof. exact face_cell_ok. Qed.
Print Assumptions C01_face_cell.

(** C02. Looking the result of reorder_inds up in re_order gives back the table. *)
Theorem C02_reorder_inds : forall re n (inds : list (list nat)), Permutation re (seq 0 n) ->
  (forall row x, In row inds -> In x row -> x < n) ->
  exists r, reorder_inds inds re = Ok r /\ map (map (fun k => nth k re 0)) r = inds /\
            map (@List.length nat) r = map (@List.length nat) inds.
Proof. exact reorder_inds_ok. Qed.
Print Assumptions C02_reorder_inds.

(** The local nodes that the code tests for face fc are, in mesh order, the vertices of that facet:
    node k of the face sits at the reference position of the facet's k-th vertex. *)
Theorem C02_face_nodes : forall s i fi, get_elements s = Ok i ->
  reorder_inds (facets (basix_ele i)) (re_order i) = Ok fi ->
  List.length fi = List.length (facets (basix_ele i)) /\
  forall fc, fc < List.length fi ->
    List.length (nth fc fi []) = List.length (nth fc (facets (basix_ele i)) []) /\
    element_dim s <= List.length (nth fc fi []) /\
    forall k, k < List.length (nth fc fi []) ->
      nth k (nth fc fi []) 0 < node_count s /\
      nth (nth k (nth fc fi []) 0) (mesh_nodes2 s) []
      = map (Nat.mul 2) (nth (nth k (nth fc (facets (basix_ele i)) []) 0) (geometry (basix_ele i)) []).
Proof. exact face_nodes. Qed.
Print Assumptions C02_face_nodes.

(** C03. Re-ordered shape function a is one at mesh node a and zero at the other nodes. *)
Theorem C03_kronecker : forall (K : ops) (KR : ring_laws K) s i (half : K) a m, add half half = one ->
  In s lagrange_names -> get_elements s = Ok i -> a < node_count s -> m < node_count s ->
  shape_value i (ref_point half s m) a = if a =? m then one else zero.
Proof. exact (@kronecker). Qed.
Print Assumptions C03_kronecker.

(** For all nine elements mesh node k is the basix node named by re_order[k]. *)
Theorem C03_node_positions : forall s i k, get_elements s = Ok i -> k < node_count s ->
  nth k (mesh_nodes2 s) [] = nth (nth k (re_order i) 0) (lagrange_nodes2 (basix_ele i) (degree i)) [].
Proof. exact node_table. Qed.
Print Assumptions C03_node_positions.

(** C04. At every point: values sum to one, gradients to zero, coordinates and their gradients
    are reproduced, and the gradient table is the derivative of the value table. *)
Theorem C04_partition_of_unity : forall (K : ops) (KR : ring_laws K) s i (x : list K),
  In s nine_names -> get_elements s = Ok i ->
  sum_n (node_count s) (fun a => shape_value i x a) = one.
Proof. exact (@shape_sum). Qed.
Print Assumptions C04_partition_of_unity.

Theorem C04_gradients_sum_to_zero : forall (K : ops) (KR : ring_laws K) s i (x : list K) j,
  In s nine_names -> get_elements s = Ok i -> j < cell_dim (basix_ele i) ->
  sum_n (node_count s) (fun a => shape_grad i x a j) = zero.
Proof. exact (@grad_sum). Qed.
Print Assumptions C04_gradients_sum_to_zero.

Theorem C04_linear_completeness : forall (K : ops) (KR : ring_laws K) s i (half : K) (x : list K) k,
  add half half = one -> In s nine_names -> get_elements s = Ok i -> k < cell_dim (basix_ele i) ->
  sum_n (node_count s) (fun a => mul (ref_coord half s a k) (shape_value i x a)) = nth k x zero.
Proof. exact (@shape_linear). Qed.
Print Assumptions C04_linear_completeness.

Theorem C04_linear_gradients : forall (K : ops) (KR : ring_laws K) s i (half : K) (x : list K) k j,
  add half half = one -> In s nine_names -> get_elements s = Ok i ->
  k < cell_dim (basix_ele i) -> j < cell_dim (basix_ele i) ->
  sum_n (node_count s) (fun a => mul (ref_coord half s a k) (shape_grad i x a j)) = if k =? j then one else zero.
Proof. exact (@grad_linear). Qed.
Print Assumptions C04_linear_gradients.

Theorem C04_gradient_is_derivative : forall i (x : list Rops) a j, j < List.length x ->
  derivable_pt_lim (fun t : R => shape_value (K := Rops) i (upd_nth j (fun y => (y + t)%R) x) a) 0%R
                   (shape_grad (K := Rops) i x a j).
Proof. exact shape_grad_derivative. Qed.
Print Assumptions C04_gradient_is_derivative.

(** A point x of the face cell becomes the point of facet fc with the same coordinates relative to the facet's first vertex and its edges from there. *)
Theorem C04_facet_points : forall (K : ops) (KR : ring_laws K) s i fc (x : list K) j, get_elements s = Ok i -> fc < List.length (facets (basix_ele i)) -> j < element_dim s ->
  let v k := vertexK (K := K) (basix_ele i) (nth k (nth fc (facets (basix_ele i)) []) 0) j in
  nth j (facet_point i fc x) zero = (v 0%nat + sum_n (element_dim s - 1) (fun k => nth k x zero * (v (S k) - v 0%nat)))%num.
Proof. intros K KR s i fc x j. exact (facet_points_ok KR s i fc x j). Qed.
Print Assumptions C04_facet_points.
