(** C94: what the entries of the solution mean for the elements of second order. *)
From Coq Require Import String List Arith Bool Reals Lra.
From Coquelicot Require Import Hierarchy RInt.
From Verif Require Import Num Fe Basis SpecBasis SpecFe SpecSecond BasisFacts SecondFacts.
Import ListNotations.
Local Open Scope R_scope.

(** TRI6, TET10, HEX27: taking the values of a polynomial of degree two at the nodes reproduces the polynomial on the whole cell. *)
Theorem C94_lagrange : forall s i c b A x, In s quadratic_names -> get_elements s = Ok i ->
  field_at i (node_count s) (fun a => quadratic (element_dim s) c b A (ref_node s a)) x = quadratic (element_dim s) c b A x.
Proof. exact lagrange_exact. Qed.
Print Assumptions C94_lagrange.

(** QUAD8, HEX20: the entry of a vertex is the value of the field there; the entry of a mid-edge node is the mean of the field over the edge. *)
Theorem C94_meaning : forall s i U a, In s serendipity_names -> get_elements s = Ok i -> (a < node_count s)%nat ->
  entry_of s a (field_at i (node_count s) U) (U a).
Proof. exact field_entry. Qed.
Print Assumptions C94_meaning.
(** The same for one shape function. *)
Theorem C94_dual : forall s i a m, In s serendipity_names -> get_elements s = Ok i -> (a < node_count s)%nat -> (m < node_count s)%nat ->
  entry_of s m (fun x => shape_value (K := Rops) i x a) (if (a =? m)%nat then 1 else 0).
Proof. exact dual. Qed.
Print Assumptions C94_dual.

(** With the entries taken that way, every polynomial of degree two is reproduced. *)
Theorem C94_serendipity : forall s i c b A U x, In s serendipity_names -> get_elements s = Ok i ->
  (forall a, (a < node_count s)%nat -> entry_of s a (quadratic (element_dim s) c b A) (U a)) ->
  field_at i (node_count s) U x = quadratic (element_dim s) c b A x.
Proof. exact serendipity_exact. Qed.
Print Assumptions C94_serendipity.
(** Such entries exist for every polynomial of degree two, and are unique. *)
Theorem C94_serendipity_nonvacuous : forall s c b A a, In s serendipity_names -> (a < node_count s)%nat ->
  exists v, entry_of s a (quadratic (element_dim s) c b A) v /\ forall v', entry_of s a (quadratic (element_dim s) c b A) v' -> v' = v.
Proof.
  intros s c b A a I Ha. exists (quad_entries s c b A a). split; [now apply quad_entry|].
  intros v' E. apply (entry_unique s a (quadratic (element_dim s) c b A)); [exact E|now apply quad_entry].
Qed.
Print Assumptions C94_serendipity_nonvacuous.

(** The value of the field at a mid-edge node is not the node's entry: with v and w the ends of the edge it is 3/2 U_m - (U_v + U_w) / 4. *)
Theorem C94_midpoint : forall s i U m v w, In s serendipity_names -> get_elements s = Ok i ->
  (m < node_count s)%nat -> (v < node_count s)%nat -> (w < node_count s)%nat ->
  is_vertex s m = false -> ref_node s v = edge_point s m 0 -> ref_node s w = edge_point s m 1 ->
  field_at i (node_count s) U (ref_node s m) = 3 / 2 * U m - (U v + U w) / 4.
Proof. exact mid_value. Qed.
Print Assumptions C94_midpoint.
(** Every mid-edge node has such ends. *)
Theorem C94_midpoint_nonvacuous : forall s m, In s serendipity_names -> (m < node_count s)%nat -> is_vertex s m = false ->
  exists v w, (v < node_count s)%nat /\ (w < node_count s)%nat /\ is_vertex s v = true /\ is_vertex s w = true /\ ref_node s v = edge_point s m 0 /\ ref_node s w = edge_point s m 1.
Proof. exact mid_ends. Qed.
Print Assumptions C94_midpoint_nonvacuous.

(** "The field takes the entries as its values at the nodes" is false of both serendipity elements ... *)
Theorem C94_nodal_values_refuted : forall s, In s serendipity_names ->
  ~ (forall i U a, get_elements s = Ok i -> (a < node_count s)%nat -> field_at i (node_count s) U (ref_node s a) = U a).
Proof. exact nodal_refuted. Qed.
Print Assumptions C94_nodal_values_refuted.
(** ... and sampling a polynomial of degree two at their nodes, as a boundary condition or an initial state does, does not give it back. *)
Theorem C94_sampling_refuted : forall s, In s serendipity_names ->
  ~ (forall i c b A x, get_elements s = Ok i ->
       field_at i (node_count s) (fun a => quadratic (element_dim s) c b A (ref_node s a)) x = quadratic (element_dim s) c b A x).
Proof. exact sampling_refuted. Qed.
Print Assumptions C94_sampling_refuted.

(** Polynomials of degree one are reproduced by all nine elements from the values at the nodes. *)
Theorem C94_affine : forall s i c b x, In s nine_names -> get_elements s = Ok i ->
  field_at i (node_count s) (fun a => quadratic (element_dim s) c b (fun _ _ => 0) (ref_node s a)) x = quadratic (element_dim s) c b (fun _ _ => 0) x.
Proof. exact affine_exact. Qed.
Print Assumptions C94_affine.
