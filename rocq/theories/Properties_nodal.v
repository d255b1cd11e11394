(** C89: gradients at the nodes of the cells. *)
From Coq Require Import String List Arith Lia Reals.
From Verif Require Import Num Arr Fe Basis SpecBasis SpecFe NodalStress SpecNodal NodalFacts.
Import ListNotations.

(** C89, for the Lagrange elements (basix's element.points of a serendipity element are not its nodes). Affine fields: every row of every cell is the gradient. *)
Theorem C89_affine : forall (K : ops) (KF : field_laws K) (half : K) s d (f : fe K) info U, In s lagrange_names -> built_element s d f -> get_elements s = Ok info ->
  forall A b sol, u_grads half s f sol = Ok U -> samples d (vec f) A b (points f) sol ->
  forall c p k j, c < num_cells f -> p < List.length (element_points half info) -> k < vec f -> j < d ->
  det d (fun i j => sum_n (num_nodes f) (fun a => mul (coo (points f) f c a i) (shape_grad info (nth p (element_points half info) []) a j))) <> zero ->
  U c p k j = A k j.
Proof.
  intros K KF half s d f info U _ LE GE A b sol HU SA c p k j Hc Hp Hk Hj HD. exact (u_grads_affine KF half s d f LE info U A b sol c p k j GE HU SA Hc Hp Hk Hj HD).
Qed.
Print Assumptions C89_affine.

(** Any field: row re_order[a] is the gradient at node a of the cell. *)
Theorem C89_gradient_at_node : forall s d (f : fe Rops), In s lagrange_names -> built_element (K := Rops) s d f ->
  forall info U sol c a, get_elements s = Ok info -> u_grads (K := Rops) (/ 2)%R s f sol = Ok U -> a < node_count s ->
  det (K := Rops) d (place_jacobian info f c (ref_point (K := Rops) (/ 2)%R s a)) <> 0%R ->
  is_gradient_at info f sol c (ref_point (K := Rops) (/ 2)%R s a) (U c (nth a (re_order info) 0)).
Proof. intros s d f _. exact (u_grads_at_node s d f). Qed.
Print Assumptions C89_gradient_at_node.

(** So for triangles and tetrahedra of the first order row a is node a. *)
Theorem C89_simplex : forall s d (f : fe Rops), built_element (K := Rops) s d f -> s = "TRI3"%string \/ s = "TET4"%string ->
  forall info U sol c a, get_elements s = Ok info -> u_grads (K := Rops) (/ 2)%R s f sol = Ok U -> a < node_count s ->
  det (K := Rops) d (place_jacobian info f c (ref_point (K := Rops) (/ 2)%R s a)) <> 0%R ->
  is_gradient_at info f sol c (ref_point (K := Rops) (/ 2)%R s a) (U c a).
Proof.
  intros s d f LE S info U sol c a GE HU Ha HD. pose proof (u_grads_at_node s d f LE info U sol c a GE HU Ha HD) as G.
  replace (nth a (re_order info) 0) with a in G; [exact G|].
  destruct S as [-> | ->]; injection GE as <-; cbn in Ha |- *; repeat (destruct a as [|a]; [reflexivity|]); lia.
Qed.
Print Assumptions C89_simplex.

(** For the other elements row a is not always node a: the square and the field x y. *)
Theorem C89_row_order_refuted :
  ~ (forall s d (f : fe Rops) info U sol c a, In s lagrange_names -> built_element (K := Rops) s d f -> get_elements s = Ok info -> u_grads (K := Rops) (/ 2)%R s f sol = Ok U ->
       c < num_cells f -> a < node_count s -> (forall b, b < node_count s -> det (K := Rops) d (place_jacobian info f c (ref_point (K := Rops) (/ 2)%R s b)) <> 0%R) ->
       is_gradient_at info f sol c (ref_point (K := Rops) (/ 2)%R s a) (U c a)).
Proof.
  intros H. destruct square_facts as (f & info & U & LE & GE & EU & NC & DB & _ & NG). apply NG.
  apply (H "QUAD4"%string 2 f info U square_xy 0 2 ltac:(cbn; tauto) LE GE EU); [rewrite NC; lia|cbn; lia|exact DB].
Qed.
Print Assumptions C89_row_order_refuted.

(** The hypotheses are met: the same square. *)
Example C89_nonvacuous : exists (f : fe Rops) info U, built_element (K := Rops) "QUAD4" 2 f /\ get_elements "QUAD4" = Ok info /\ u_grads (K := Rops) (/ 2)%R "QUAD4" f square_xy = Ok U /\
  num_cells f = 1 /\ (forall b, b < 4 -> det (K := Rops) 2 (place_jacobian info f 0 (ref_point (K := Rops) (/ 2)%R "QUAD4" b)) <> 0%R).
Proof. destruct square_facts as (f & info & U & LE & GE & EU & NC & DB & _). exists f, info, U. auto. Qed.
Print Assumptions C89_nonvacuous.
