(** C95: the quadrature rules: which rule is used, what is integrated exactly, and where the default rules fall short. *)
From Coq Require Import String List Arith Lia Bool Reals Lra.
From Coquelicot Require Import Hierarchy RInt.
From Verif Require Import Num Arr Fe Basis Problem SpecBasis SpecFe Quadrature SpecQuad SpecSecond BasisFacts QuadFacts.
Import ListNotations.
Local Open Scope R_scope.

(** Cells and faces use the rule that the argument stands for, and the given order (also order 0) or the default order of the element. *)
Theorem C95_choice : forall (K : ops) Q default string_to_type (make_quadrature : cell_type -> nat -> Q -> result (list (list K) * list K)) s i rule order r,
  In s nine_names -> get_elements s = Ok i -> stands_for default string_to_type rule r ->
  let o := match order with Some o => o | None => default_order s end in
  cell_rule Q default string_to_type make_quadrature s rule order = make_quadrature (basix_ele i) o r /\
  face_rule Q default string_to_type make_quadrature s rule order = make_quadrature (basix_face_ele i) o r.
Proof. exact @choice. Qed.
Print Assumptions C95_choice.
(** Unknown elements raise first, then arguments that are neither None nor a QuadratureType nor a string; what basix raises for a string is passed on. *)
Theorem C95_rejects : forall (K : ops) Q default string_to_type (make_quadrature : cell_type -> nat -> Q -> result (list (list K) * list K)) s rule order,
  (forall e, get_elements s = Err e -> cell_rule Q default string_to_type make_quadrature s rule order = Err e) /\
  (forall i, get_elements s = Ok i -> cell_rule Q default string_to_type make_quadrature s RuleOther order = Err TypeErr) /\
  (forall i t e, get_elements s = Ok i -> string_to_type t = Err e -> cell_rule Q default string_to_type make_quadrature s (RuleString t) order = Err e).
Proof. exact @rejected. Qed.
Print Assumptions C95_rejects.

(** The rules of the default orders of all elements but HEX27 integrate exactly what basix promises. *)
Theorem C95_default_rules : forall c order quad, default_rule c order = Some quad -> exact_rule c order quad.
Proof. exact default_exact. Qed.
Print Assumptions C95_default_rules.
Theorem C95_default_rules_nonvacuous : forall s i, In s nine_names -> s <> "HEX27"%string -> get_elements s = Ok i -> exists quad, default_rule (basix_ele i) (default_order s) = Some quad.
Proof. intros s i I N H. names I; injection H as <-; try (eexists; reflexivity). now destruct N. Qed.
Print Assumptions C95_default_rules_nonvacuous.

(** On a cell that is the image of the reference element under x -> M x + b, the entries of the stiffness matrix of the Laplacian (and, with k and l free,
    of every elasticity operator with constant coefficients) are the integrals over the cell, if the order is large enough. *)
Theorem C95_stiffness : forall Q default string_to_type make_quadrature sqrtK s rule order normals pts0 cls v dir f i r pts M b c a a' g h k l,
  In s nine_names -> get_elements s = Ok i -> stands_for default string_to_type rule r -> keeps_promise make_quadrature r ->
  finite_element (K := Rops) Q default string_to_type make_quadrature sqrtK s rule order normals pts0 cls v (element_dim s) dir = Ok f ->
  (2 * gradient_degree s <= reach (basix_ele i) (match order with Some o => o | None => default_order s end))%nat ->
  mesh_ok f -> List.length pts = List.length (points f) -> (c < List.length (cells f))%nat ->
  affine_cell (K := Rops) (/ 2) s pts f (element_dim s) c M b -> det_dim (K := Rops) (element_dim s) M <> 0 ->
  (a < node_count s)%nat -> (a' < node_count s)%nat -> (k < element_dim s)%nat -> (l < element_dim s)%nat ->
  gradient_on (element_dim s) i M a g -> gradient_on (element_dim s) i M a' h ->
  ref_int (basix_ele i) (fun x => g x k * h x l * det_dim (K := Rops) (element_dim s) M)
    (sum_n (K := Rops) (num_quads f) (fun q => get_shape_grads pts f c q a k * get_shape_grads pts f c q a' l * get_JxW pts f c q)).
Proof.
  intros Q default stt mq sqrtK s rule order normals pts0 cls v dir f i r pts M b c a a' g h k l I Hi S P F L HM HL Hc HA Hd Ha Ha' Hk Hl G H.
  destruct (finite_inv Q default stt mq _ _ _ _ _ _ _ _ _ _ _ I F) as (i' & r' & quad & fquad & Hi' & S' & E & _ & B). rewrite Hi in Hi'. injection Hi' as <-.
  apply normalized in S, S'. rewrite S in S'. injection S' as <-.
  apply (stiffness_exact _ _ _ _ _ _ _ _ _ _ _ _ B I HM eq_refl Hi pts HL M b c Hc HA _ a a' g h k l (P _ _ _ (not_interval s i I Hi) E)); auto.
Qed.
Print Assumptions C95_stiffness.
(** So TRI3, TET4, TRI6, TET10, QUAD4, HEX8 and HEX27 are integrated fully with their default orders. *)
Theorem C95_full_integration : forall Q default string_to_type make_quadrature sqrtK s normals pts0 cls v dir f i pts M b c a a' g h k l,
  In s full_names -> get_elements s = Ok i -> keeps_promise make_quadrature default ->
  finite_element (K := Rops) Q default string_to_type make_quadrature sqrtK s RuleNone None normals pts0 cls v (element_dim s) dir = Ok f ->
  mesh_ok f -> List.length pts = List.length (points f) -> (c < List.length (cells f))%nat ->
  affine_cell (K := Rops) (/ 2) s pts f (element_dim s) c M b -> det_dim (K := Rops) (element_dim s) M <> 0 ->
  (a < node_count s)%nat -> (a' < node_count s)%nat -> (k < element_dim s)%nat -> (l < element_dim s)%nat ->
  gradient_on (element_dim s) i M a g -> gradient_on (element_dim s) i M a' h ->
  ref_int (basix_ele i) (fun x => g x k * h x l * det_dim (K := Rops) (element_dim s) M)
    (sum_n (K := Rops) (num_quads f) (fun q => get_shape_grads pts f c q a k * get_shape_grads pts f c q a' l * get_JxW pts f c q)).
Proof.
  intros. destruct (full_degree s i) as [I L]; auto.
  apply (C95_stiffness Q default string_to_type make_quadrature sqrtK s RuleNone None normals pts0 cls v dir f i default pts M b c a a' g h k l); auto. constructor.
Qed.
Print Assumptions C95_full_integration.
(** Mass matrices (products of two shape functions) and loads (one shape function) need higher resp. lower orders. *)
Theorem C95_mass : forall Q default string_to_type make_quadrature sqrtK s rule order normals pts0 cls v dir f i r pts M b c a a',
  In s nine_names -> get_elements s = Ok i -> stands_for default string_to_type rule r -> keeps_promise make_quadrature r ->
  finite_element (K := Rops) Q default string_to_type make_quadrature sqrtK s rule order normals pts0 cls v (element_dim s) dir = Ok f ->
  (2 * value_degree s <= reach (basix_ele i) (match order with Some o => o | None => default_order s end))%nat ->
  mesh_ok f -> List.length pts = List.length (points f) -> (c < List.length (cells f))%nat ->
  affine_cell (K := Rops) (/ 2) s pts f (element_dim s) c M b -> (a < node_count s)%nat -> (a' < node_count s)%nat ->
  ref_int (basix_ele i) (fun x => shape_value (K := Rops) i x a * shape_value (K := Rops) i x a' * det_dim (K := Rops) (element_dim s) M)
    (sum_n (K := Rops) (num_quads f) (fun q => shape_vals f q a * shape_vals f q a' * get_JxW pts f c q)).
Proof.
  intros Q default stt mq sqrtK s rule order normals pts0 cls v dir f i r pts M b c a a' I Hi S P F L HM HL Hc HA Ha Ha'.
  destruct (finite_inv Q default stt mq _ _ _ _ _ _ _ _ _ _ _ I F) as (i' & r' & quad & fquad & Hi' & S' & E & _ & B). rewrite Hi in Hi'. injection Hi' as <-.
  apply normalized in S, S'. rewrite S in S'. injection S' as <-.
  apply (mass_exact _ _ _ _ _ _ _ _ _ _ _ _ B I HM eq_refl Hi pts HL M b c Hc HA _ a a' (P _ _ _ (not_interval s i I Hi) E)); auto.
Qed.
Print Assumptions C95_mass.
Theorem C95_load : forall Q default string_to_type make_quadrature sqrtK s rule order normals pts0 cls v dir f i r pts M b c a,
  In s nine_names -> get_elements s = Ok i -> stands_for default string_to_type rule r -> keeps_promise make_quadrature r ->
  finite_element (K := Rops) Q default string_to_type make_quadrature sqrtK s rule order normals pts0 cls v (element_dim s) dir = Ok f ->
  (value_degree s <= reach (basix_ele i) (match order with Some o => o | None => default_order s end))%nat ->
  mesh_ok f -> List.length pts = List.length (points f) -> (c < List.length (cells f))%nat ->
  affine_cell (K := Rops) (/ 2) s pts f (element_dim s) c M b -> (a < node_count s)%nat ->
  ref_int (basix_ele i) (fun x => shape_value (K := Rops) i x a * det_dim (K := Rops) (element_dim s) M)
    (sum_n (K := Rops) (num_quads f) (fun q => shape_vals f q a * get_JxW pts f c q)).
Proof.
  intros Q default stt mq sqrtK s rule order normals pts0 cls v dir f i r pts M b c a I Hi S P F L HM HL Hc HA Ha.
  destruct (finite_inv Q default stt mq _ _ _ _ _ _ _ _ _ _ _ I F) as (i' & r' & quad & fquad & Hi' & S' & E & _ & B). rewrite Hi in Hi'. injection Hi' as <-.
  apply normalized in S, S'. rewrite S in S'. injection S' as <-.
  apply (load_exact _ _ _ _ _ _ _ _ _ _ _ _ B I HM eq_refl Hi pts HL M b c Hc HA _ a (P _ _ _ (not_interval s i I Hi) E)); auto.
Qed.
Print Assumptions C95_load.
(** With the default orders the condition for loads holds for all elements, the condition for mass matrices for QUAD4, HEX8 and HEX27 only. *)
Theorem C95_orders : forall s i, In s nine_names -> get_elements s = Ok i ->
  (value_degree s <= reach (basix_ele i) (default_order s))%nat /\
  ((2 * value_degree s <= reach (basix_ele i) (default_order s))%nat <-> In s ["QUAD4"; "HEX8"; "HEX27"]%string) /\
  ((2 * gradient_degree s <= reach (basix_ele i) (default_order s))%nat <-> In s full_names).
Proof.
  intros s i I H. names I; injection H as <-; cbn -[In Nat.div]; (split; [vm_compute; lia|split; (split; intros X; [try (vm_compute in X; exfalso; lia); cbn; tauto|try (vm_compute; lia); cbn in X; decompose [or] X; discriminate || contradiction])]).
Qed.
Print Assumptions C95_orders.

(** The one-point rules of TRI3 and TET4: some displacement that is not zero has no mass on any cell of any mesh, although its exact mass is positive. *)
Theorem C95_mass_refuted : forall sqrtK s quad fquad normals pts0 cls v dir f i, In s ["TRI3"; "TET4"]%string -> get_elements s = Ok i ->
  default_rule (basix_ele i) (default_order s) = Some quad -> fe_init (K := Rops) sqrtK s quad fquad normals pts0 cls v (element_dim s) dir = Ok f ->
  exists U : nat -> R,
    (forall pts c a, sum_n (K := Rops) (num_quads f) (fun q => shape_vals f q a * sum_n (K := Rops) (node_count s) (fun b => shape_vals f q b * U b) * get_JxW pts f c q) = 0) /\
    exists m, 0 < m /\ ref_int (basix_ele i) (fun x => sum_n (K := Rops) (node_count s) (fun b => shape_value (K := Rops) i x b * U b) ^ 2) m.
Proof. exact massless. Qed.
Print Assumptions C95_mass_refuted.

(** QUAD8 and HEX20 with their default rules (basis.py says full integration for HEX20): on every affine cell there is a displacement without strain at any
    quadrature point that is not rigid: it changes the distance of two nodes. *)
Theorem C95_full_integration_refuted : forall sqrtK s quad fquad normals pts0 cls v dir f i pts M b c, In s serendipity_names -> get_elements s = Ok i ->
  default_rule (basix_ele i) (default_order s) = Some quad -> fe_init (K := Rops) sqrtK s quad fquad normals pts0 cls v (element_dim s) dir = Ok f ->
  mesh_ok f -> List.length pts = List.length (points f) -> (c < List.length (cells f))%nat ->
  affine_cell (K := Rops) (/ 2) s pts f (element_dim s) c M b -> det_dim (K := Rops) (element_dim s) M <> 0 ->
  exists u : nat -> nat -> R,
    (forall q k l, (q < num_quads f)%nat -> (k < element_dim s)%nat -> (l < element_dim s)%nat ->
       sum_n (K := Rops) (node_count s) (fun a => u a k * get_shape_grads pts f c q a l + u a l * get_shape_grads pts f c q a k) = 0) /\
    exists a a', (a < node_count s)%nat /\ (a' < node_count s)%nat /\
      let x := fun a k => nth k (nth (nth a (nth c (cells f) []) 0%nat) pts []) 0 in
      sum_n (K := Rops) (element_dim s) (fun k => (u a k - u a' k) * (x a k - x a' k)) <> 0.
Proof. exact strainless. Qed.
Print Assumptions C95_full_integration_refuted.

(** The rules above keep the promise, every element has a mesh of one cell of every affine shape that meets the hypotheses, and the gradients exist. *)
Theorem C95_nonvacuous : forall sqrtK normals s M b, In s nine_names -> s <> "HEX27"%string ->
  let make_quadrature := fun c order (_ : unit) => match default_rule c order with Some quad => Ok quad | None => if (cell_dim c =? 1)%nat then Ok ([[1 / 2]], [1]) else Err ValueErr end in
  keeps_promise make_quadrature tt /\
  exists f, finite_element (K := Rops) unit tt (fun _ => Err ValueErr) make_quadrature sqrtK s RuleNone None normals (one_cell_points s M b) [seq 0 (node_count s)] (element_dim s) (element_dim s) None = Ok f /\
    mesh_ok f /\ points f = one_cell_points s M b /\ cells f = [seq 0 (node_count s)] /\ affine_cell (K := Rops) (/ 2) s (one_cell_points s M b) f (element_dim s) 0 M b.
Proof. exact quad_example. Qed.
Print Assumptions C95_nonvacuous.
Theorem C95_gradients : forall s i M a, In s nine_names -> get_elements s = Ok i -> det_dim (K := Rops) (element_dim s) M <> 0 -> exists g, gradient_on (element_dim s) i M a g.
Proof. exact gradients. Qed.
Print Assumptions C95_gradients.
