(** Model of the choice of the quadrature rule: jax_fem/basis.py:127-139, 160-168, 193-201 and the arguments quadrature_rule,
    quadrature_order of FiniteElement (jax_fem/fe.py:68-69, 85-95). *)
From Coq Require Import String List Arith.
From Verif Require Import Num Arr Fe Basis Problem.
Import ListNotations.

Section Rules.
  Context {K : ops}.
  (** basix.QuadratureType *)
  Variable QuadratureType : Type.
  (** basix.QuadratureType.default *)
  Variable default : QuadratureType.
  (** basix.quadrature.string_to_type: may raise *)
  Variable string_to_type : string -> result QuadratureType.
  (** basix.make_quadrature(cell, order, rule=rule): points and weights; may raise *)
  Variable make_quadrature : cell_type -> nat -> QuadratureType -> result (list (list K) * list K).

  (** what a user passes as quadrature_rule *)
  Inductive rule_arg := RuleNone | RuleType (q : QuadratureType) | RuleString (s : string) | RuleOther.
  (** basis.py:127-138 *)
  Definition normalize_quadrature_rule (rule : rule_arg) : result QuadratureType :=
    match rule with
    | RuleNone => Ok default
    | RuleType q => Ok q
    | RuleString s => string_to_type s
    | RuleOther => Err TypeErr
    end.
  (** basis.py:163-164 and 197-198: quadrature_order, if it is not None *)
  Definition order_or_default (info : element_info) (quadrature_order : option nat) : nat :=
    match quadrature_order with Some o => o | None => quadrature_order_default info end.
  (** basis.py:160-166: the rule on the cell *)
  Definition cell_rule (ele_type : string) (rule : rule_arg) (quadrature_order : option nat) : result (list (list K) * list K) :=
    bind (get_elements ele_type) (fun info =>
    bind (normalize_quadrature_rule rule) (fun r => make_quadrature (basix_ele info) (order_or_default info quadrature_order) r)).
  (** basis.py:192-199: the rule on the face cell *)
  Definition face_rule (ele_type : string) (rule : rule_arg) (quadrature_order : option nat) : result (list (list K) * list K) :=
    bind (get_elements ele_type) (fun info =>
    bind (normalize_quadrature_rule rule) (fun r => make_quadrature (basix_face_ele info) (order_or_default info quadrature_order) r)).
  (** FiniteElement(mesh, vec, dim, ele_type, quadrature_rule, quadrature_order, dirichlet_bc_info), fe.py:64-113 *)
  Definition finite_element (sqrtK : K -> K) (ele_type : string) (rule : rule_arg) (quadrature_order : option nat)
      (normals : nat -> nat -> K) (pts : list (list K)) (cls : list (list nat)) (vec_ dim_ : nat)
      (dirichlet : option (list (location_fn K) * list nat * list (list K -> K))) : result (fe K) :=
    bind (cell_rule ele_type rule quadrature_order) (fun quad =>
    bind (face_rule ele_type rule quadrature_order) (fun fquad =>
    fe_init sqrtK ele_type quad fquad normals pts cls vec_ dim_ dirichlet)).
End Rules.
Arguments RuleNone {QuadratureType}. Arguments RuleType {QuadratureType} q. Arguments RuleString {QuadratureType} s. Arguments RuleOther {QuadratureType}.
