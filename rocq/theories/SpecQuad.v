(** Vocabulary for C95: integrals over the reference cells and what quadrature rules integrate exactly. *)
From Coq Require Import String List Arith Bool Reals.
From Coquelicot Require Import Hierarchy RInt.
From Verif Require Import Num Fe Basis SpecBasis SpecFe Quadrature.
Import ListNotations.
Local Open Scope R_scope.

(** reference cells: [0, 1]^d, or the part of it where the coordinates add up to at most 1 *)
Definition is_simplex (c : cell_type) : bool := match c with Interval => false | Triangle => true | Quadrilateral => false | Tetrahedron => true | Hexahedron => false end.
(** v is the integral of g over the reference cell in two resp. three dimensions, as an iterated Riemann integral *)
Definition int2 (simplex : bool) (g : list R -> R) (v : R) : Prop :=
  exists h, (forall x, 0 <= x <= 1 -> is_RInt (V := R_NormedModule) (fun y => g [x; y]) 0 (if simplex then 1 - x else 1) (h x)) /\ is_RInt (V := R_NormedModule) h 0 1 v.
Definition int3 (simplex : bool) (g : list R -> R) (v : R) : Prop :=
  exists k, (forall x, 0 <= x <= 1 -> exists h,
      (forall y, 0 <= y <= (if simplex then 1 - x else 1) -> is_RInt (V := R_NormedModule) (fun z => g [x; y; z]) 0 (if simplex then 1 - x - y else 1) (h y)) /\
      is_RInt (V := R_NormedModule) h 0 (if simplex then 1 - x else 1) (k x)) /\
    is_RInt (V := R_NormedModule) k 0 1 v.
Definition ref_int (c : cell_type) (g : list R -> R) (v : R) : Prop :=
  match cell_dim c with 2%nat => int2 (is_simplex c) g v | _ => int3 (is_simplex c) g v end.

(** the sum that stands for the integral *)
Definition by_rule (quad : list (list R) * list R) (g : list R -> R) : R :=
  sum_n (K := Rops) (List.length (fst quad)) (fun q => g (nth q (fst quad) []) * nth q (snd quad) 0).
(** x^e0 y^e1 z^e2 *)
Definition mono (e : nat * nat * nat) (x : list R) : R := let '(e0, e1, e2) := e in nth 0 x 0 ^ e0 * nth 1 x 0 ^ e1 * nth 2 x 0 ^ e2.
(** the degree up to which a rule is exact: total on simplices, in each variable on squares and cubes *)
Definition reach (c : cell_type) (order : nat) : nat := if is_simplex c then Nat.max 1 order else (2 * ((order + 2) / 2) - 1)%nat.
(** The monomials that basix promises to integrate exactly: up to the total degree [order] on simplices (at least 1: the rule of a single point is at
    the centroid); with n = (order + 2) / 2 points in each direction, up to the degree 2 n - 1 in each variable on squares and cubes. *)
Definition covered (c : cell_type) (order : nat) (e : nat * nat * nat) : bool :=
  let '(e0, e1, e2) := e in
  ((cell_dim c =? 3)%nat || (e2 =? 0)%nat) &&
  if is_simplex c then (e0 + e1 + e2 <=? reach c order)%nat else (e0 <=? reach c order)%nat && (e1 <=? reach c order)%nat && (e2 <=? reach c order)%nat.
Definition exact_rule (c : cell_type) (order : nat) (quad : list (list R) * list R) : Prop :=
  (forall q, (q < List.length (fst quad))%nat -> List.length (nth q (fst quad) []) = cell_dim c) /\
  forall e, covered c order e = true -> ref_int c (mono e) (by_rule quad (mono e)).

(** basix's rules for the default orders of eight of the nine elements (environment.yml pins basix 0.10; the numbers of points agree with the
    comments in jax_fem/basis.py:56-108): one point; Gauss with two points in each direction; three and four points of degree two. *)
Definition gauss2 : list R := [1 / 2 - sqrt 3 / 6; 1 / 2 + sqrt 3 / 6].
Definition tet_a : R := 1 / 4 + 3 * sqrt 5 / 20.
Definition tet_b : R := 1 / 4 - sqrt 5 / 20.
Definition default_rule (c : cell_type) (order : nat) : option (list (list R) * list R) :=
  match c, order with
  | Triangle, 0%nat => Some ([[1 / 3; 1 / 3]], [1 / 2])
  | Triangle, 2%nat => Some ([[1 / 6; 1 / 6]; [1 / 6; 2 / 3]; [2 / 3; 1 / 6]], [1 / 6; 1 / 6; 1 / 6])
  | Tetrahedron, 0%nat => Some ([[1 / 4; 1 / 4; 1 / 4]], [1 / 6])
  | Tetrahedron, 2%nat => Some ([[tet_a; tet_b; tet_b]; [tet_b; tet_a; tet_b]; [tet_b; tet_b; tet_a]; [tet_b; tet_b; tet_b]], [1 / 24; 1 / 24; 1 / 24; 1 / 24])
  | Quadrilateral, 2%nat => Some (flat_map (fun x => map (fun y => [x; y]) gauss2) gauss2, repeat (1 / 4) 4)
  | Hexahedron, 2%nat => Some (flat_map (fun x => flat_map (fun y => map (fun z => [x; y; z]) gauss2) gauss2) gauss2, repeat (1 / 8) 8)
  | _, _ => None
  end.

(** On the cell x = M xi + b: g is the gradient (with respect to x) of the shape function a, as a function of xi. *)
Definition gradient_on (d : nat) (i : element_info) (M : nat -> nat -> R) (a : nat) (g : list R -> nat -> R) : Prop :=
  forall x j, (j < d)%nat -> sum_n (K := Rops) d (fun k => g x k * M k j) = shape_grad (K := Rops) i x a j.

(** degree (in the sense of [reach]) of the values and of the gradients of the shape functions *)
Definition value_degree (s : string) : nat := if existsb (String.eqb s) ["TRI3"; "TET4"; "QUAD4"; "HEX8"]%string then 1 else 2.
Definition gradient_degree (s : string) : nat := if existsb (String.eqb s) ["TRI3"; "TET4"]%string then 0 else if existsb (String.eqb s) ["TRI6"; "TET10"; "QUAD4"; "HEX8"]%string then 1 else 2.

(** the order used when the user gives none *)
Definition default_order (s : string) : nat := if existsb (String.eqb s) ["TRI3"; "TET4"]%string then 0 else if String.eqb s "HEX27" then 10 else 2.
(** what the argument quadrature_rule stands for *)
Inductive stands_for {Q : Type} (default : Q) (string_to_type : string -> result Q) : rule_arg Q -> Q -> Prop :=
| stands_none : stands_for default string_to_type RuleNone default
| stands_type q : stands_for default string_to_type (RuleType q) q
| stands_string s q : string_to_type s = Ok q -> stands_for default string_to_type (RuleString s) q.
(** basix keeps its promise for the rules of type r on cells of two and three dimensions *)
Definition keeps_promise {Q : Type} (make_quadrature : cell_type -> nat -> Q -> result (list (list R) * list R)) (r : Q) : Prop :=
  forall c order quad, c <> Interval -> make_quadrature c order r = Ok quad -> exact_rule c order quad.
(** the elements whose comments say full integration, and QUAD4 and HEX8, which are left open there *)
Definition full_names : list string := ["TRI3"; "TET4"; "TRI6"; "TET10"; "QUAD4"; "HEX8"; "HEX27"]%string.
(** one cell, the image of the reference element under x -> M x + b *)
Definition one_cell_points (s : string) (M : nat -> nat -> R) (b : nat -> R) : list (list R) :=
  map (fun a => map (fun i => affine (K := Rops) (element_dim s) M b (fun k => ref_coord (K := Rops) (/ 2) s a k) i) (seq 0 (element_dim s))) (seq 0 (node_count s)).
