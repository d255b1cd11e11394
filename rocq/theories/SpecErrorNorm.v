(** Vocabulary for C105: quadratic fields, weighted sums over the quadrature points, second derivatives. *)
From Coq Require Import String List Arith Bool Reals.
From Verif Require Import Num Fe Basis SpecBasis SpecFe.
Import ListNotations.

Section Fields.
  Context {K : ops}.
  Local Open Scope num_scope.
  (** c + sum_i b_i x_i + sum_ij A_ij x_i x_j, x in dimension d, and its gradient *)
  Definition quadratic_field (d : nat) (c : K) (b : nat -> K) (A : nat -> nat -> K) (x : nat -> K) : K :=
    c + sum_n d (fun i => b i * x i) + sum_n d (fun i => sum_n d (fun j => A i j * (x i * x j))).
  Definition quadratic_gradient (d : nat) (b : nat -> K) (A : nat -> nat -> K) (x : nat -> K) (m : nat) : K :=
    b m + sum_n d (fun l => (A m l + A l m) * x l).
  (** [sol] holds the values at the points [pts] of the field with these components *)
  Definition samples_quadratic (d nvec : nat) (c : nat -> K) (b : nat -> nat -> K) (A : nat -> nat -> nat -> K) (pts sol : list (list K)) : Prop :=
    List.length sol = List.length pts /\
    forall n k, (n < List.length pts)%nat -> (k < nvec)%nat -> nth k (nth n sol []) 0 = quadratic_field d (c k) (b k) (A k) (fun i => nth i (nth n pts []) 0).
End Fields.

Local Open Scope R_scope.
(** The weighted sum over cells, quadrature points and m components *)
Definition weighted_sum (nc nq m : nat) (w : nat -> nat -> R) (g : nat -> nat -> nat -> R) : R :=
  sum_n (K := Rops) nc (fun c => sum_n (K := Rops) nq (fun q => sum_n (K := Rops) m (fun k => g c q k * w c q))).
(** Every quadrature point has a positive (nonnegative) measure *)
Definition positive_measures (P : list (list Rops)) (f : fe Rops) : Prop := forall c q, (c < num_cells f)%nat -> (q < num_quads f)%nat -> 0 < get_JxW P f c q.
Definition nonnegative_measures (P : list (list Rops)) (f : fe Rops) : Prop := forall c q, (c < num_cells f)%nat -> (q < num_quads f)%nat -> 0 <= get_JxW P f c q.
Definition nonzero_measures (P : list (list Rops)) (f : fe Rops) : Prop := forall c q, (c < num_cells f)%nat -> (q < num_quads f)%nat -> get_JxW P f c q <> 0.
(** every cell is the image of the reference cell under an affine map *)
Definition affine_mesh (s : string) (P : list (list Rops)) (f : fe Rops) (d : nat) : Prop :=
  forall c, (c < num_cells f)%nat -> exists M b, affine_cell (K := Rops) (/ 2) s P f d c M b.

(** the point x with its coordinate i replaced by t *)
Definition put (x : list R) (i : nat) (t : R) : list R := firstn i x ++ t :: skipn (S i) x.
(** J is the array of the first derivatives of the m components of u at x *)
Definition jacobian_of (m : nat) (u : list R -> list R) (x : list R) (J : nat -> nat -> R) : Prop :=
  forall k i, (k < m)%nat -> (i < length x)%nat -> derivable_pt_lim (fun t => nth k (u (put x i t)) 0) (nth i x 0) (J k i).
(** H is the array of the second derivatives of the m components of u at x: derivatives of the first derivatives G *)
Definition hessian_of (m : nat) (u : list R -> list R) (x : list R) (H : nat -> nat -> nat -> R) : Prop :=
  exists G, (forall y, length y = length x -> jacobian_of m u y (G y)) /\
  forall k i j, (k < m)%nat -> (i < length x)%nat -> (j < length x)%nat -> derivable_pt_lim (fun t => G (put x j t) k i) (nth j x 0) (H k i j).

(** a point within the tolerances of the surface of the unit cube: 1e-5 at 0, 2e-5 at 1 *)
Definition near_surface (x : list R) : Prop := exists i, (i < 3)%nat /\ (Rabs (nth i x 0) <= / 10 ^ 5 \/ Rabs (nth i x 0 - 1) <= 2 / 10 ^ 5).
(** The exact solution of the example and the sum of its second derivatives *)
Definition known_solution (x y z : R) : R := 100 * ((x - 1 / 2) ^ 3 + 2 * (y - 1 / 2) ^ 3 + 10 * exp (- (z - 1 / 2) ^ 2)).
Definition known_laplacian (x y z : R) : R := 600 * (x - 1 / 2) + 1200 * (y - 1 / 2) + 1000 * exp (- (z - 1 / 2) ^ 2) * (4 * (z - 1 / 2) ^ 2 - 2).
(** what the test function of node n says: the sum over the quadrature points of grad u . grad phi + s phi *)
Definition galerkin (P : list (list Rops)) (f : fe Rops) (sol : list (list Rops)) (s : R -> R -> R -> R) (n : nat) : R :=
  sum_n (K := Rops) (num_cells f) (fun c => sum_n (K := Rops) (num_nodes f) (fun a => if (nth a (nth c (cells f) []) 0 =? n)%nat then
    sum_n (K := Rops) (num_quads f) (fun q => (sum_n (K := Rops) 3 (fun j => sol_to_grad P f sol c q 0 j * get_shape_grads P f c q a j)
      + s (get_physical_quad_points P f c q 0%nat) (get_physical_quad_points P f c q 1%nat) (get_physical_quad_points P f c q 2%nat) * shape_vals f q a) * get_JxW P f c q) else 0)).
