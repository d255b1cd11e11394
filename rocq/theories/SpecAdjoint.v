(** Vocabulary for the multipoint-constraint and adjoint properties (C36, C37), over the reals. *)
From Coq Require Import List Arith Reals.
From Verif Require Import Num Arr Fe LinSolve.
Import ListNotations.
Local Open Scope R_scope.

(** The sum of the absolute values of the entries. *)
Definition norm1 (d : list R) : R := fold_right (fun a s => Rabs a + s) 0 d.
(** x + d *)
Definition plus (x d : list R) : list R := map2 Rplus x d.
(** Sum of f 0, ..., f (n-1). *)
Definition rsum (n : nat) (f : nat -> R) : R := fold_right Rplus 0 (map f (seq 0 n)).
(** x . y *)
Definition inner (x y : list R) : R := rsum (length x) (fun i => nth i x 0 * nth i y 0).

(** f is (totally) differentiable at x and its derivative is the matrix J. *)
Definition has_derivative (f : list R -> list R) (x : list R) (J : nat -> nat -> R) : Prop :=
  forall eps, 0 < eps -> exists delta, 0 < delta /\
    forall d, length d = length x -> norm1 d < delta ->
      length (f (plus x d)) = length (f x) /\
      forall k, (k < length (f x))%nat ->
        Rabs (nth k (f (plus x d)) 0 - nth k (f x) 0 - rsum (length x) (fun j => J k j * nth j d 0)) <= eps * norm1 d.

(** jax.vjp of f at x returns the transposed derivative times the vector if f is differentiable there. *)
Definition vjp_correct (vjp : (list R -> list R) -> list R -> list R -> list R) (f : list R -> list R) (x : list R) : Prop :=
  forall J v, has_derivative f x J -> length v = length (f x) ->
    length (vjp f x v) = length x /\
    forall j, (j < length x)%nat -> nth j (vjp f x v) 0 = rsum (length (f x)) (fun k => J k j * nth k v 0).

(** Every entry of the curve x has, at 0, the derivative given by dx. *)
Definition velocity (x : R -> list R) (dx : list R) : Prop :=
  forall i, (i < length dx)%nat -> derivable_pt_lim (fun t => nth i (x t) 0) 0 (nth i dx 0).

(** u = P y *)
Definition is_product (P : mat Rops) (y u : list R) : Prop :=
  length y = m_cols P /\ length u = m_rows P /\
  forall i, (i < m_rows P)%nat -> nth i u 0 = rsum (m_cols P) (fun j => m_at P i j * nth j y 0).
(** x + t d *)
Definition along (x d : list R) (t : R) : list R := map2 (fun a b => a + t * b) x d.
(** A x = b *)
Definition solves_exactly (A : mat Rops) (b x : list R) : Prop := is_product A x b.

From Verif Require Import Problem SpecAssembly SpecBc Adjoint.
Section Spec.
  Context {V : Type}.
  Variable sqrtK : R -> R.
  Variable prob : list R -> problem Rops V.
  Variable pts : list R -> list (list (list R)).
  (** The constraint c(u, params), the residual with the Dirichlet conditions applied, as one function of
      the vector (u, params); u has n entries. *)
  Definition constraint_of (n : nat) (z : list R) : list R :=
    match constraint_fn (K := Rops) sqrtK prob pts (firstn n z) (skipn n z) with Ok r => r | Err _ => [] end.
  (** The dofs u of a reduced state y: y itself, or P y. *)
  Definition full_of (P : option (mat Rops)) (y u : list R) : Prop :=
    match P with None => u = y | Some P => is_product P y u end.
  (** u satisfies the equations solved by Newton's method: c(u, params) = 0, with multipoint
      constraints P^T c(u, params) = 0. *)
  Definition equilibrium (P : option (mat Rops)) (params u : list R) : Prop :=
    exists r, constraint_fn (K := Rops) sqrtK prob pts u params = Ok r /\
      match P with
      | None => forall k, (k < length r)%nat -> nth k r 0 = 0
      | Some P => forall i, (i < m_cols P)%nat -> rsum (m_rows P) (fun k => m_at P k i * nth k r 0) = 0
      end.
End Spec.
(** The standing assumptions on the problem at the parameters where the derivative is taken. *)
Definition regular_problem {V} (jvp : (list R -> list R) -> list R -> list R -> list R) (sqrtK : R -> R) (p : problem Rops V)
    (pts sol : list (list (list R))) : Prop :=
  wf_problem p /\ (0 < p_num_cells p)%nat /\ sol_ok p sol /\ ivs_ok p /\ bcs_ok p /\ (forall f, In f (fes p) -> bc_in_range f) /\
  exists kf, kernels_ok p kf /\
    (forall c, (c < p_num_cells p)%nat -> jvp_correct jvp (cell_fun p pts sol c) (cell_values p sol c)) /\
    (forall s i, (s < length (boundary_inds_list p))%nat -> (i < num_sel_faces p s)%nat ->
       jvp_correct jvp (face_fun sqrtK p pts sol kf s i) (cell_values p sol (face_cell p s i))).
