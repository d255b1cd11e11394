(** Vocabulary for C84. *)
From Coq Require Import List Arith Bool Reals.
From Verif Require Import Num Elastic Plasticity.
Import ListNotations.
Local Open Scope R_scope.

(** the identity matrix, products, and the columns of a matrix as an orthonormal basis *)
Definition eye : tensor := fun i j => if (i =? j)%nat then 1 else 0.
Definition mmul (d : nat) (A B : tensor) : tensor := fun i j => sum_n (K := Rops) d (fun k => A i k * B k j).
Definition mtrans (A : tensor) : tensor := fun i j => A j i.
Definition orthonormal (d : nat) (Q : tensor) : Prop :=
  (forall i j, (i < d)%nat -> (j < d)%nat -> mmul d (mtrans Q) Q i j = eye i j) /\
  (forall i j, (i < d)%nat -> (j < d)%nat -> mmul d Q (mtrans Q) i j = eye i j).
(** eigenvalues w and eigenvectors (the columns of Q) of the symmetric part of x; jax.numpy's eigh symmetrises its argument *)
Definition decomposes (d : nat) (x : tensor) (w : nat -> R) (Q : tensor) : Prop :=
  orthonormal d Q /\ forall i j, (i < d)%nat -> (j < d)%nat -> sum_n (K := Rops) d (fun b => w b * (Q i b * Q j b)) = strain x i j.
(** eigh returns eigenvalues and eigenvectors, whichever *)
Definition eigh_ok (d : nat) (eigh : tensor -> (nat -> R) * tensor) : Prop := forall x, decomposes d x (fst (eigh x)) (snd (eigh x)).

(** a polynomial by its coefficients, constant first: its value, its derivative, its value at a matrix *)
Fixpoint pval (p : list R) (x : R) : R := match p with [] => 0 | c :: q => c + x * pval q x end.
Fixpoint pder (p : list R) (x : R) : R := match p with [] => 0 | c :: q => pval q x + x * pder q x end.
Fixpoint pmat (d : nat) (p : list R) (X : tensor) : tensor :=
  match p with [] => fun _ _ => 0 | c :: q => fun i j => c * eye i j + mmul d X (pmat d q X) i j end.

(** the matrix t steps along v from x *)
Definition line (x v : tensor) (t : R) : tensor := fun i j => x i j + t * v i j.
(** the matrix in turned axes, T x T^T *)
Definition turned (d : nat) (T x : tensor) : tensor := mmul d T (mmul d x (mtrans T)).
Definition minus (A B : tensor) : tensor := fun i j => A i j - B i j.
(** [grad_fn] is the derivative of [fn] at the eigenvalues found for x; nothing is asked elsewhere, and they may be repeated *)
Definition smooth_at (d : nat) (eigh : tensor -> (nat -> R) * tensor) (fn grad_fn : R -> R) (x : tensor) : Prop :=
  forall b, (b < d)%nat -> derivable_pt_lim fn (fst (eigh x) b) (grad_fn (fst (eigh x) b)).
