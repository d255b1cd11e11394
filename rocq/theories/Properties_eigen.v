(** C84: functions of symmetric matrices and their derivative rule.  Vocabulary: SpecEigen.v, SpecPlasticity.v. *)
From Coq Require Import Reals List Arith Lia Lra Bool.
From Verif Require Import Num Arr Fe Problem SpecAssembly SpecWeak SpecEnergy Elastic Plasticity SpecPlasticity Eigen SpecEigen EigenFacts EigenMain EigenMore.
Import ListNotations.
Local Open Scope R_scope.

(** the tangent given by the rule is the derivative along every direction, repeated eigenvalues included *)
Theorem C84_derivative : forall d eigh fn grad_fn x v i j, eigh_ok d eigh -> smooth_at d eigh fn grad_fn x -> (i < d)%nat -> (j < d)%nat ->
  derivable_pt_lim (fun t => eigen_f eigh d fn (line x v t) i j) 0 (snd (f_jvp eigh d fn grad_fn x v) i j).
Proof. intros d eigh fn g x v i j EO H Hi Hj. exact (derivative d eigh EO fn g x v H i j Hi Hj). Qed.
Print Assumptions C84_derivative.

(** the rule also returns the value, the value does not depend on which eigenvectors are found, and is symmetric *)
Theorem C84_value : forall d eigh fn grad_fn x v i j, eigh_ok d eigh -> (i < d)%nat -> (j < d)%nat ->
  fst (f_jvp eigh d fn grad_fn x v) i j = eigen_f eigh d fn x i j /\
  (forall eigh', eigh_ok d eigh' -> eigen_f eigh' d fn x i j = eigen_f eigh d fn x i j) /\
  eigen_f eigh d fn x i j = eigen_f eigh d fn x j i.
Proof.
  intros d eigh fn g x v i j EO Hi Hj. split; [reflexivity|]. split; [|exact (F_sym d eigh fn x i j Hi Hj)].
  intros eigh' EO'. exact (same_value d x _ _ _ _ fn (EO' x) (EO x) i j Hi Hj).
Qed.
Print Assumptions C84_value.

(** polynomials are computed as polynomials of the symmetric part; sums and products go to sums and matrix products *)
Theorem C84_polynomial : forall d eigh p x, eigh_ok d eigh -> same_on d (eigen_f eigh d (pval p) x) (pmat d p (strain x)).
Proof. intros d eigh p x EO i j Hi Hj. exact (spec_poly d x _ _ p (EO x) i j Hi Hj). Qed.
Print Assumptions C84_polynomial.
Theorem C84_algebra : forall d eigh f g x, eigh_ok d eigh ->
  same_on d (eigen_f eigh d (fun s => s) x) (strain x) /\
  same_on d (eigen_f eigh d (fun s => f s + g s) x) (fun i j => eigen_f eigh d f x i j + eigen_f eigh d g x i j) /\
  same_on d (eigen_f eigh d (fun s => f s * g s) x) (mmul d (eigen_f eigh d f x) (eigen_f eigh d g x)).
Proof.
  intros d eigh f g x EO. split; [exact (id_value d eigh EO x)|]. split; intros i j Hi Hj; [exact (F_plus d eigh f g x i j)|exact (F_mul d eigh EO f g x i j)].
Qed.
Print Assumptions C84_algebra.

(** turned axes turn the result *)
Theorem C84_isotropic : forall d eigh fn T x, eigh_ok d eigh -> orthonormal d T ->
  same_on d (eigen_f eigh d fn (turned d T x)) (turned d T (eigen_f eigh d fn x)).
Proof. intros d eigh fn T x EO HT i j Hi Hj. exact (isotropic d eigh fn T x i j EO HT Hi Hj). Qed.
Print Assumptions C84_isotropic.

(** a function that grows at least k times as fast as its argument does so for matrices, and one with slopes at most k is as Lipschitz *)
Theorem C84_growth : forall d eigh f k x y, eigh_ok d eigh -> (forall s t, k * ((s - t) * (s - t)) <= (f s - f t) * (s - t)) ->
  k * ddot d (minus (strain x) (strain y)) (minus (strain x) (strain y)) <=
  ddot d (minus (eigen_f eigh d f x) (eigen_f eigh d f y)) (minus (strain x) (strain y)).
Proof. intros d eigh f k x y EO H. exact (growth d eigh EO f k x y H). Qed.
Print Assumptions C84_growth.
Theorem C84_lipschitz : forall d eigh f k x y, eigh_ok d eigh -> (forall s t, Rabs (f s - f t) <= k * Rabs (s - t)) ->
  ddot d (minus (eigen_f eigh d f x) (eigen_f eigh d f y)) (minus (eigen_f eigh d f x) (eigen_f eigh d f y)) <=
  k * k * ddot d (minus (strain x) (strain y)) (minus (strain x) (strain y)).
Proof. intros d eigh f k x y EO H. exact (lipschitz d eigh EO f k x y H). Qed.
Print Assumptions C84_lipschitz.

(** the tangent is symmetric, as a matrix and as a form, and as steep as the function *)
Theorem C84_tangent : forall d eigh fn grad_fn x v u, eigh_ok d eigh ->
  symmetric d (snd (f_jvp eigh d fn grad_fn x v)) /\
  ddot d (snd (f_jvp eigh d fn grad_fn x v)) u = ddot d (snd (f_jvp eigh d fn grad_fn x u)) v /\
  (forall k, (forall b, (b < d)%nat -> k <= grad_fn (fst (eigh x) b)) -> (forall s t, k * ((s - t) * (s - t)) <= (fn s - fn t) * (s - t)) ->
     k * ddot d (strain v) (strain v) <= ddot d (snd (f_jvp eigh d fn grad_fn x v)) v).
Proof.
  intros d eigh fn g x v u EO. split; [exact (jvp_sym d eigh fn g x v)|]. split; [exact (jvp_major d eigh fn g x v u)|].
  intros k Hg Hf. exact (jvp_growth d eigh EO fn g x v k Hg Hf).
Qed.
Print Assumptions C84_tangent.

(** a sum of a function over the eigenvalues has the derivative function of the matrix as its gradient *)
Theorem C84_potential : forall d eigh psi dpsi x v, eigh_ok d eigh -> smooth_at d eigh psi dpsi x ->
  derivable_pt_lim (fun t => sum_n (K := Rops) d (fun b => psi (fst (eigh (line x v t)) b))) 0 (ddot d (eigen_f eigh d dpsi x) v).
Proof. intros d eigh f g x v EO H. exact (potential d eigh EO f g x v H). Qed.
Print Assumptions C84_potential.

(** there is such an eigh for two by two matrices, and a smooth function, also where the eigenvalues are repeated *)
Example C84_nonvacuous : eigh_ok 2 eigh2 /\ (forall x, smooth_at 2 eigh2 exp exp x) /\ fst (eigh2 eye) 0%nat = fst (eigh2 eye) 1%nat /\
  orthonormal 2 (fun i j => if (i =? j)%nat then 0 else if (i =? 0)%nat then -1 else 1).
Proof.
  split; [exact eigh2_ok|]. split; [intros x b _; apply derivable_pt_lim_exp|]. split.
  - unfold eigh2. destruct (Req_EM_T (strain eye 0%nat 1%nat) 0) as [E|E]; [reflexivity|]. exfalso. apply E. unfold strain, eye. cbn. lra.
  - split; intros i j Hi Hj; (assert (i = 0 \/ i = 1)%nat as [-> | ->] by lia); (assert (j = 0 \/ j = 1)%nat as [-> | ->] by lia); unfold mmul, mtrans, eye; cbn; lra.
Qed.
