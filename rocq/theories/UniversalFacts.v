(** Two problems that differ only in how their kernels are written have the same residual and matrix. *)
From Coq Require Import List Arith Lia Bool FunctionalExtensionality.
From Verif Require Import Num Arr ArrFacts Fe Problem.
Import ListNotations.

Section Same.
  Context {K : ops} {V : Type}.
  Variables (sqrtK : K -> K) (jvp : (list K -> list K) -> list K -> list K -> list K).
  Variables (fs : list (fe K)) (bi : list (list (nat * nat))) (ivs : list (list (nat -> V))) (ivss : list (list (list (nat -> V)))).
  Variables m m' : user_maps K V.
  Let p := mkProblem fs bi m ivs ivss.
  Let p' := mkProblem fs bi m' ivs ivss.
  (** same value of the kernels on every input *)
  Hypothesis CELL : forall ci, kernel_cell p ci = kernel_cell p' ci.
  Hypothesis FACE : forall s, match kernel_face p s, kernel_face p' s with
                              | Ok k, Ok k' => forall fi, k fi = k' fi
                              | Err e, Err e' => e = e'
                              | _, _ => False
                              end.
  Lemma cell_same : kernel_cell p = kernel_cell p'.
  Proof. now apply functional_extensionality. Qed.
  Lemma face_same : kernel_face p = kernel_face p'.
  Proof.
    apply functional_extensionality. intros s. specialize (FACE s). destruct (kernel_face p s) as [k|e], (kernel_face p' s) as [k'|e']; try contradiction.
    - f_equal. now apply functional_extensionality.
    - now subst.
  Qed.
  Lemma same_residual pts sol : compute_residual sqrtK p pts sol = compute_residual sqrtK p' pts sol.
  Proof.
    unfold compute_residual, compute_residual_vars, split_and_compute_cell, compute_face, face_step. rewrite cell_same, face_same. reflexivity.
  Qed.
  Lemma same_newton pts sol : newton_update jvp sqrtK p pts sol = newton_update jvp sqrtK p' pts sol.
  Proof.
    unfold newton_update, compute_newton_vars, split_and_compute_cell_jac, compute_face_jac, face_step, kernel_jac_cell. rewrite cell_same, face_same. reflexivity.
  Qed.
End Same.
