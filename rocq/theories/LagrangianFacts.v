(** Lemmas for C77: moved meshes and small matrices. *)
From Coq Require Import List Arith Lia Bool Ring.
From Verif Require Import Num Arr ArrFacts Fe FeFacts Basis SpecFe.
Import ListNotations.

Section Mat.
  Context {K : ops} (KF : field_laws K).
  Open Scope num_scope.
  Let KR := field_ring K KF.
  Let Kth : ring_theory (@zero K) one add mul sub opp eq := KR.
  Add Ring KringUL : Kth.

  Definition eq3 (A B : mat K) : Prop := forall i j, (i < 3)%nat -> (j < 3)%nat -> A i j = B i j.
  Definition mm (A B : mat K) : mat K := fun i k => sum_n 3 (fun j => A i j * B j k).
  Definition id3 : mat K := fun i j => if (i =? j)%nat then 1 else 0.
  Lemma eq3_sym A B : eq3 A B -> eq3 B A. Proof. intros H i j Hi Hj. symmetry. now apply H. Qed.
  Lemma eq3_trans A B C : eq3 A B -> eq3 B C -> eq3 A C. Proof. intros H1 H2 i j Hi Hj. rewrite H1 by auto. now apply H2. Qed.
  Lemma mm_ext A A' B B' : eq3 A A' -> eq3 B B' -> eq3 (mm A B) (mm A' B').
  Proof. intros HA HB i j Hi Hj. unfold mm. apply sum_n_ext. intros k Hk. now rewrite HA, HB by auto. Qed.
  Lemma mm_assoc A B C : eq3 (mm (mm A B) C) (mm A (mm B C)).
  Proof. intros i j Hi Hj. unfold mm. cbv [sum_n sum_over sumK seq map fold_right]. ring. Qed.
  Lemma mm_id_r A : eq3 (mm A id3) A.
  Proof.
    intros i j Hi Hj. unfold mm, id3. rewrite (sum_n_single KR 3 j); auto; [rewrite Nat.eqb_refl; ring|].
    intros k Hk Hne. apply Nat.eqb_neq in Hne. rewrite Hne. ring.
  Qed.
  Lemma mm_id_l A : eq3 (mm id3 A) A.
  Proof.
    intros i j Hi Hj. unfold mm, id3. rewrite (sum_n_single KR 3 i); auto; [rewrite Nat.eqb_refl; ring|].
    intros k Hk Hne. apply Nat.eqb_neq in Hne. rewrite Nat.eqb_sym, Hne. ring.
  Qed.
  Lemma mm_inv_r M : det 3 M <> 0 -> eq3 (mm M (inv_mat 3 M)) id3.
  Proof. intros D i j Hi Hj. apply (inv_mat_right KF); auto. Qed.
  Lemma mm_inv_l M : det 3 M <> 0 -> eq3 (mm (inv_mat 3 M) M) id3.
  Proof. intros D i j Hi Hj. apply (inv_mat_left KF); auto. Qed.
  Lemma cancel_r A B M : det 3 M <> 0 -> eq3 (mm A M) (mm B M) -> eq3 A B.
  Proof.
    intros D H. apply (eq3_trans _ (mm A (mm M (inv_mat 3 M)))).
    { apply eq3_sym. eapply eq3_trans; [|apply mm_id_r]. apply mm_ext; [intros i j; reflexivity|now apply mm_inv_r]. }
    apply (eq3_trans _ (mm (mm A M) (inv_mat 3 M))); [apply eq3_sym, mm_assoc|].
    apply (eq3_trans _ (mm (mm B M) (inv_mat 3 M))); [apply mm_ext; [exact H|intros i j; reflexivity]|].
    eapply eq3_trans; [apply mm_assoc|]. eapply eq3_trans; [|apply mm_id_r]. apply mm_ext; [intros i j; reflexivity|now apply mm_inv_r].
  Qed.
  Lemma det_mm A B : det 3 (mm A B) = det 3 A * det 3 B.
  Proof. apply (det_mul KR 3 A B). auto. Qed.
  Lemma det_ext3 A B : eq3 A B -> det 3 A = det 3 B. Proof. intros H. apply det_ext. exact H. Qed.
  Lemma inv_ext3 A B : eq3 A B -> eq3 (inv_mat 3 A) (inv_mat 3 B). Proof. intros H i j Hi Hj. apply inv_mat_ext; auto. Qed.
  Lemma nz_mul (a b : K) : a * b <> 0 -> a <> 0 /\ b <> 0.
  Proof. intros H. split; intros E; apply H; rewrite E; ring. Qed.
  Lemma mul_nz (a b : K) : a <> 0 -> b <> 0 -> a * b <> 0.
  Proof.
    intros Ha Hb E. apply Ha. transitivity ((a * b) * inv b); [|rewrite E; ring]. transitivity (a * (b * inv b)); [rewrite (inv_r KF) by auto; ring|ring].
  Qed.
  (** inverse of a product *)
  Lemma inv_mm A M : det 3 A <> 0 -> det 3 M <> 0 -> eq3 (mm (inv_mat 3 M) (inv_mat 3 A)) (inv_mat 3 (mm A M)).
  Proof.
    intros DA DM. assert (D : det 3 (mm A M) <> 0) by (rewrite det_mm; now apply mul_nz).
    apply (cancel_r _ _ (mm A M) D). eapply eq3_trans; [|apply eq3_sym; now apply mm_inv_l].
    eapply eq3_trans; [apply mm_assoc|]. apply (eq3_trans _ (mm (inv_mat 3 M) M)); [|now apply mm_inv_l].
    apply mm_ext; [intros i j; reflexivity|]. eapply eq3_trans; [apply eq3_sym, mm_assoc|]. eapply eq3_trans; [|apply mm_id_l].
    apply mm_ext; [now apply mm_inv_l|intros i j; reflexivity].
  Qed.
  (** a row of reference gradients mapped by the inverse of M, then by that of A *)
  Lemma grad_twice (g : nat -> K) A M m : det 3 A <> 0 -> det 3 M <> 0 -> (m < 3)%nat ->
    sum_n 3 (fun j => sum_n 3 (fun i => g i * inv_mat 3 M i j) * inv_mat 3 A j m) = sum_n 3 (fun i => g i * inv_mat 3 (mm A M) i m).
  Proof.
    intros DA DM Hm. transitivity (sum_n 3 (fun i => g i * mm (inv_mat 3 M) (inv_mat 3 A) i m)).
    - unfold mm. cbv [sum_n sum_over sumK seq map fold_right]. ring.
    - apply sum_n_ext. intros i Hi. f_equal. now apply inv_mm.
  Qed.

  (** ** moving the nodes of a mesh of three-dimensional cells *)
  Variables (f : fe K) (P u : list (list K)).
  Hypothesis D3 : dim f = 3%nat.
  Definition grad_ref (v : list (list K)) (c q : nat) : mat K := fun i j => sum_n (num_nodes f) (fun a => cell_sol_at f v c a i * shape_grads_ref f q a j).
  Lemma sol_grad_ref (v : list (list K)) c q i j : sol_to_grad P f v c q i j = mm (grad_ref v c q) (inv_mat 3 (jacobian_dx_deta P f c q)) i j.
  Proof.
    unfold sol_to_grad, mm, grad_ref, get_shape_grads. rewrite D3.
    rewrite (sum_n_ext (num_nodes f) _ (fun a => sum_n 3 (fun m => cell_sol_at f v c a i * shape_grads_ref f q a m * inv_mat 3 (jacobian_dx_deta P f c q) m j))).
    - rewrite (sum_n_swap' KR). apply sum_n_ext. intros m Hm. apply (sum_n_mul_r' KR).
    - intros a Ha. rewrite <- (sum_n_mul_l KR). apply sum_n_ext. intros; ring.
  Qed.
  (** (I + grad u) J = J + grad_ref u *)
  Lemma deform_jac c q : det 3 (jacobian_dx_deta P f c q) <> 0 ->
    eq3 (mm (fun i j => id3 i j + sol_to_grad P f u c q i j) (jacobian_dx_deta P f c q)) (fun i j => jacobian_dx_deta P f c q i j + grad_ref u c q i j).
  Proof.
    intros D i j Hi Hj. set (J := jacobian_dx_deta P f c q) in *.
    transitivity (mm id3 J i j + mm (mm (grad_ref u c q) (inv_mat 3 J)) J i j).
    - unfold mm at 1 2 3. rewrite <- (FeFacts.sum_n_add KR). apply sum_n_ext. intros k Hk. rewrite sol_grad_ref. fold J. ring.
    - rewrite (mm_id_l J i j Hi Hj). f_equal. rewrite (mm_assoc _ _ _ i j Hi Hj).
      transitivity (mm (grad_ref u c q) id3 i j); [|now apply mm_id_r]. apply mm_ext; auto; [intros ? ? _ _; reflexivity|now apply mm_inv_l].
  Qed.
End Mat.
