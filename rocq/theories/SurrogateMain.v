(** Lemmas for C109: derivatives of the network, the stress, the loss, the samples. *)
From Coq Require Import Reals String List Arith Lia Lra Bool Permutation.
From Verif Require Import Num Arr ElasticFacts VolumeMain Surrogate SpecSurrogate.
Import ListNotations.
Local Open Scope R_scope.
Local Notation sum := (sum_n (K := Rops)).

(** the activation is differentiable everywhere, also at zero *)
Lemma d_ext f g x l (e : R) : 0 < e -> (forall y, Rabs (y - x) < e -> f y = g y) -> derivable_pt_lim f x l -> derivable_pt_lim g x l.
Proof.
  intros He E D eps Heps. destruct (D eps Heps) as (del & Hd). assert (HM : 0 < Rmin del e) by (apply Rmin_pos; [apply cond_pos|exact He]). exists (mkposreal _ HM). cbn. intros h Hh Hlt.
  rewrite <- !E; [apply Hd; [exact Hh|]|replace (x - x) with 0 by ring; rewrite Rabs_R0; exact He|replace (x + h - x) with h by ring]; eapply Rlt_le_trans; eauto using Rmin_l, Rmin_r.
Qed.
Lemma d_elu x : derivable_pt_lim elu x (elu_grad x).
Proof.
  unfold elu_grad. destruct (Rlt_dec 0 x) as [P|P].
  - apply (d_ext (fun y => y) elu x 1 x P); [|apply derivable_pt_lim_id]. intros y Hy. unfold elu. destruct (Rlt_dec 0 y); [reflexivity|]. apply Rabs_def2 in Hy. lra.
  - destruct (Rlt_dec x 0) as [N|N].
    + apply (d_ext (fun y => exp y - 1) elu x _ (- x)); [lra| |].
      * intros y Hy. unfold elu. destruct (Rlt_dec 0 y); [|reflexivity]. apply Rabs_def2 in Hy. lra.
      * replace (exp x) with (exp x - 0) by ring. apply (derivable_pt_lim_minus exp (fun _ => 1)); [apply derivable_pt_lim_exp|apply derivable_pt_lim_const].
    + assert (x = 0) as -> by lra. rewrite exp_0. intros eps Heps. pose proof (derivable_pt_lim_exp 0) as DE. rewrite exp_0 in DE. destruct (DE eps Heps) as (del & Hd). exists del. intros h Hh Hlt.
      unfold elu at 2. destruct (Rlt_dec 0 0); [lra|]. rewrite exp_0. unfold elu. rewrite Rplus_0_l. destruct (Rlt_dec 0 h) as [H|H].
      * replace ((h - (1 - 1)) / h - 1) with 0 by (field; lra). now rewrite Rabs_R0.
      * specialize (Hd h Hh Hlt). rewrite Rplus_0_l, exp_0 in Hd. now replace (exp h - 1 - (1 - 1)) with (exp h - 1) by ring.
Qed.
Lemma d_eq f x l l' : l = l' -> derivable_pt_lim f x l -> derivable_pt_lim f x l'. Proof. now intros ->. Qed.

Section Curve.
  Variables (x : R -> nat -> R) (dx : nat -> R) (t : R).
  Lemma d_dense n d j : (forall i, (i < n)%nat -> derivable_pt_lim (fun s => x s i) t (dx i)) -> derivable_pt_lim (fun s => dense_apply n d (x s) j) t (sum n (fun i => dx i * kernel d i j)).
  Proof.
    intros D. unfold dense_apply. apply (d_eq _ _ (sum n (fun i => dx i * kernel d i j) + 0)); [ring|].
    apply (derivable_pt_lim_plus (fun s => sum n (fun i => x s i * kernel d i j)) (fun _ => bias d j)); [|apply derivable_pt_lim_const].
    apply (dsum n (fun i s => x s i * kernel d i j) t (fun i => dx i * kernel d i j)). intros i Hi. apply (d_eq _ _ (dx i * kernel d i j + x t i * 0)); [ring|].
    apply (derivable_pt_lim_mult (fun s => x s i) (fun _ => kernel d i j)); [now apply D|apply derivable_pt_lim_const].
  Qed.
  Lemma d_act (g : R -> R) l : derivable_pt_lim g t l -> derivable_pt_lim (fun s => elu (g s)) t (elu_grad (g t) * l).
  Proof. intros D. exact (derivable_pt_lim_comp g elu t _ _ D (d_elu (g t))). Qed.
  Lemma d_ext_all f g l : (forall y, f y = g y) -> derivable_pt_lim f t l -> derivable_pt_lim g t l.
  Proof. intros E. apply (d_ext f g t l 1); [lra|auto]. Qed.
End Curve.
(** the transposed sums of the reverse mode *)
Lemma transpose n m (w : nat -> nat -> R) (a b : nat -> R) : sum m (fun k => sum n (fun i => a i * w i k) * b k) = sum n (fun i => a i * sum m (fun k => w i k * b k)).
Proof.
  transitivity (sum m (fun k => sum n (fun i => a i * (w i k * b k)))).
  - apply Rsum_ext. intros k Hk. rewrite Rmult_comm, <- Rsum_mul. apply Rsum_ext. intros i Hi. ring.
  - rewrite Rsum_swap. apply Rsum_ext. intros i Hi. now rewrite <- Rsum_mul.
Qed.
Lemma network_curve p (x : R -> nat -> R) dx t : (forall i, (i < 3)%nat -> derivable_pt_lim (fun s => x s i) t (dx i)) ->
  derivable_pt_lim (fun s => network p (x s)) t (sum 3 (fun i => dx i * compute_input_gradient p (x t) i)).
Proof.
  intros D. set (a0 := fun k => elu_grad (pre0 p (x t) k) * sum 3 (fun i => dx i * kernel (dense0 p) i k)).
  assert (D0 : forall k, derivable_pt_lim (fun s => elu (pre0 p (x s) k)) t (a0 k)) by (intros k; apply (d_act t (fun s => pre0 p (x s) k)); unfold pre0; now apply d_dense).
  set (a1 := fun k => elu_grad (pre1 p (x t) k) * sum width (fun i => a0 i * kernel (dense1 p) i k)).
  assert (D1 : forall k, derivable_pt_lim (fun s => elu (pre1 p (x s) k)) t (a1 k)) by (intros k; apply (d_act t (fun s => pre1 p (x s) k)); unfold pre1; apply (d_dense (fun s i => elu (pre0 p (x s) i))); auto).
  set (a2 := fun k => elu_grad (pre2 p (x t) k) * sum width (fun i => a1 i * kernel (dense2 p) i k)).
  assert (D2 : forall k, derivable_pt_lim (fun s => elu (pre2 p (x s) k)) t (a2 k)) by (intros k; apply (d_act t (fun s => pre2 p (x s) k)); unfold pre2; apply (d_dense (fun s i => elu (pre1 p (x s) i))); auto).
  unfold network. apply (d_eq _ _ (sum width (fun i => a2 i * kernel (dense3 p) i 0%nat))); [|apply (d_dense (fun s i => elu (pre2 p (x s) i))); auto].
  unfold compute_input_gradient. rewrite <- (transpose 3 width (kernel (dense0 p)) dx (fun k => elu_grad (pre0 p (x t) k) * back1 p (x t) k)).
  transitivity (sum width (fun k => a0 k * back1 p (x t) k)); [|apply Rsum_ext; intros k _; unfold a0; ring].
  unfold back1. rewrite <- (transpose width width (kernel (dense1 p)) a0 (fun k => elu_grad (pre1 p (x t) k) * back2 p (x t) k)).
  transitivity (sum width (fun k => a1 k * back2 p (x t) k)); [|apply Rsum_ext; intros k _; unfold a1; ring].
  unfold back2. rewrite <- (transpose width width (kernel (dense2 p)) a1 (fun k => elu_grad (pre2 p (x t) k) * back3 p k)).
  apply Rsum_ext. intros k _. unfold a2, back3. ring.
Qed.
Lemma sum3 (f : nat -> R) : sum 3 f = f 0%nat + f 1%nat + f 2%nat. Proof. unfold sum_n, sum_over. cbn. req. ring. Qed.
Lemma sum2 (f : nat -> R) : sum 2 f = f 0%nat + f 1%nat. Proof. unfold sum_n, sum_over. cbn. req. ring. Qed.
Lemma put_curve (x : nat -> R) i t k : derivable_pt_lim (fun s => put x i s k) t (if (k =? i)%nat then 1 else 0).
Proof. unfold put. destruct (k =? i)%nat; [apply derivable_pt_lim_id|apply derivable_pt_lim_const]. Qed.
Lemma put_same x i k : put x i (x i) k = x k. Proof. unfold put. destruct (Nat.eqb_spec k i) as [->|]; reflexivity. Qed.
Lemma dense_ext n d x y j : (forall i, (i < n)%nat -> x i = y i) -> dense_apply n d x j = dense_apply n d y j.
Proof. intros E. unfold dense_apply. f_equal. apply Rsum_ext. intros i Hi. now rewrite E. Qed.
Lemma pre0_ext p x y j : (forall i, (i < 3)%nat -> x i = y i) -> pre0 p x j = pre0 p y j. Proof. intros E. now apply dense_ext. Qed.
Lemma pre1_ext p x y j : (forall i, (i < 3)%nat -> x i = y i) -> pre1 p x j = pre1 p y j. Proof. intros E. apply dense_ext. intros i _. f_equal. now apply pre0_ext. Qed.
Lemma pre2_ext p x y j : (forall i, (i < 3)%nat -> x i = y i) -> pre2 p x j = pre2 p y j. Proof. intros E. apply dense_ext. intros i _. f_equal. now apply pre1_ext. Qed.
Lemma network_ext p x y : (forall i, (i < 3)%nat -> x i = y i) -> network p x = network p y. Proof. intros E. apply dense_ext. intros i _. f_equal. now apply pre2_ext. Qed.
Lemma gradient_ext p x y i : (forall i, (i < 3)%nat -> x i = y i) -> compute_input_gradient p x i = compute_input_gradient p y i.
Proof.
  intros E. unfold compute_input_gradient. apply Rsum_ext. intros k _. rewrite (pre0_ext p x y k E). f_equal. f_equal. unfold back1. apply Rsum_ext. intros l _. rewrite (pre1_ext p x y l E). f_equal. f_equal.
  unfold back2. apply Rsum_ext. intros m _. now rewrite (pre2_ext p x y m E).
Qed.
Lemma network_partial p x i : (i < 3)%nat -> derivable_pt_lim (fun t => network p (put x i t)) (x i) (compute_input_gradient p x i).
Proof.
  intros Hi. apply (d_eq _ _ (sum 3 (fun k => (if (k =? i)%nat then 1 else 0) * compute_input_gradient p (put x i (x i)) k))); [|apply (network_curve p (put x i)); intros k _; apply put_curve].
  transitivity (sum 3 (fun k => (if (i =? k)%nat then 1 else 0) * compute_input_gradient p (put x i (x i)) k)); [apply Rsum_ext; intros k _; now rewrite Nat.eqb_sym|]. rewrite Rsum_delta by auto. apply gradient_ext. intros k _. apply put_same.
Qed.
Lemma batch_partial p b x r i : (r < b)%nat -> (i < 3)%nat -> derivable_pt_lim (fun t => batch_forward p b (put2 x r i t)) (x r i) (batch_gradient p x r i).
Proof.
  intros Hr Hi. unfold batch_forward. apply (d_eq _ _ (sum b (fun s => (if (r =? s)%nat then 1 else 0) * batch_gradient p x s i))); [now rewrite (Rsum_delta b r (fun s => batch_gradient p x s i))|].
  apply (dsum b (fun s t => network p (put2 x r i t s)) (x r i) (fun s => (if (r =? s)%nat then 1 else 0) * batch_gradient p x s i)). intros s _. unfold put2. rewrite (Nat.eqb_sym s r). destruct (Nat.eqb_spec r s) as [<-|].
  - rewrite Rmult_1_l. now apply network_partial.
  - rewrite Rmult_0_l. apply derivable_pt_lim_const.
Qed.

(** the stress *)
Lemma two_cases (P : nat -> nat -> Prop) : P 0%nat 0%nat -> P 0%nat 1%nat -> P 1%nat 0%nat -> P 1%nat 1%nat -> forall i j, (i < 2)%nat -> (j < 2)%nat -> P i j.
Proof. intros A B C D [|[|i]] [|[|j]] Hi Hj; try lia; assumption. Qed.
Lemma P_ext p p0 E E' : same2 E E' -> forall i j, P_fn p p0 E i j = P_fn p p0 E' i j.
Proof.
  intros S i j. assert (G : forall k, compute_input_gradient p (voigt E) k = compute_input_gradient p (voigt E') k). { intros k. apply gradient_ext. intros [|[|[|m]]] Hm; try lia; cbn; apply S; lia. }
  unfold P_fn. destruct i as [|[|i]], j as [|[|j]]; now rewrite G.
Qed.
Lemma stress_of p p0 (G H : tensor) : same2 (green (def_grad G)) (green (def_grad H)) -> forall i j, first_PK_stress p p0 G i j = sum 2 (fun k => def_grad G i k * P_fn p p0 (green (def_grad H)) k j).
Proof. intros S i j. unfold first_PK_stress. apply Rsum_ext. intros k _. now rewrite (P_ext p p0 _ _ S k j). Qed.
Lemma objective p p0 Q G H : orthogonal2 Q -> same2 (def_grad H) (times2 Q (def_grad G)) -> same2 (first_PK_stress p p0 H) (times2 Q (first_PK_stress p p0 G)).
Proof.
  intros O S. assert (T : same2 (green (def_grad H)) (green (def_grad G))).
  { pose proof (O 0%nat 0%nat ltac:(lia) ltac:(lia)) as O1. pose proof (O 0%nat 1%nat ltac:(lia) ltac:(lia)) as O2. pose proof (O 1%nat 1%nat ltac:(lia) ltac:(lia)) as O3. unfold times2, transp, one2, mat2 in O1, O2, O3.
    pose proof (S 0%nat) as S0. pose proof (S 1%nat) as S1. unfold same2, green. intros i j Hi Hj. rewrite !sum2. apply f_equal. refine (f_equal (fun z : R => z - delta i j) _). rewrite (S0 i), (S0 j), (S1 i), (S1 j) by lia. unfold times2. set (F := def_grad G).
    transitivity (F 0%nat i * F 0%nat j * (Q 0%nat 0%nat * Q 0%nat 0%nat + Q 1%nat 0%nat * Q 1%nat 0%nat) + (F 0%nat i * F 1%nat j + F 1%nat i * F 0%nat j) * (Q 0%nat 0%nat * Q 0%nat 1%nat + Q 1%nat 0%nat * Q 1%nat 1%nat) + F 1%nat i * F 1%nat j * (Q 0%nat 1%nat * Q 0%nat 1%nat + Q 1%nat 1%nat * Q 1%nat 1%nat)); [ring|].
    rewrite O1, O2, O3. ring. }
  intros i j Hi Hj. rewrite (stress_of p p0 H G T). unfold times2, first_PK_stress. rewrite !sum2. rewrite (S i 0%nat), (S i 1%nat) by lia. unfold times2. ring.
Qed.
Lemma rest p G : orthogonal2 (def_grad G) -> forall i j, (i < 2)%nat -> (j < 2)%nat -> surrogate_stress p G i j = 0.
Proof.
  intros O i j Hi Hj. assert (T : same2 (green (def_grad G)) (green (def_grad (fun _ _ => 0)))).
  { intros a b Ha Hb. unfold green. rewrite !sum2. apply f_equal. refine (f_equal (fun z : R => z - delta a b) _). specialize (O a b Ha Hb). unfold times2, transp in O. rewrite O. clear O. unfold def_grad, delta, one2, mat2. destruct a as [|[|a]], b as [|[|b]]; try lia; cbn [Nat.eqb]; ring. }
  unfold surrogate_stress. rewrite (stress_of p _ G (fun _ _ => 0) T). assert (Z : forall k l, (k < 2)%nat -> (l < 2)%nat -> P_fn p (initial_stress p) (green (def_grad (fun _ _ => 0))) k l = 0).
  { assert (E : forall m, compute_input_gradient p (voigt (green (def_grad (fun _ _ => 0)))) m = initial_stress p m). { intros m. unfold initial_stress. apply gradient_ext. intros [|[|[|l]]] Hl; try lia; cbn [voigt]; unfold green, def_grad, delta; rewrite sum2; cbn [Nat.eqb]; ring. }
    intros [|[|k]] [|[|l]] Hk Hl; try lia; unfold P_fn; rewrite E; ring. }
  rewrite sum2, (Z 0%nat j), (Z 1%nat j) by lia. ring.
Qed.
Lemma moment p p0 G : same2 (times2 (first_PK_stress p p0 G) (transp (def_grad G))) (transp (times2 (first_PK_stress p p0 G) (transp (def_grad G)))).
Proof.
  assert (S : P_fn p p0 (green (def_grad G)) 1%nat 0%nat = P_fn p p0 (green (def_grad G)) 0%nat 1%nat) by reflexivity.
  intros i j Hi Hj. unfold times2, transp, first_PK_stress. rewrite !sum2, S. ring.
Qed.
