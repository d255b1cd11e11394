(** Functions of symmetric matrices, for C84. *)
From Coq Require Import Reals List Arith Lia Lra Bool.
From Verif Require Import Num Arr Fe Problem ProblemFacts SpecAssembly SpecWeak SpecEnergy EnergyFacts Elastic ElasticFacts LinAlg Plasticity SpecPlasticity PlasticityFacts Eigen SpecEigen.
Import ListNotations.
Local Open Scope R_scope.
Local Notation sum n g := (sum_n (K := Rops) n g).
Local Ltac rr := cbv beta; req; try change (car Rops) with R; ring.

Lemma Rsum_mulr n c (a : nat -> R) : sum n (fun i => a i * c) = sum n a * c.
Proof. rewrite (Rmult_comm (sum n a)). rewrite <- Rsum_mul. apply Rsum_ext. intros. apply Rmult_comm. Qed.
Lemma Rsum_delta2 n i (a : nat -> R) : (i < n)%nat -> sum n (fun j => a j * (if (j =? i)%nat then 1 else 0)) = a i.
Proof. intros H. rewrite <- (Rsum_delta n i a H). apply Rsum_ext. intros j Hj. rewrite (Nat.eqb_sym j i). apply Rmult_comm. Qed.
Lemma Rsum_minus n (a b : nat -> R) : sum n (fun i => a i - b i) = sum n a - sum n b.
Proof. transitivity (sum n (fun i => a i + (-1) * b i)); [apply Rsum_ext; intros; rr|]. rewrite Rsum_plus, Rsum_mul. rr. Qed.
Lemma Rsum_abs n (a : nat -> R) : Rabs (sum n a) <= sum n (fun i => Rabs (a i)).
Proof.
  induction n as [|n IH]; [cbn; rewrite Rabs_R0; lra|]. rewrite !(sum_n_S Rops_ring). change (@add Rops) with Rplus. pose proof (Rabs_triang (sum n a) (a n)). lra.
Qed.
Lemma Rsum_const n c : sum n (fun _ => c) = INR n * c.
Proof. induction n as [|n IH]; [cbn; rr|]. rewrite (sum_n_S Rops_ring), S_INR. change (@add Rops) with Rplus. rewrite IH. rr. Qed.
Lemma Rsum_le n (a b : nat -> R) : (forall k, (k < n)%nat -> a k <= b k) -> sum n a <= sum n b.
Proof. induction n as [|n IH]; intros H; [apply Rle_refl|]. rewrite !(sum_n_S Rops_ring). apply Rplus_le_compat; [apply IH; auto|apply H; auto]. Qed.
Lemma Rsum_zero n (a : nat -> R) : (forall i, (i < n)%nat -> a i = 0) -> sum n a = 0.
Proof. intros H. apply (sum_n_zero_ext Rops_ring). exact H. Qed.

Section Dec.
  Variables (d : nat) (x : tensor) (w : nat -> R) (Q : tensor).
  Hypothesis DEC : decomposes d x w Q.
  Definition proj (b i j : nat) : R := Q i b * Q j b.
  Definition spec (f : nat -> R) : tensor := fun i j => sum d (fun b => proj b i j * f b).
  (** sum over pairs of eigenvectors, the tangent of a function of the eigenvalues *)
  Definition pairs (th : nat -> nat -> R) (V : tensor) : tensor := fun i j =>
    sum d (fun a => sum d (fun b => th a b * sum d (fun k => sum d (fun l => proj a i k * V k l * proj b l j)))).

  Lemma q_cols a b : (a < d)%nat -> (b < d)%nat -> sum d (fun k => Q k a * Q k b) = eye a b.
  Proof. intros Ha Hb. exact (proj1 (proj1 DEC) a b Ha Hb). Qed.
  Lemma q_rows i j : (i < d)%nat -> (j < d)%nat -> sum d (fun b => Q i b * Q j b) = eye i j.
  Proof. intros Hi Hj. exact (proj2 (proj1 DEC) i j Hi Hj). Qed.
  Lemma spec_w i j : (i < d)%nat -> (j < d)%nat -> spec w i j = strain x i j.
  Proof. intros Hi Hj. rewrite <- (proj2 DEC i j Hi Hj). apply Rsum_ext. intros b Hb. unfold proj. apply Rmult_comm. Qed.
  Lemma spec_const c i j : (i < d)%nat -> (j < d)%nat -> spec (fun _ => c) i j = c * eye i j.
  Proof. intros Hi Hj. unfold spec. rewrite Rsum_mulr, Rmult_comm. f_equal. now apply q_rows. Qed.
  Lemma proj_sym b i j : proj b i j = proj b j i.
  Proof. unfold proj. rr. Qed.
  Lemma spec_sym f i j : spec f i j = spec f j i.
  Proof. apply Rsum_ext. intros b Hb. now rewrite proj_sym. Qed.
  Lemma spec_ext f g i j : (forall b, (b < d)%nat -> f b = g b) -> spec f i j = spec g i j.
  Proof. intros H. apply Rsum_ext. intros b Hb. now rewrite H. Qed.
  Lemma spec_plus f g i j : spec (fun b => f b + g b) i j = spec f i j + spec g i j.
  Proof. unfold spec. rewrite <- Rsum_plus. apply Rsum_ext. intros b Hb. rr. Qed.
  Lemma spec_scale c f i j : spec (fun b => c * f b) i j = c * spec f i j.
  Proof. unfold spec. rewrite <- Rsum_mul. apply Rsum_ext. intros b Hb. rr. Qed.
  (** projections multiply to themselves or to nothing *)
  Lemma proj_mul a b i j : (a < d)%nat -> (b < d)%nat -> sum d (fun k => proj a i k * proj b k j) = eye a b * (Q i a * Q j b).
  Proof.
    intros Ha Hb. unfold proj. rewrite <- (q_cols a b Ha Hb). rewrite <- Rsum_mulr. apply Rsum_ext. intros k Hk. rr.
  Qed.
  Lemma spec_proj f b k j : (b < d)%nat -> sum d (fun m => spec f k m * proj b m j) = f b * proj b k j.
  Proof.
    intros Hb. unfold spec. transitivity (sum d (fun m => sum d (fun a => f a * (proj a k m * proj b m j)))).
    { apply Rsum_ext. intros m Hm. rewrite <- Rsum_mulr. apply Rsum_ext. intros a Ha. rr. }
    rewrite Rsum_swap. transitivity (sum d (fun a => (f a * (Q k a * Q j b)) * (if (a =? b)%nat then 1 else 0))).
    { apply Rsum_ext. intros a Ha. rewrite Rsum_mul, (proj_mul a b k j Ha Hb). unfold eye. rr. }
    rewrite (Rsum_delta2 d b (fun a => f a * (Q k a * Q j b)) Hb). reflexivity.
  Qed.
  Lemma spec_mul f g i j : mmul d (spec f) (spec g) i j = spec (fun b => f b * g b) i j.
  Proof.
    unfold mmul. transitivity (sum d (fun k => sum d (fun b => (spec f i k * proj b k j) * g b))).
    { apply Rsum_ext. intros k Hk. unfold spec at 2. rewrite <- Rsum_mul. apply Rsum_ext. intros b Hb. rr. }
    rewrite Rsum_swap. apply Rsum_ext. intros b Hb. rewrite Rsum_mulr, (spec_proj f b i j Hb). rr.
  Qed.
  Lemma pairs_ext th th' V V' i j : (forall a b, (a < d)%nat -> (b < d)%nat -> th a b = th' a b) -> (forall k l, (k < d)%nat -> (l < d)%nat -> V k l = V' k l) -> pairs th V i j = pairs th' V' i j.
  Proof.
    intros H H2. apply Rsum_ext. intros a Ha. apply Rsum_ext. intros b Hb. rewrite (H a b Ha Hb). f_equal. apply Rsum_ext. intros k Hk. apply Rsum_ext. intros l Hl. now rewrite H2.
  Qed.
  Lemma pairs_plus th th' V i j : pairs (fun a b => th a b + th' a b) V i j = pairs th V i j + pairs th' V i j.
  Proof.
    unfold pairs. rewrite <- Rsum_plus. apply Rsum_ext. intros a Ha. rewrite <- Rsum_plus. apply Rsum_ext. intros b Hb. rr.
  Qed.
  (** multiplying by a function of the matrix from the left *)
  Lemma pairs_mul f th V i j : mmul d (spec f) (pairs th V) i j = pairs (fun a b => f a * th a b) V i j.
  Proof.
    unfold mmul, pairs.
    transitivity (sum d (fun m => sum d (fun a => sum d (fun b => th a b * sum d (fun k => sum d (fun l => (spec f i m * proj a m k) * (V k l * proj b l j))))))).
    { apply Rsum_ext. intros m Hm. rewrite <- Rsum_mul. apply Rsum_ext. intros a Ha. rewrite <- Rsum_mul. apply Rsum_ext. intros b Hb.
      rewrite <- Rmult_assoc, (Rmult_comm (spec f i m)), Rmult_assoc. f_equal. rewrite <- Rsum_mul. apply Rsum_ext. intros k Hk. rewrite <- Rsum_mul. apply Rsum_ext. intros l Hl. rr. }
    rewrite Rsum_swap. apply Rsum_ext. intros a Ha. rewrite Rsum_swap. apply Rsum_ext. intros b Hb. rewrite Rsum_mul.
    rewrite (Rmult_comm (f a)), Rmult_assoc. f_equal. rewrite Rsum_swap. rewrite <- Rsum_mul. apply Rsum_ext. intros k Hk. rewrite Rsum_swap. rewrite <- Rsum_mul. apply Rsum_ext. intros l Hl.
    rewrite Rsum_mulr, (spec_proj f a i k Ha). rr.
  Qed.
  Lemma pairs_right g V i j : (i < d)%nat -> pairs (fun _ b => g b) V i j = mmul d V (spec g) i j.
  Proof.
    intros Hi. unfold pairs, mmul. rewrite Rsum_swap.
    transitivity (sum d (fun b => g b * sum d (fun l => V i l * proj b l j))).
    { apply Rsum_ext. intros b Hb. rewrite Rsum_mul. f_equal. rewrite Rsum_swap.
      transitivity (sum d (fun k => (if (i =? k)%nat then 1 else 0) * sum d (fun l => V k l * proj b l j))).
      - apply Rsum_ext. intros k Hk. transitivity (sum d (fun a => proj a i k * sum d (fun l => V k l * proj b l j))).
        + apply Rsum_ext. intros a Ha. rewrite <- Rsum_mul. apply Rsum_ext. intros l Hl. rr.
        + rewrite Rsum_mulr. f_equal. exact (q_rows i k Hi Hk).
      - exact (Rsum_delta d i (fun k => sum d (fun l => V k l * proj b l j)) Hi). }
    unfold spec. transitivity (sum d (fun b => sum d (fun l => V i l * (proj b l j * g b)))).
    { apply Rsum_ext. intros b Hb. rewrite <- Rsum_mul. apply Rsum_ext. intros l Hl. rr. }
    rewrite Rsum_swap. apply Rsum_ext. intros l Hl. now rewrite Rsum_mul.
  Qed.
End Dec.

Lemma mmul_ext d A A' B B' i j : (forall k, (k < d)%nat -> A i k = A' i k) -> (forall k, (k < d)%nat -> B k j = B' k j) -> mmul d A B i j = mmul d A' B' i j.
Proof. intros H1 H2. apply Rsum_ext. intros k Hk. now rewrite H1, H2. Qed.

(** ** Polynomials *)
Lemma spec_poly d x w Q p : decomposes d x w Q -> forall i j, (i < d)%nat -> (j < d)%nat -> spec d Q (fun b => pval p (w b)) i j = pmat d p (strain x) i j.
Proof.
  intros DEC. induction p as [|c p IH]; intros i j Hi Hj; cbn [pval pmat].
  - unfold spec. apply Rsum_zero. intros b Hb. rr.
  - rewrite (spec_plus d Q (fun _ => c) (fun b => w b * pval p (w b))), (spec_const d x w Q DEC c i j Hi Hj). f_equal.
    rewrite <- (spec_mul d x w Q DEC w (fun b => pval p (w b))). apply mmul_ext; intros k Hk; [exact (spec_w d x w Q DEC i k Hi Hk)|exact (IH k j Hk Hj)].
Qed.
(** divided differences *)
Definition theta (w fv gv : nat -> R) (a b : nat) : R := if Req_EM_T (w a - w b) 0 then gv a else (fv a - fv b) / (w a - w b).
Lemma theta_horner w c p a b :
  theta w (fun a => pval (c :: p) (w a)) (fun a => pder (c :: p) (w a)) a b = w a * theta w (fun a => pval p (w a)) (fun a => pder p (w a)) a b + pval p (w b).
Proof.
  unfold theta. cbn [pval pder]. destruct (Req_EM_T (w a - w b) 0) as [E|E].
  - assert (X : w a = w b) by lra. rewrite X. rr.
  - req; field. exact E.
Qed.
Lemma strain_of_line X V t i j : strain (line X V t) i j = line (strain X) (strain V) t i j.
Proof. unfold strain, line. rr. Qed.
Lemma dlim_sum n (g : nat -> R -> R) (l : nat -> R) : (forall k, (k < n)%nat -> derivable_pt_lim (g k) 0 (l k)) -> derivable_pt_lim (fun t => sum n (fun k => g k t)) 0 (sum n l).
Proof.
  induction n as [|n IH]; intros H; [apply derivable_pt_lim_const|].
  rewrite (sum_n_S Rops_ring). change (@add Rops) with Rplus.
  apply (DerivFacts.dlim_ext (fun t => sum n (fun k => g k t) + g n t)); [intros t; now rewrite (sum_n_S Rops_ring)|].
  apply (derivable_pt_lim_plus (fun t => sum n (fun k => g k t)) (g n)); [apply IH; auto|auto].
Qed.
Lemma poly_derivative d x w Q p V : decomposes d x w Q -> forall i j, (i < d)%nat -> (j < d)%nat ->
  derivable_pt_lim (fun t => pmat d p (line (strain x) V t) i j) 0 (pairs d Q (theta w (fun a => pval p (w a)) (fun a => pder p (w a))) V i j).
Proof.
  intros DEC. induction p as [|c p IH]; intros i j Hi Hj.
  - assert (Z : pairs d Q (theta w (fun a => pval [] (w a)) (fun a => pder [] (w a))) V i j = 0).
    { unfold pairs. apply Rsum_zero. intros a Ha. apply Rsum_zero. intros b Hb. unfold theta. cbn [pval pder]. destruct (Req_EM_T (w a - w b) 0); [rr|]. unfold Rdiv. rr. }
    rewrite Z. cbn [pmat]. apply derivable_pt_lim_const.
  - rewrite (pairs_ext d Q _ (fun a b => w a * theta w (fun a => pval p (w a)) (fun a => pder p (w a)) a b + pval p (w b)) V V i j); [|intros; apply theta_horner|auto].
    rewrite pairs_plus. rewrite <- (pairs_mul d x w Q DEC w), (pairs_right d x w Q DEC (fun b => pval p (w b)) V i j Hi).
    cbn [pmat]. apply (DerivFacts.dlim_ext (fun t => c * eye i j + sum d (fun k => line (strain x) V t i k * pmat d p (line (strain x) V t) k j))); [reflexivity|].
    rewrite <- (Rplus_0_l (_ + _)). apply (derivable_pt_lim_plus (fun _ => c * eye i j)); [apply derivable_pt_lim_const|].
    unfold mmul. rewrite <- Rsum_plus. apply dlim_sum. intros k Hk.
    assert (D1 : derivable_pt_lim (fun t => line (strain x) V t i k) 0 (V i k)).
    { apply (DerivFacts.dlim_ext (fun t => strain x i k + (V i k * t + 0 * (t * t)))); [intros t; unfold line; rr|apply dlim_quad]. }
    pose proof (derivable_pt_lim_mult _ _ 0 _ _ D1 (IH k j Hk Hj)) as M.
    replace (spec d Q w i k * _ + _) with (V i k * pmat d p (line (strain x) V 0) k j + line (strain x) V 0 i k * pairs d Q (theta w (fun a => pval p (w a)) (fun a => pder p (w a))) V k j); [exact M|].
    rewrite (spec_w d x w Q DEC i k Hi Hk). rewrite (spec_poly d x w Q p DEC k j Hk Hj).
    assert (L0 : line (strain x) V 0 i k = strain x i k) by (unfold line; rr). rewrite L0.
    assert (L1 : pmat d p (line (strain x) V 0) k j = pmat d p (strain x) k j).
    { clear -Hk Hj. revert k j Hk Hj. induction p as [|c p IH]; intros k j Hk Hj; cbn [pmat]; [reflexivity|]. f_equal. apply mmul_ext; intros m Hm; [unfold line; rr|auto]. }
    rewrite L1. rr.
Qed.
