(** The derivative rule for functions of symmetric matrices, for C84. *)
From Coq Require Import Reals List Arith Lia Lra Bool.
From Verif Require Import Num Arr Fe Problem ProblemFacts SpecAssembly SpecWeak SpecEnergy EnergyFacts DerivFacts Elastic ElasticFacts LinAlg Plasticity SpecPlasticity PlasticityFacts Eigen SpecEigen EigenFacts.
Import ListNotations.
Local Open Scope R_scope.
Local Notation sum n g := (sum_n (K := Rops) n g).
Local Ltac rr := cbv beta; req; try change (car Rops) with R; ring.

(** ** The rule is the sum over pairs *)
Lemma jvp_pairs eigh d fn gfn x v i j : snd (f_jvp eigh d fn gfn x v) i j =
  pairs d (snd (eigh x)) (theta (fst (eigh x)) (fun b => fn (fst (eigh x) b)) (fun b => gfn (fst (eigh x) b))) (strain v) i j.
Proof.
  set (w := fst (eigh x)). set (Q := snd (eigh x)). set (th := theta w (fun b => fn (w b)) (fun b => gfn (w b))).
  assert (TH : forall a, th a a = gfn (w a)). { intros a. unfold th, theta. destruct (Req_EM_T (w a - w a) 0) as [|E]; [reflexivity|]. exfalso. apply E. ring. }
  transitivity (sum d (fun k => sum d (fun l => (sum d (fun b => proj Q b i j * proj Q b k l * gfn (w b)) +
      / 2 * (sum d (fun a => sum d (fun b => (proj Q a i k * proj Q b j l + proj Q a i l * proj Q b j k) * th a b)) -
             sum d (fun a => (proj Q a i k * proj Q a j l + proj Q a i l * proj Q a j k) * th a a))) * v k l))); [reflexivity|].
  set (P := fun k l => sum d (fun a => sum d (fun b => th a b * (/ 2 * (proj Q a i k * proj Q b l j + proj Q a i l * proj Q b k j))))).
  transitivity (sum d (fun k => sum d (fun l => P k l * v k l))).
  { apply Rsum_ext. intros k Hk. apply Rsum_ext. intros l Hl. f_equal. unfold P.
    transitivity (/ 2 * sum d (fun a => sum d (fun b => (proj Q a i k * proj Q b j l + proj Q a i l * proj Q b j k) * th a b))).
    - match goal with |- ?t1 + / 2 * (?t2 - ?t3) = _ => assert (E : t3 = 2 * t1) end.
      { rewrite <- Rsum_mul. apply Rsum_ext. intros a Ha. rewrite TH. unfold proj. rr. }
      rewrite E. req. field.
    - rewrite <- Rsum_mul. apply Rsum_ext. intros a Ha. rewrite <- Rsum_mul. apply Rsum_ext. intros b Hb. rewrite (proj_sym Q b l j), (proj_sym Q b k j). rr. }
  transitivity (sum d (fun k => sum d (fun l => sum d (fun a => sum d (fun b => th a b * (/ 2 * (proj Q a i k * proj Q b l j * v k l + proj Q a i l * proj Q b k j * v k l))))))).
  { apply Rsum_ext. intros k Hk. apply Rsum_ext. intros l Hl. unfold P. rewrite <- Rsum_mulr. apply Rsum_ext. intros a Ha. rewrite <- Rsum_mulr. apply Rsum_ext. intros b Hb. rr. }
  transitivity (sum d (fun a => sum d (fun b => sum d (fun k => sum d (fun l => th a b * (/ 2 * (proj Q a i k * proj Q b l j * v k l + proj Q a i l * proj Q b k j * v k l))))))).
  { transitivity (sum d (fun k => sum d (fun a => sum d (fun b => sum d (fun l => th a b * (/ 2 * (proj Q a i k * proj Q b l j * v k l + proj Q a i l * proj Q b k j * v k l))))))).
    - apply Rsum_ext. intros k Hk. rewrite Rsum_swap. apply Rsum_ext. intros a Ha. rewrite Rsum_swap. reflexivity.
    - rewrite Rsum_swap. apply Rsum_ext. intros a Ha. rewrite Rsum_swap. reflexivity. }
  unfold pairs. apply Rsum_ext. intros a Ha. apply Rsum_ext. intros b Hb.
  transitivity (th a b * (/ 2 * (sum d (fun k => sum d (fun l => proj Q a i k * proj Q b l j * v k l)) + sum d (fun k => sum d (fun l => proj Q a i l * proj Q b k j * v k l))))).
  { rewrite <- Rsum_plus, <- !Rsum_mul. apply Rsum_ext. intros k Hk. rewrite <- Rsum_plus, <- !Rsum_mul. apply Rsum_ext. intros l Hl. rr. }
  f_equal. rewrite (Rsum_swap d d (fun k l => proj Q a i l * proj Q b k j * v k l)). rewrite <- Rsum_plus, <- Rsum_mul. apply Rsum_ext. intros k Hk.
  rewrite <- Rsum_plus, <- Rsum_mul. apply Rsum_ext. intros l Hl. unfold strain. rr.
Qed.

(** ** Eigenvalues move no faster than the matrix *)
Lemma all_or_one n (P Pn : nat -> Prop) : (forall i, (i < n)%nat -> P i \/ Pn i) -> (exists i, (i < n)%nat /\ P i) \/ (forall i, (i < n)%nat -> Pn i).
Proof.
  induction n as [|n IH]; intros H; [right; intros; lia|]. destruct IH as [(i & Hi & X)|A]; [intros; apply H; lia|left; exists i; split; [lia|exact X]|].
  destruct (H n ltac:(lia)) as [X|X]; [left; exists n; split; [lia|exact X]|]. right. intros i Hi. destruct (Nat.eq_dec i n) as [->|]; auto. apply A. lia.
Qed.
Section Near.
  Variables (d : nat) (x y : tensor) (w m : nat -> R) (Q U : tensor).
  Hypothesis DX : decomposes d x w Q.
  Hypothesis DY : decomposes d y m U.
  Let diff i j := strain y i j - strain x i j.
  Definition size (A : tensor) : R := sum d (fun i => sum d (fun j => Rabs (A i j))).
  Lemma size_nonneg A : 0 <= size A.
  Proof. apply Rsum_nonneg. intros i Hi. apply Rsum_nonneg. intros. apply Rabs_pos. Qed.

  (** column b of U in the basis Q *)
  Let co a b := sum d (fun i => Q i a * U i b).
  Lemma co_unit b : (b < d)%nat -> sum d (fun a => co a b * co a b) = 1.
  Proof.
    intros Hb. transitivity (sum d (fun i => sum d (fun k => sum d (fun a => Q i a * Q k a) * (U i b * U k b)))).
    { transitivity (sum d (fun a => sum d (fun i => sum d (fun k => (Q i a * Q k a) * (U i b * U k b))))).
      - apply Rsum_ext. intros a Ha. unfold co. rewrite <- Rsum_mulr. apply Rsum_ext. intros i Hi. rewrite <- Rsum_mul. apply Rsum_ext. intros k Hk. rr.
      - rewrite Rsum_swap. apply Rsum_ext. intros i Hi. rewrite Rsum_swap. apply Rsum_ext. intros k Hk. now rewrite Rsum_mulr. }
    transitivity (sum d (fun i => U i b * U i b)).
    - apply Rsum_ext. intros i Hi. transitivity (sum d (fun k => (if (i =? k)%nat then 1 else 0) * (U i b * U k b))).
      + apply Rsum_ext. intros k Hk. f_equal. exact (q_rows d x w Q DX i k Hi Hk).
      + exact (Rsum_delta d i (fun k => U i b * U k b) Hi).
    - rewrite (q_cols d y m U DY b b Hb Hb). unfold eye. now rewrite Nat.eqb_refl.
  Qed.
  (** U diagonalises y *)
  Lemma y_vec b i : (b < d)%nat -> (i < d)%nat -> sum d (fun k => strain y i k * U k b) = m b * U i b.
  Proof.
    intros Hb Hi. transitivity (sum d (fun k => sum d (fun c => m c * U i c * (U k c * U k b)))).
    { apply Rsum_ext. intros k Hk. rewrite <- (proj2 DY i k Hi Hk), <- Rsum_mulr. apply Rsum_ext. intros c Hc. rr. }
    rewrite Rsum_swap. transitivity (sum d (fun c => (m c * U i c) * (if (c =? b)%nat then 1 else 0))).
    - apply Rsum_ext. intros c Hc. rewrite Rsum_mul, (q_cols d y m U DY c b Hc Hb). reflexivity.
    - exact (Rsum_delta2 d b (fun c => m c * U i c) Hb).
  Qed.
  Lemma x_covec a k : (a < d)%nat -> (k < d)%nat -> sum d (fun i => Q i a * strain x i k) = w a * Q k a.
  Proof.
    intros Ha Hk. transitivity (sum d (fun i => sum d (fun c => w c * Q k c * (Q i a * Q i c)))).
    { apply Rsum_ext. intros i Hi. rewrite <- (proj2 DX i k Hi Hk), <- Rsum_mul. apply Rsum_ext. intros c Hc. rr. }
    rewrite Rsum_swap. transitivity (sum d (fun c => (w c * Q k c) * (if (c =? a)%nat then 1 else 0))).
    - apply Rsum_ext. intros c Hc. rewrite Rsum_mul, (q_cols d x w Q DX a c Ha Hc). unfold eye. now rewrite Nat.eqb_sym.
    - exact (Rsum_delta2 d a (fun c => w c * Q k c) Ha).
  Qed.
  (** (m_b - w_a) co a b = q_a . (y - x) u_b *)
  Lemma co_diff a b : (a < d)%nat -> (b < d)%nat -> (m b - w a) * co a b = sum d (fun i => Q i a * sum d (fun k => diff i k * U k b)).
  Proof.
    intros Ha Hb. transitivity (sum d (fun i => Q i a * (m b * U i b)) - sum d (fun k => (w a * Q k a) * U k b)).
    { unfold co. rewrite Rmult_minus_distr_r, <- !Rsum_mul. f_equal; apply Rsum_ext; intros i Hi; rr. }
    transitivity (sum d (fun i => Q i a * sum d (fun k => strain y i k * U k b)) - sum d (fun i => Q i a * sum d (fun k => strain x i k * U k b))).
    - f_equal; [apply Rsum_ext; intros i Hi; now rewrite y_vec|].
      transitivity (sum d (fun k => sum d (fun i => Q i a * strain x i k) * U k b)); [apply Rsum_ext; intros k Hk; now rewrite x_covec|].
      transitivity (sum d (fun k => sum d (fun i => Q i a * (strain x i k * U k b)))).
      { apply Rsum_ext. intros k Hk. rewrite <- Rsum_mulr. apply Rsum_ext. intros i Hi. rr. }
      rewrite Rsum_swap. apply Rsum_ext. intros i Hi. now rewrite Rsum_mul.
    - rewrite <- Rsum_minus. apply Rsum_ext. intros i Hi. rewrite <- Rmult_minus_distr_l. f_equal. rewrite <- Rsum_minus. apply Rsum_ext. intros k Hk. unfold diff. rr.
  Qed.
  Lemma entry_unit (T : tensor) (z : tensor) (wt : nat -> R) : decomposes d z wt T -> forall i b, (i < d)%nat -> (b < d)%nat -> Rabs (T i b) <= 1.
  Proof.
    intros D i b Hi Hb. pose proof (q_cols d z wt T D b b Hb Hb) as E. unfold eye in E. rewrite Nat.eqb_refl in E.
    assert (L : T i b * T i b <= 1).
    { rewrite <- E. assert (G : forall n, (i < n)%nat -> T i b * T i b <= sum n (fun k => T k b * T k b)).
      { induction n as [|n IH]; intros Hn; [lia|]. rewrite (sum_n_S Rops_ring). change (@add Rops) with Rplus.
        destruct (Nat.eq_dec i n) as [->|].
        - pose proof (Rsum_nonneg n (fun k => T k b * T k b) (fun k _ => Rle_0_sqr (T k b))). lra.
        - pose proof (IH ltac:(lia)). pose proof (Rle_0_sqr (T n b)) as X. unfold Rsqr in X. apply Rle_trans with (sum n (fun k => T k b * T k b)); [assumption|]. apply Rle_trans with (sum n (fun k => T k b * T k b) + 0); [rewrite Rplus_0_r; apply Rle_refl|apply Rplus_le_compat_l; exact X]. }
      apply G; exact Hi. }
    apply Rsqr_incr_0_var; [|lra]. unfold Rsqr. rewrite <- Rabs_mult, Rabs_pos_eq by apply Rle_0_sqr. lra.
  Qed.
  (** q_a . (y - x) u_b, squared and summed over a *)
  Lemma diff_size b : (b < d)%nat ->
    sum d (fun a => sum d (fun i => Q i a * sum d (fun k => diff i k * U k b)) * sum d (fun i => Q i a * sum d (fun k => diff i k * U k b))) <= size diff * size diff.
  Proof.
    intros Hb. set (r i := sum d (fun k => diff i k * U k b)).
    assert (E : sum d (fun a => sum d (fun i => Q i a * r i) * sum d (fun i => Q i a * r i)) = sum d (fun i => r i * r i)).
    { transitivity (sum d (fun i => sum d (fun k => sum d (fun a => Q i a * Q k a) * (r i * r k)))).
      { transitivity (sum d (fun a => sum d (fun i => sum d (fun k => (Q i a * Q k a) * (r i * r k))))).
        - apply Rsum_ext. intros a Ha. rewrite <- Rsum_mulr. apply Rsum_ext. intros i Hi. rewrite <- Rsum_mul. apply Rsum_ext. intros k Hk. rr.
        - rewrite Rsum_swap. apply Rsum_ext. intros i Hi. rewrite Rsum_swap. apply Rsum_ext. intros k Hk. now rewrite Rsum_mulr. }
      apply Rsum_ext. intros i Hi. transitivity (sum d (fun k => (if (i =? k)%nat then 1 else 0) * (r i * r k))).
      - apply Rsum_ext. intros k Hk. f_equal. exact (q_rows d x w Q DX i k Hi Hk).
      - exact (Rsum_delta d i (fun k => r i * r k) Hi). }
    change (sum d (fun a => sum d (fun i => Q i a * r i) * sum d (fun i => Q i a * r i)) <= size diff * size diff). rewrite E.
    assert (A : forall i, (i < d)%nat -> Rabs (r i) <= sum d (fun k => Rabs (diff i k))).
    { intros i Hi. unfold r. apply Rle_trans with (1 := Rsum_abs d _). apply Rsum_le. intros k Hk. rewrite Rabs_mult.
      pose proof (entry_unit U y m DY k b Hk Hb). pose proof (Rabs_pos (diff i k)). nra. }
    assert (B : forall i, (i < d)%nat -> Rabs (r i) <= size diff).
    { intros i Hi. apply Rle_trans with (1 := A i Hi). unfold size. pose proof (Rsum_delta d i (fun i => sum d (fun k => Rabs (diff i k))) Hi) as X. cbv beta in X. rewrite <- X. apply Rsum_le. intros k Hk.
      assert (0 <= sum d (fun l => Rabs (diff k l))) by (apply Rsum_nonneg; intros; apply Rabs_pos). destruct (i =? k)%nat; lra. }
    apply Rle_trans with (sum d (fun i => size diff * sum d (fun k => Rabs (diff i k)))).
    - apply Rsum_le. intros i Hi. pose proof (A i Hi). pose proof (B i Hi). pose proof (Rabs_pos (r i)).
      apply Rle_trans with (Rabs (r i) * Rabs (r i)); [rewrite <- Rabs_mult; apply Rle_abs|]. apply Rmult_le_compat; auto.
    - rewrite Rsum_mul. apply Rle_refl.
  Qed.
  Theorem near b : (b < d)%nat -> exists a, (a < d)%nat /\ Rabs (m b - w a) <= size diff.
  Proof.
    intros Hb. destruct (all_or_one d (fun a => Rabs (m b - w a) <= size diff) (fun a => size diff < Rabs (m b - w a))) as [H|H].
    { intros i Hi. destruct (Rle_lt_dec (Rabs (m b - w i)) (size diff)); auto. }
    { exact H. }
    exfalso. pose proof (size_nonneg diff) as SN.
    assert (G : forall a, (a < d)%nat -> 0 < (m b - w a) * (m b - w a) - size diff * size diff).
    { intros a Ha. specialize (H a Ha). rewrite <- (Rabs_pos_eq ((m b - w a) * (m b - w a))) by apply Rle_0_sqr. rewrite Rabs_mult. nra. }
    assert (T : sum d (fun a => ((m b - w a) * (m b - w a) - size diff * size diff) * (co a b * co a b)) <= 0).
    { apply Rle_trans with (sum d (fun a => ((m b - w a) * co a b) * ((m b - w a) * co a b)) - size diff * size diff * sum d (fun a => co a b * co a b)).
      - apply Req_le. rewrite <- Rsum_mul, <- Rsum_minus. apply Rsum_ext. intros a Ha. rr.
      - rewrite (co_unit b Hb). pose proof (diff_size b Hb) as DS.
        rewrite (Rsum_ext d (fun a => (m b - w a) * co a b * ((m b - w a) * co a b)) (fun a => sum d (fun i => Q i a * sum d (fun k => diff i k * U k b)) * sum d (fun i => Q i a * sum d (fun k => diff i k * U k b)))); [lra|].
        intros a Ha. cbv beta. now rewrite (co_diff a b Ha Hb). }
    assert (Z : forall a, (a < d)%nat -> co a b * co a b = 0).
    { intros a Ha. assert (N : forall a, (a < d)%nat -> 0 <= ((m b - w a) * (m b - w a) - size diff * size diff) * (co a b * co a b)).
      { intros a' Ha'. apply Rmult_le_pos; [left; auto|apply Rle_0_sqr]. }
      assert (S0 : sum d (fun a => ((m b - w a) * (m b - w a) - size diff * size diff) * (co a b * co a b)) = 0) by (apply Rle_antisym; [exact T|apply Rsum_nonneg; exact N]).
      pose proof (Rsum_zero_all d _ N S0 a Ha) as E. cbv beta in E. apply Rmult_integral in E. destruct E as [E|E]; [|exact E]. pose proof (G a Ha). lra. }
    pose proof (co_unit b Hb) as O. rewrite (Rsum_zero d _ Z) in O. lra.
  Qed.
End Near.

(** ** Hermite interpolation *)
Lemma pval_der p x : derivable_pt_lim (pval p) x (pder p x).
Proof.
  induction p as [|c p IH]; [apply derivable_pt_lim_const|]. cbn [pder].
  apply (dlim_ext (fun t => c + t * pval p t)); [reflexivity|]. rewrite <- (Rplus_0_l (_ + _)). apply (derivable_pt_lim_plus (fun _ => c)); [apply derivable_pt_lim_const|].
  replace (pval p x + x * pder p x) with (1 * pval p x + x * pder p x) by ring. exact (derivable_pt_lim_mult (fun t => t) (pval p) x 1 (pder p x) (derivable_pt_lim_id x) IH).
Qed.
Fixpoint padd (p q : list R) : list R := match p, q with [], _ => q | _, [] => p | a :: p', b :: q' => (a + b) :: padd p' q' end.
Fixpoint pscale (c : R) (p : list R) : list R := match p with [] => [] | a :: q => (c * a) :: pscale c q end.
(** times (x - l) *)
Definition pshift (l : R) (p : list R) : list R := padd (0 :: p) (pscale (- l) p).
Lemma padd_val p : forall q x, pval (padd p q) x = pval p x + pval q x.
Proof. induction p as [|a p IH]; intros [|b q] x; cbn [padd pval]; try ring. rewrite IH. ring. Qed.
Lemma padd_der p : forall q x, pder (padd p q) x = pder p x + pder q x.
Proof. induction p as [|a p IH]; intros [|b q] x; cbn [padd pder]; try ring. rewrite IH, padd_val. ring. Qed.
Lemma pscale_val c p x : pval (pscale c p) x = c * pval p x.
Proof. induction p as [|a p IH]; cbn [pscale pval]; [ring|]. rewrite IH. ring. Qed.
Lemma pscale_der c p x : pder (pscale c p) x = c * pder p x.
Proof. induction p as [|a p IH]; cbn [pscale pder]; [ring|]. rewrite IH, pscale_val. ring. Qed.
Lemma pshift_val l p x : pval (pshift l p) x = (x - l) * pval p x.
Proof. unfold pshift. rewrite padd_val, pscale_val. cbn [pval]. ring. Qed.
Lemma pshift_der l p x : pder (pshift l p) x = pval p x + (x - l) * pder p x.
Proof. unfold pshift. rewrite padd_der, pscale_der. cbn [pder]. ring. Qed.
(** the square of the product of (x - l) over a list *)
Fixpoint psq (ls : list R) : list R := match ls with [] => [1] | l :: t => pshift l (pshift l (psq t)) end.
Lemma psq_zero ls x : In x ls -> pval (psq ls) x = 0 /\ pder (psq ls) x = 0.
Proof.
  induction ls as [|l t IH]; [intros []|]. intros [->|H]; cbn [psq].
  - rewrite pshift_der, !pshift_val. split; ring.
  - destruct (IH H) as (V & D). rewrite !pshift_der, !pshift_val, V, D. split; ring.
Qed.
Lemma psq_nonzero ls x : ~ In x ls -> pval (psq ls) x <> 0.
Proof.
  induction ls as [|l t IH]; intros H; cbn [psq]; [cbn [pval]; lra|]. rewrite !pshift_val. apply Rmult_integral_contrapositive_currified.
  - intros E. apply H. left. lra.
  - apply Rmult_integral_contrapositive_currified; [intros E; apply H; left; lra|]. apply IH. intros I. apply H. now right.
Qed.
Theorem hermite (f g : R -> R) ls : exists p, forall x, In x ls -> pval p x = f x /\ pder p x = g x.
Proof.
  induction ls as [|l t (p & IH)]; [exists []; intros x []|].
  destruct (in_dec Req_EM_T l t) as [I|I]; [exists p; intros x [<-|H]; auto|].
  set (q := psq t). set (s := pval q l). assert (S0 : s <> 0) by exact (psq_nonzero t l I).
  set (a := (f l - pval p l) / s). set (b := (g l - pder p l - a * pder q l) / s).
  exists (padd p (padd (pscale a q) (pscale b (pshift l q)))). intros x H.
  rewrite !padd_val, !padd_der, !pscale_val, !pscale_der, pshift_val, pshift_der. destruct H as [<-|H].
  - fold s. split; [unfold a; field; exact S0|]. unfold b. field. exact S0.
  - destruct (IH x H) as (V & D). destruct (psq_zero t x H) as (V2 & D2). fold q in V2, D2. rewrite V, D, V2, D2. split; ring.
Qed.

(** ** The derivative *)
Lemma min_list n (P : nat -> R -> Prop) : (forall a, (a < n)%nat -> exists e, 0 < e /\ P a e) -> (forall a e e', P a e -> 0 < e' <= e -> P a e') -> exists e, 0 < e /\ forall a, (a < n)%nat -> P a e.
Proof.
  intros H M. induction n as [|n IH]; [exists 1; split; [lra|intros; lia]|]. destruct IH as (e & E & A); [intros; apply H; lia|]. destruct (H n ltac:(lia)) as (e2 & E2 & B).
  exists (Rmin e e2). split; [now apply Rmin_glb_lt|]. intros a Ha. destruct (Nat.eq_dec a n) as [->|].
  - apply (M n e2); [exact B|]. split; [now apply Rmin_glb_lt|apply Rmin_r].
  - apply (M a e); [apply A; lia|]. split; [now apply Rmin_glb_lt|apply Rmin_l].
Qed.
Section Main.
  Variables (d : nat) (eigh : tensor -> (nat -> R) * tensor) (EO : eigh_ok d eigh).
  Variables (fn gfn : R -> R) (x v : tensor).
  Let w := fst (eigh x).
  Hypothesis DF : forall b, (b < d)%nat -> derivable_pt_lim fn (w b) (gfn (w b)).

  Lemma eigen_spec f y i j : eigen_f eigh d f y i j = spec d (snd (eigh y)) (fun b => f (fst (eigh y) b)) i j.
  Proof. reflexivity. Qed.

  Lemma small (h : R -> R) : (forall b, (b < d)%nat -> h (w b) = 0 /\ derivable_pt_lim h (w b) 0) -> forall i j, (i < d)%nat -> (j < d)%nat ->
    derivable_pt_lim (fun t => eigen_f eigh d h (line x v t) i j) 0 0.
  Proof.
    intros H i j Hi Hj e E.
    set (c := size d (strain v) + 1). assert (C : 0 < c) by (pose proof (size_nonneg d (strain v)); unfold c; lra).
    set (e2 := e / (2 * (INR d * c + 1))). assert (K : 0 < INR d * c + 1) by (pose proof (pos_INR d); nra).
    assert (E2 : 0 < e2) by (unfold e2; apply Rdiv_lt_0_compat; lra).
    destruct (min_list d (fun a dl => forall s, Rabs s < dl -> Rabs (h (w a + s)) <= e2 * Rabs s)) as (dl & DL & B).
    { intros a Ha. destruct (H a Ha) as (Z & DZ). destruct (DZ e2 E2) as (dl & B). exists dl. split; [apply cond_pos|]. intros s Hs.
      destruct (Req_dec s 0) as [->|N]; [rewrite Rplus_0_r, Z, Rabs_R0; lra|]. specialize (B s N Hs). rewrite Z, Rminus_0_r, Rminus_0_r in B.
      unfold Rdiv in B. rewrite Rabs_mult, Rabs_inv in B. pose proof (Rabs_pos_lt s N) as P.
      apply (Rmult_lt_compat_r (Rabs s)) in B; [|exact P]. rewrite Rmult_assoc, Rinv_l, Rmult_1_r in B by lra. lra. }
    { intros a e1 e1' X (P1 & P2) s Hs. apply X. lra. }
    assert (DC : 0 < dl / c) by (apply Rdiv_lt_0_compat; assumption).
    exists (mkposreal _ DC). cbn [pos]. intros t T0 T1. rewrite Rplus_0_l.
    assert (Z0 : eigen_f eigh d h (line x v 0) i j = 0).
    { rewrite eigen_spec. unfold spec. apply Rsum_zero. intros b Hb. assert (X : h (fst (eigh (line x v 0)) b) = 0); [|rewrite X; rr].
      destruct (near d x (line x v 0) w (fst (eigh (line x v 0))) (snd (eigh x)) (snd (eigh (line x v 0))) (EO x) (EO _) b Hb) as (a & Ha & NR).
      assert (S0 : size d (fun i j => strain (line x v 0) i j - strain x i j) = 0).
      { unfold size. apply Rsum_zero. intros k Hk. apply Rsum_zero. intros l Hl. rewrite strain_of_line. unfold line. replace (strain x k l + 0 * strain v k l - strain x k l) with 0; [apply Rabs_R0|rr]. }
      rewrite S0 in NR. pose proof (Rabs_pos (fst (eigh (line x v 0)) b - w a)) as P. assert (Q0 : Rabs (fst (eigh (line x v 0)) b - w a) = 0) by lra.
      destruct (Req_dec (fst (eigh (line x v 0)) b - w a) 0) as [Q1|Q1]; [|apply Rabs_no_R0 in Q1; contradiction].
      replace (fst (eigh (line x v 0)) b) with (w a) by (apply eq_sym, Rminus_diag_uniq; exact Q1). exact (proj1 (H a Ha)). }
    rewrite Z0, !Rminus_0_r. unfold Rdiv. rewrite Rabs_mult, Rabs_inv.
    pose proof (Rabs_pos_lt t T0) as TP.
    assert (B2 : Rabs (eigen_f eigh d h (line x v t) i j) <= INR d * (e2 * (Rabs t * c))).
    { rewrite eigen_spec. unfold spec. apply Rle_trans with (1 := Rsum_abs d _). rewrite <- Rsum_const. apply Rsum_le. intros b Hb.
      set (y := line x v t) in *. rewrite Rabs_mult.
      assert (P1 : Rabs (proj (snd (eigh y)) b i j) <= 1).
      { unfold proj. rewrite Rabs_mult. pose proof (entry_unit d (snd (eigh y)) y _ (EO y) i b Hi Hb) as X1. pose proof (entry_unit d (snd (eigh y)) y _ (EO y) j b Hj Hb) as X2.
        pose proof (Rabs_pos (snd (eigh y) i b)). pose proof (Rabs_pos (snd (eigh y) j b)). change (car Rops) with R in *. nra. }
      assert (P2 : Rabs (h (fst (eigh y) b)) <= e2 * (Rabs t * c)).
      { destruct (near d x y w (fst (eigh y)) (snd (eigh x)) (snd (eigh y)) (EO x) (EO y) b Hb) as (a & Ha & NR).
        assert (S1 : size d (fun i j => strain y i j - strain x i j) = Rabs t * size d (strain v)).
        { unfold size. rewrite <- Rsum_mul. apply Rsum_ext. intros k Hk. rewrite <- Rsum_mul. apply Rsum_ext. intros l Hl. rewrite <- Rabs_mult. f_equal. unfold y. rewrite strain_of_line. unfold line. rr. }
        rewrite S1 in NR. assert (NR2 : Rabs (fst (eigh y) b - w a) <= Rabs t * c) by (unfold c; nra).
        assert (TC : Rabs t * c < dl). { apply (Rmult_lt_compat_r c) in T1; [|exact C]. unfold Rdiv in T1. rewrite Rmult_assoc, Rinv_l, Rmult_1_r in T1 by lra. exact T1. }
        pose proof (B a Ha (fst (eigh y) b - w a) ltac:(lra)) as X. replace (w a + (fst (eigh y) b - w a)) with (fst (eigh y) b) in X by ring.
        apply Rle_trans with (1 := X). apply Rmult_le_compat_l; lra. }
      pose proof (Rabs_pos (h (fst (eigh y) b))). pose proof (Rabs_pos (proj (snd (eigh y)) b i j)). nra. }
    apply Rle_lt_trans with (INR d * (e2 * (Rabs t * c)) * / Rabs t).
    - apply Rmult_le_compat_r; [left; now apply Rinv_0_lt_compat|exact B2].
    - replace (INR d * (e2 * (Rabs t * c)) * / Rabs t) with (INR d * c * e2) by (field; lra). unfold e2.
      pose proof (pos_INR d). assert (L : INR d * c * (e / (2 * (INR d * c + 1))) <= e / 2).
      { replace (INR d * c * (e / (2 * (INR d * c + 1)))) with (e / 2 * (INR d * c / (INR d * c + 1))) by (field; lra).
        rewrite <- (Rmult_1_r (e / 2)) at 2. apply Rmult_le_compat_l; [lra|]. apply (Rmult_le_reg_r (INR d * c + 1)); [exact K|]. unfold Rdiv. rewrite Rmult_assoc, Rinv_l by lra. lra. }
      lra.
  Qed.

  Theorem derivative i j : (i < d)%nat -> (j < d)%nat -> derivable_pt_lim (fun t => eigen_f eigh d fn (line x v t) i j) 0 (snd (f_jvp eigh d fn gfn x v) i j).
  Proof.
    intros Hi Hj. destruct (hermite fn gfn (map w (seq 0 d))) as (p & HP).
    assert (HW : forall b, (b < d)%nat -> pval p (w b) = fn (w b) /\ pder p (w b) = gfn (w b)).
    { intros b Hb. apply HP. apply in_map. apply in_seq. lia. }
    rewrite jvp_pairs. fold w. set (h := fun s => fn s - pval p s).
    rewrite (pairs_ext d (snd (eigh x)) _ (theta w (fun b => pval p (w b)) (fun b => pder p (w b))) (strain v) (strain v) i j).
    2:{ intros a b Ha Hb. unfold theta. destruct (HW a Ha) as (-> & ->). destruct (HW b Hb) as (-> & _). reflexivity. }
    2:{ reflexivity. }
    apply (dlim_ext (fun t => pmat d p (line (strain x) (strain v) t) i j + eigen_f eigh d h (line x v t) i j)).
    { intros t. set (y := line x v t).
      assert (E1 : pmat d p (line (strain x) (strain v) t) i j = spec d (snd (eigh y)) (fun b => pval p (fst (eigh y) b)) i j).
      { rewrite (spec_poly d y (fst (eigh y)) (snd (eigh y)) p (EO y) i j Hi Hj). clear -Hi Hj. revert i j Hi Hj. induction p as [|c p IH]; intros i j Hi Hj; cbn [pmat]; [reflexivity|].
        f_equal. apply mmul_ext; intros k Hk; [unfold y; now rewrite strain_of_line|auto]. }
      rewrite E1, !eigen_spec, <- spec_plus. apply spec_ext. intros b Hb. unfold h. rr. }
    rewrite <- (Rplus_0_r (pairs _ _ _ _ _ _)). apply (derivable_pt_lim_plus (fun t => pmat d p (line (strain x) (strain v) t) i j)).
    - exact (poly_derivative d x w (snd (eigh x)) p (strain v) (EO x) i j Hi Hj).
    - apply small; [|exact Hi|exact Hj]. intros b Hb. destruct (HW b Hb) as (V & D). unfold h. split; [rewrite V; ring|].
      replace 0 with (gfn (w b) - pder p (w b)) by (rewrite D; ring). exact (derivable_pt_lim_minus fn (pval p) (w b) _ _ (DF b Hb) (pval_der p (w b))).
  Qed.
End Main.
