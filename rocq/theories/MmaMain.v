(** Proofs about the MMA sub-problem: bounds (C39), approximation (C40), interior points (C41), the loop of subsolv (C60). *)
From Coq Require Import List Arith Lia Reals Lra.
From Verif Require Import Num Arr Fe Problem ProblemFacts XNum DerivFacts Newton Mma SpecMma MmaFacts.
Import ListNotations.
Local Open Scope R_scope.

(** ** Bounds *)
Section Bounds.
  Variables (ep : nat) (x x1 x2 lo hi l0 u0 mv : R).
  Hypothesis X : lo <= x <= hi.
  Hypothesis LH : lo < hi.
  Hypothesis MV : 0 < mv.
  Let rl : R := new_low (F := RF) ep x x1 x2 lo hi l0.
  Let ru : R := new_upp (F := RF) ep x x1 x2 lo hi u0.
  Let ra : R := new_alfa (F := RF) x rl lo hi mv.
  Let rb : R := new_beta (F := RF) x ru lo hi mv.
  Lemma low_real : x - 10 * (hi - lo) <= rl <= x - 1 / 100 * (hi - lo).
  Proof.
    subst rl. unfold new_low. destruct (ep <=? 2)%nat; ops; [lra|]. split; [|apply Rmin_r]. apply Rmin_glb; [|lra]. apply Rmax_r.
  Qed.
  Lemma upp_real : x + 1 / 100 * (hi - lo) <= ru <= x + 10 * (hi - lo).
  Proof.
    subst ru. unfold new_upp. destruct (ep <=? 2)%nat; ops; [lra|]. split; [apply Rmax_r|]. apply Rmax_lub; [apply Rmin_r|lra].
  Qed.
  Lemma bounds_real : rl < ra /\ ra <= x /\ x <= rb /\ rb < ru /\ lo <= ra /\ rb <= hi /\ ra < rb /\ x - mv * (hi - lo) <= ra /\ rb <= x + mv * (hi - lo).
  Proof.
    pose proof low_real as L. pose proof upp_real as U. assert (P : 0 < mv * (hi - lo)) by (apply Rmult_lt_0_compat; lra).
    assert (A1 : rl + 1 / 10 * (x - rl) <= ra) by (subst ra; unfold new_alfa; ops; eapply Rle_trans; [|apply Rmax_l]; apply Rmax_l).
    assert (A2 : x - mv * (hi - lo) <= ra) by (subst ra; unfold new_alfa; ops; eapply Rle_trans; [|apply Rmax_l]; apply Rmax_r).
    assert (A3 : lo <= ra) by (subst ra; unfold new_alfa; ops; apply Rmax_r).
    assert (A4 : ra <= x) by (subst ra; unfold new_alfa; ops; apply Rmax_lub; [apply Rmax_lub|]; lra).
    assert (B1 : rb <= ru - 1 / 10 * (ru - x)) by (subst rb; unfold new_beta; ops; eapply Rle_trans; [apply Rmin_l|]; apply Rmin_l).
    assert (B2 : rb <= x + mv * (hi - lo)) by (subst rb; unfold new_beta; ops; eapply Rle_trans; [apply Rmin_l|]; apply Rmin_r).
    assert (B3 : rb <= hi) by (subst rb; unfold new_beta; ops; apply Rmin_r).
    assert (B4 : x <= rb) by (subst rb; unfold new_beta; ops; apply Rmin_glb; [apply Rmin_glb|]; lra).
    assert (AB : ra < rb).
    { destruct (Req_dec x lo) as [E|E].
      - apply Rle_lt_trans with x; [exact A4|]. subst rb. unfold new_beta. ops. repeat apply Rmin_glb_lt; lra.
      - apply Rlt_le_trans with x; [|exact B4]. subst ra. unfold new_alfa. ops. repeat apply Rmax_lub_lt; lra. }
    repeat split; lra.
  Qed.
End Bounds.

Lemma factor_F z : factor (F := XF) (Fin z) = Fin (factor (F := RF) z).
Proof. unfold factor. ops. cbn [xltb]. now destruct (Rltb z 0); [|destruct (Rltb 0 z)]. Qed.
Lemma low_F ep x x1 x2 lo hi l0 : new_low (F := XF) ep (Fin x) (Fin x1) (Fin x2) (Fin lo) (Fin hi) (Fin l0) = Fin (new_low (F := RF) ep x x1 x2 lo hi l0).
Proof.
  unfold new_low. destruct (ep <=? 2)%nat; ops; cbn [xadd xsub xmul xopp]; [reflexivity|]. rewrite factor_F. cbn [xadd xsub xmul xopp]. now rewrite xmaxF, xminF.
Qed.
Lemma upp_F ep x x1 x2 lo hi l0 : new_upp (F := XF) ep (Fin x) (Fin x1) (Fin x2) (Fin lo) (Fin hi) (Fin l0) = Fin (new_upp (F := RF) ep x x1 x2 lo hi l0).
Proof.
  unfold new_upp. destruct (ep <=? 2)%nat; ops; cbn [xadd xsub xmul xopp]; [reflexivity|]. rewrite factor_F. cbn [xadd xsub xmul xopp]. now rewrite xminF, xmaxF.
Qed.
Lemma alfa_F x l lo hi mv : new_alfa (F := XF) (Fin x) (Fin l) (Fin lo) (Fin hi) (Fin mv) = Fin (new_alfa (F := RF) x l lo hi mv).
Proof. unfold new_alfa. ops. cbn [xadd xsub xmul xopp]. now rewrite !xmaxF. Qed.
Lemma beta_F x l lo hi mv : new_beta (F := XF) (Fin x) (Fin l) (Fin lo) (Fin hi) (Fin mv) = Fin (new_beta (F := RF) x l lo hi mv).
Proof. unfold new_beta. ops. cbn [xadd xsub xmul xopp]. now rewrite !xminF. Qed.
Lemma xmami_pos lo hi : 0 < Rmax (hi - lo) (1 / 100000 * 1).
Proof. eapply Rlt_le_trans; [|apply Rmax_r]. lra. Qed.
Lemma xmamiinv_F lo hi : xmamiinv (F := XF) (Fin lo) (Fin hi) = Fin (xmamiinv (F := RF) lo hi).
Proof. unfold xmamiinv. ops. cbn [xadd xsub xmul xopp]. rewrite xmaxF, xdivF; [reflexivity|]. pose proof (xmami_pos lo hi). unfold Rminus in *. lra. Qed.
Lemma coef_p_F g u x lo hi : coef_p (F := XF) (Fin g) (Fin u) (Fin x) (Fin lo) (Fin hi) = Fin (coef_p (F := RF) g u x lo hi).
Proof. unfold coef_p. rewrite xmamiinv_F. ops. cbn [xadd xsub xmul xopp]. now rewrite !xmaxF. Qed.
Lemma coef_q_F g u x lo hi : coef_q (F := XF) (Fin g) (Fin u) (Fin x) (Fin lo) (Fin hi) = Fin (coef_q (F := RF) g u x lo hi).
Proof. unfold coef_q. rewrite xmamiinv_F. ops. cbn [xadd xsub xmul xopp]. now rewrite !xmaxF. Qed.

Lemma base_pos g lo hi : 0 < 1 / 1000 * (Rmax g 0 + Rmax (- g) 0) + 1 / 100000 * xmamiinv (F := RF) lo hi.
Proof.
  unfold xmamiinv. ops. pose proof (xmami_pos lo hi) as P. pose proof (div_pos _ _ Rlt_0_1 P). pose proof (Rmax_r g 0). pose proof (Rmax_r (- g) 0). lra.
Qed.
Lemma coef_p_pos g u x lo hi : x < u -> 0 < coef_p (F := RF) g u x lo hi.
Proof.
  intros H. unfold coef_p. ops. pose proof (base_pos g lo hi). pose proof (Rmax_r g 0). apply Rmult_lt_0_compat; [apply Rmult_lt_0_compat; lra|lra].
Qed.
Lemma coef_q_pos g l x lo hi : l < x -> 0 < coef_q (F := RF) g l x lo hi.
Proof.
  intros H. unfold coef_q. ops. pose proof (base_pos g lo hi). pose proof (Rmax_r (- g) 0). apply Rmult_lt_0_compat; [apply Rmult_lt_0_compat; lra|lra].
Qed.
Lemma coef_diff g l u x lo hi : l < x -> x < u ->
  coef_p (F := RF) g u x lo hi / ((u - x) * (u - x)) - coef_q (F := RF) g l x lo hi / ((x - l) * (x - l)) = g.
Proof.
  intros H1 H2. unfold coef_p, coef_q. ops. generalize (xmamiinv (F := RF) lo hi). intros c.
  assert (D : Rmax g 0 - Rmax (- g) 0 = g). { destruct (Rle_or_lt 0 g); [rewrite Rmax_left, Rmax_right by lra|rewrite Rmax_right, Rmax_left by lra]; lra. }
  ops. transitivity (Rmax g 0 - Rmax (- g) 0); [field; lra|exact D].
Qed.

(** ** The whole sub-problem *)
Section Problem.
  Variables m n : nat.
  Variable M : mma XF.
  Variables (xval df0dx fval : nat -> XF) (dfdx : nat -> nat -> XF).
  Hypothesis XB : forall j, (j < n)%nat -> xle (x_min M j) (xval j) /\ xle (xval j) (x_max M j) /\ xlt (x_min M j) (x_max M j).
  Hypothesis MP : positive (moveLimit M).
  Hypothesis H1 : each n finite (xold1 M).
  Hypothesis H2 : each n finite (xold2 M).
  Hypothesis HL : each n finite (lowAsymp M).
  Hypothesis HU : each n finite (upAsymp M).
  Let S := mma_problem n M xval df0dx fval dfdx.
  Definition rv (u : nat -> XF) : nat -> RF := fun i => to_R (u i).
  Let rM : mma RF := mkMma (F := RF) (epoch M) (rv (xold1 M)) (rv (xold2 M)) (rv (lowAsymp M)) (rv (upAsymp M)) (rv (x_min M)) (rv (x_max M)) (to_R (moveLimit M))
    (to_R (zconst M)) (rv (zscale M)) (rv (ylinscale M)) (rv (yquadscale M)).
  Let T : subproblem RF := mma_problem (F := RF) n rM (rv xval) (rv df0dx) (rv fval) (fun k => rv (dfdx k)).

  Lemma fin_rv k (u : nat -> XF) : each k finite u -> forall i, (i < k)%nat -> u i = Fin (rv u i).
  Proof. intros H i Hi. exact (proj1 (fin_to _ _ (H i Hi))). Qed.
  Lemma xle_to x y : xle x y -> x = Fin (to_R x) /\ y = Fin (to_R y) /\ to_R x <= to_R y.
  Proof. intros (a & b & -> & -> & H). auto. Qed.
  Lemma box j : (j < n)%nat -> xval j = Fin (rv xval j) /\ x_min M j = Fin (rv (x_min M) j) /\ x_max M j = Fin (rv (x_max M) j) /\
    rv (x_min M) j <= rv xval j <= rv (x_max M) j /\ rv (x_min M) j < rv (x_max M) j.
  Proof.
    intros H. destruct (XB j H) as (A & B & C). apply xle_to in A as (A1 & A2 & A3). apply xle_to in B as (B1 & B2 & B3). apply xlt_to in C as (C1 & C2 & C3).
    unfold rv. auto 6.
  Qed.
  Lemma move_to : moveLimit M = Fin (to_R (moveLimit M)) /\ 0 < to_R (moveLimit M).
  Proof. exact (fin_to _ _ MP). Qed.
  Lemma pb_low j : (j < n)%nat -> low S j = Fin (low T j).
  Proof.
    intros H. destruct (box j H) as (A & B & C & _). subst S T. cbn [mma_problem low]. rewrite A, B, C, (fin_rv n _ H1), (fin_rv n _ H2), (fin_rv n _ HL) by exact H.
    apply low_F.
  Qed.
  Lemma pb_upp j : (j < n)%nat -> upp S j = Fin (upp T j).
  Proof.
    intros H. destruct (box j H) as (A & B & C & _). subst S T. cbn [mma_problem upp]. rewrite A, B, C, (fin_rv n _ H1), (fin_rv n _ H2), (fin_rv n _ HU) by exact H.
    apply upp_F.
  Qed.
  Lemma pb_alfa j : (j < n)%nat -> alfa S j = Fin (alfa T j).
  Proof.
    intros H. destruct (box j H) as (A & B & C & _). destruct move_to as (D & _). change (alfa S j) with (new_alfa (xval j) (low S j) (x_min M j) (x_max M j) (moveLimit M)).
    rewrite (pb_low j H), A, B, C, D. apply alfa_F.
  Qed.
  Lemma pb_beta j : (j < n)%nat -> beta S j = Fin (beta T j).
  Proof.
    intros H. destruct (box j H) as (A & B & C & _). destruct move_to as (D & _). change (beta S j) with (new_beta (xval j) (upp S j) (x_min M j) (x_max M j) (moveLimit M)).
    rewrite (pb_upp j H), A, B, C, D. apply beta_F.
  Qed.
  Lemma pb_real j : (j < n)%nat -> low T j < alfa T j /\ alfa T j <= rv xval j /\ rv xval j <= beta T j /\ beta T j < upp T j /\ rv (x_min M) j <= alfa T j /\
    beta T j <= rv (x_max M) j /\ alfa T j < beta T j /\ rv xval j - to_R (moveLimit M) * (rv (x_max M) j - rv (x_min M) j) <= alfa T j /\
    beta T j <= rv xval j + to_R (moveLimit M) * (rv (x_max M) j - rv (x_min M) j).
  Proof.
    intros H. destruct (box j H) as (_ & _ & _ & D & E). destruct move_to as (_ & G).
    exact (bounds_real (epoch M) (rv xval j) (rv (xold1 M) j) (rv (xold2 M) j) (rv (x_min M) j) (rv (x_max M) j) (rv (lowAsymp M) j) (rv (upAsymp M) j) (to_R (moveLimit M)) D E G).
  Qed.
  Lemma pb_in j : (j < n)%nat -> low T j < rv xval j < upp T j.
  Proof. intros H. pose proof (pb_real j H). lra. Qed.

  Theorem bounds j : (j < n)%nat ->
    xlt (low S j) (alfa S j) /\ xle (alfa S j) (xval j) /\ xle (xval j) (beta S j) /\ xlt (beta S j) (upp S j) /\
    xle (x_min M j) (alfa S j) /\ xle (beta S j) (x_max M j) /\ xlt (alfa S j) (beta S j) /\
    xle (xval j - moveLimit M * (x_max M j - x_min M j))%num (alfa S j) /\ xle (beta S j) (xval j + moveLimit M * (x_max M j - x_min M j))%num.
  Proof.
    intros H. pose proof (pb_real j H) as P. rewrite (pb_low j H), (pb_upp j H), (pb_alfa j H), (pb_beta j H). destruct (box j H) as (A & B & C & _). destruct move_to as (D & _).
    rewrite A, B, C, D. ops. cbn [xadd xsub xmul xopp]. unfold xlt, xle. repeat split; do 2 eexists; (split; [reflexivity|split; [reflexivity|]]); lra.
  Qed.

  (** ** Coefficients and derivatives *)
  Hypothesis GF : each n finite df0dx.
  Hypothesis CF : forall i, (i < m)%nat -> each n finite (dfdx i).
  Hypothesis FF : each m finite fval.
  Lemma pb_p0 j : (j < n)%nat -> p0 S j = Fin (p0 T j).
  Proof.
    intros H. destruct (box j H) as (A & B & C & _). change (p0 S j) with (coef_p (df0dx j) (upp S j) (xval j) (x_min M j) (x_max M j)).
    rewrite (pb_upp j H), A, B, C, (fin_rv n _ GF j H). apply coef_p_F.
  Qed.
  Lemma pb_q0 j : (j < n)%nat -> q0 S j = Fin (q0 T j).
  Proof.
    intros H. destruct (box j H) as (A & B & C & _). change (q0 S j) with (coef_q (df0dx j) (low S j) (xval j) (x_min M j) (x_max M j)).
    rewrite (pb_low j H), A, B, C, (fin_rv n _ GF j H). apply coef_q_F.
  Qed.
  Lemma pb_P i j : (i < m)%nat -> (j < n)%nat -> PP S i j = Fin (PP T i j).
  Proof.
    intros Hi H. destruct (box j H) as (A & B & C & _). change (PP S i j) with (coef_p (dfdx i j) (upp S j) (xval j) (x_min M j) (x_max M j)).
    rewrite (pb_upp j H), A, B, C, (fin_rv n _ (CF i Hi) j H). apply coef_p_F.
  Qed.
  Lemma pb_Q i j : (i < m)%nat -> (j < n)%nat -> QQ S i j = Fin (QQ T i j).
  Proof.
    intros Hi H. destruct (box j H) as (A & B & C & _). change (QQ S i j) with (coef_q (dfdx i j) (low S j) (xval j) (x_min M j) (x_max M j)).
    rewrite (pb_low j H), A, B, C, (fin_rv n _ (CF i Hi) j H). apply coef_q_F.
  Qed.
  Lemma pb_b i : (i < m)%nat -> bb S i = Fin (bb T i).
  Proof.
    intros Hi. change (bb S i) with (@add XF (dot n (PP S i) (fun j => 1 / (upp S j - xval j))%num) (dot n (QQ S i) (fun j => 1 / (xval j - low S j))%num) - fval i)%num.
    rewrite (dot_F n (PP S i) _ (PP T i) (fun j => 1 / (upp T j - rv xval j))%R); [rewrite (dot_F n (QQ S i) _ (QQ T i) (fun j => 1 / (rv xval j - low T j))%R)|..].
    - rewrite (fin_rv m _ FF i Hi). reflexivity.
    - intros j Hj. now apply pb_Q.
    - intros j Hj. rewrite (pb_low j Hj), (proj1 (box j Hj)). ops. cbn [xsub]. apply xdivF. pose proof (pb_in j Hj). lra.
    - intros j Hj. now apply pb_P.
    - intros j Hj. rewrite (pb_upp j Hj), (proj1 (box j Hj)). ops. cbn [xsub]. apply xdivF. pose proof (pb_in j Hj). lra.
  Qed.
  Lemma p0_pos j : (j < n)%nat -> 0 < p0 T j.
  Proof. intros H. apply coef_p_pos. apply (pb_in j H). Qed.
  Lemma q0_pos j : (j < n)%nat -> 0 < q0 T j.
  Proof. intros H. apply coef_q_pos. apply (pb_in j H). Qed.
  Lemma P_pos i j : (j < n)%nat -> 0 < PP T i j.
  Proof. intros H. apply coef_p_pos. apply (pb_in j H). Qed.
  Lemma Q_pos i j : (j < n)%nat -> 0 < QQ T i j.
  Proof. intros H. apply coef_q_pos. apply (pb_in j H). Qed.
End Problem.

(** ** The approximation *)
Lemma set_at_same x j : forall i, set_at x j (x j) i = x i.
Proof. intros i. unfold set_at. destruct (Nat.eqb_spec i j); congruence. Qed.
Lemma dlim_id t : derivable_pt_lim (fun t => t) t 1.
Proof. exact (derivable_pt_lim_id t). Qed.
Lemma dlim_inv (f : R -> R) t f' c : f t <> 0 -> derivable_pt_lim f t f' -> derivable_pt_lim (fun t => c / f t) t (- c * f' / (f t * f t)).
Proof.
  intros N D. pose proof (derivable_pt_lim_div (fun _ => c) f t 0 f' (derivable_pt_lim_const c t) D N) as H.
  replace (- c * f' / (f t * f t)) with ((0 * f t - f' * c) / Rsqr (f t)); [exact H|]. unfold Rsqr. field. exact N.
Qed.
Lemma dlim_plus (f g : R -> R) t f' g' : derivable_pt_lim f t f' -> derivable_pt_lim g t g' -> derivable_pt_lim (fun t => f t + g t) t (f' + g').
Proof. exact (derivable_pt_lim_plus f g t f' g'). Qed.
Lemma dlim_minus (f g : R -> R) t f' g' : derivable_pt_lim f t f' -> derivable_pt_lim g t g' -> derivable_pt_lim (fun t => f t - g t) t (f' - g').
Proof. exact (derivable_pt_lim_minus f g t f' g'). Qed.
Lemma dlim_mult (f g : R -> R) t f' g' : derivable_pt_lim f t f' -> derivable_pt_lim g t g' -> derivable_pt_lim (fun t => f t * g t) t (f' * g t + f t * g').
Proof. exact (derivable_pt_lim_mult f g t f' g'). Qed.
Lemma dlim_const c t : derivable_pt_lim (fun _ => c) t 0.
Proof. exact (derivable_pt_lim_const c t). Qed.
Lemma dlim_val (f : R -> R) t a b : a = b -> derivable_pt_lim f t a -> derivable_pt_lim f t b.
Proof. now intros ->. Qed.
Lemma rsum_single n j v : (j < n)%nat -> rsum n (fun i => if (i =? j)%nat then v else 0) = v.
Proof.
  intros H. induction n as [|n IH]; [lia|]. rewrite (sum_n_S Rops_ring). destruct (Nat.eq_dec j n) as [->|N].
  - rewrite Nat.eqb_refl. rewrite (sum_n_ext (K := Rops) n _ (fun _ => 0)). 2:{ intros i Hi. destruct (Nat.eqb_spec i n); [lia|reflexivity]. }
    rewrite (sum_n_zero Rops_ring). ops. lra.
  - rewrite IH by lia. destruct (Nat.eqb_spec n j); [lia|]. ops. lra.
Qed.
Lemma separable_gradient n p q l u x j : (j < n)%nat -> l j < x j < u j ->
  derivable_pt_lim (fun t => separable n p q l u (set_at x j t)) (x j) (p j / ((u j - x j) * (u j - x j)) - q j / ((x j - l j) * (x j - l j))).
Proof.
  intros Hj B. unfold separable. set (v := p j / ((u j - x j) * (u j - x j)) - q j / ((x j - l j) * (x j - l j))).
  apply dlim_val with (rsum n (fun i => if (i =? j)%nat then v else 0)); [now apply rsum_single|]. apply (dlim_sum_n n). intros i Hi.
  unfold set_at. destruct (Nat.eqb_spec i j) as [->|]; [|apply dlim_const].
  subst v. eapply dlim_val; cycle 1.
  - apply dlim_plus; apply dlim_inv; [|apply dlim_minus; [apply dlim_const|apply dlim_id]| |apply dlim_minus; [apply dlim_id|apply dlim_const]]; lra.
  - cbv beta. field; lra.
Qed.

Lemma inv_convex c a b s : 0 < c -> 0 < a -> 0 < b -> 0 < s < 1 -> c / (s * a + (1 - s) * b) <= s * (c / a) + (1 - s) * (c / b) /\
  (a <> b -> c / (s * a + (1 - s) * b) < s * (c / a) + (1 - s) * (c / b)).
Proof.
  intros C A B (S1 & S2). pose proof (Rmult_lt_0_compat s a S1 A). pose proof (Rmult_lt_0_compat (1 - s) b ltac:(lra) B).
  assert (E : s * (c / a) + (1 - s) * (c / b) - c / (s * a + (1 - s) * b) = c * (s * (1 - s)) * ((a - b) * (a - b)) / (a * b * (s * a + (1 - s) * b))) by (field; lra).
  assert (P : 0 < a * b * (s * a + (1 - s) * b)) by (repeat apply Rmult_lt_0_compat; lra).
  assert (Q : 0 < c * (s * (1 - s))) by (repeat apply Rmult_lt_0_compat; lra).
  split.
  - assert (0 <= c * (s * (1 - s)) * ((a - b) * (a - b)) / (a * b * (s * a + (1 - s) * b))); [|lra]. apply div_ge; [|exact P]. apply Rmult_le_pos; [lra|]. apply Rle_0_sqr.
  - intros N. assert (0 < c * (s * (1 - s)) * ((a - b) * (a - b)) / (a * b * (s * a + (1 - s) * b))); [|lra]. apply div_pos; [|exact P]. apply Rmult_lt_0_compat; [lra|]. apply Rlt_0_sqr. lra.
Qed.
Lemma rsum_le n f g : (forall i, (i < n)%nat -> f i <= g i) -> rsum n f <= rsum n g.
Proof.
  induction n as [|n IH]; intros H; [apply Rle_refl|]. rewrite !(sum_n_S Rops_ring). pose proof (IH ltac:(intros; apply H; lia)). pose proof (H n ltac:(lia)). ops. lra.
Qed.
Lemma rsum_lt n f g j : (j < n)%nat -> (forall i, (i < n)%nat -> f i <= g i) -> f j < g j -> rsum n f < rsum n g.
Proof.
  induction n as [|n IH]; intros Hj H L; [lia|]. rewrite !(sum_n_S Rops_ring). pose proof (rsum_le n f g ltac:(intros; apply H; lia)). pose proof (H n ltac:(lia)).
  destruct (Nat.eq_dec j n) as [->|N]; [ops; lra|]. pose proof (IH ltac:(lia) ltac:(intros; apply H; lia) L). ops. lra.
Qed.
Lemma rsum_lin n f g a b : rsum n (fun i => a * f i + b * g i) = a * rsum n f + b * rsum n g.
Proof. induction n as [|n IH]; [cbn; ring|]. rewrite !(sum_n_S Rops_ring). rewrite IH. ops. ring. Qed.
Lemma separable_convex n p q l u x x' s : (forall j, (j < n)%nat -> 0 < p j /\ 0 < q j /\ l j < x j < u j /\ l j < x' j < u j) -> 0 < s < 1 ->
  (exists j, (j < n)%nat /\ x j <> x' j) ->
  separable n p q l u (fun j => s * x j + (1 - s) * x' j) < s * separable n p q l u x + (1 - s) * separable n p q l u x'.
Proof.
  intros H HS (j & Hj & N). unfold separable. rewrite <- rsum_lin.
  assert (G : forall i, (i < n)%nat ->
    p i / (u i - (s * x i + (1 - s) * x' i)) + q i / (s * x i + (1 - s) * x' i - l i) <= s * (p i / (u i - x i) + q i / (x i - l i)) + (1 - s) * (p i / (u i - x' i) + q i / (x' i - l i)) /\
    (x i <> x' i -> p i / (u i - (s * x i + (1 - s) * x' i)) + q i / (s * x i + (1 - s) * x' i - l i) < s * (p i / (u i - x i) + q i / (x i - l i)) + (1 - s) * (p i / (u i - x' i) + q i / (x' i - l i)))).
  { intros i Hi. destruct (H i Hi) as (P & Q & X & X').
    destruct (inv_convex (p i) (u i - x i) (u i - x' i) s P ltac:(lra) ltac:(lra) HS) as (A1 & A2).
    destruct (inv_convex (q i) (x i - l i) (x' i - l i) s Q ltac:(lra) ltac:(lra) HS) as (B1 & B2).
    replace (u i - (s * x i + (1 - s) * x' i)) with (s * (u i - x i) + (1 - s) * (u i - x' i)) by ring.
    replace (s * x i + (1 - s) * x' i - l i) with (s * (x i - l i) + (1 - s) * (x' i - l i)) by ring.
    split; [lra|]. intros D. pose proof (A2 ltac:(lra)). lra. }
  apply rsum_lt with j; [exact Hj|intros i Hi; apply G; exact Hi|]. apply G; [exact Hj|exact N].
Qed.

Section Approximation.
  Variables m n : nat.
  Variable M : mma XF.
  Variables (xval df0dx fval : nat -> XF) (dfdx : nat -> nat -> XF).
  Hypothesis D : design_ok n M xval.
  Hypothesis V : values_ok m n df0dx fval dfdx.
  Let S := mma_problem n M xval df0dx fval dfdx.
  Let T : subproblem RF := mma_problem (F := RF) n (mkMma (F := RF) (epoch M) (rv (xold1 M)) (rv (xold2 M)) (rv (lowAsymp M)) (rv (upAsymp M)) (rv (x_min M)) (rv (x_max M)) (to_R (moveLimit M))
    (to_R (zconst M)) (rv (zscale M)) (rv (ylinscale M)) (rv (yquadscale M))) (rv xval) (rv df0dx) (rv fval) (fun k => rv (dfdx k)).
  Let D1 := proj1 D. Let D2 := proj1 (proj2 D). Let D3 := proj1 (proj2 (proj2 D)). Let D4 := proj1 (proj2 (proj2 (proj2 D))).
  Let D5 := proj1 (proj2 (proj2 (proj2 (proj2 D)))). Let D6 := proj2 (proj2 (proj2 (proj2 (proj2 D)))).
  Let V1 := proj1 V. Let V2 := proj1 (proj2 V). Let V3 := proj2 (proj2 V).
  Lemma ap_low j : (j < n)%nat -> reals (low S) j = low T j.
  Proof. intros H. unfold reals. subst S. now rewrite (pb_low n M xval df0dx fval dfdx D1 D3 D4 D5 j H). Qed.
  Lemma ap_upp j : (j < n)%nat -> reals (upp S) j = upp T j.
  Proof. intros H. unfold reals. subst S. now rewrite (pb_upp n M xval df0dx fval dfdx D1 D3 D4 D6 j H). Qed.
  Lemma ap_in j : (j < n)%nat -> reals (low S) j < reals xval j < reals (upp S) j.
  Proof. intros H. rewrite (ap_low j H), (ap_upp j H). exact (pb_in n M xval df0dx fval dfdx D1 D2 j H). Qed.
  Lemma ap_p0 j : (j < n)%nat -> p0 S j = Fin (coef_p (F := RF) (reals df0dx j) (reals (upp S) j) (reals xval j) (reals (x_min M) j) (reals (x_max M) j)).
  Proof. intros H. rewrite (ap_upp j H). subst S. now rewrite (pb_p0 n M xval df0dx fval dfdx D1 D3 D4 D6 V1 j H). Qed.
  Lemma ap_q0 j : (j < n)%nat -> q0 S j = Fin (coef_q (F := RF) (reals df0dx j) (reals (low S) j) (reals xval j) (reals (x_min M) j) (reals (x_max M) j)).
  Proof. intros H. rewrite (ap_low j H). subst S. now rewrite (pb_q0 n M xval df0dx fval dfdx D1 D3 D4 D5 V1 j H). Qed.
  Lemma ap_P i j : (i < m)%nat -> (j < n)%nat -> PP S i j = Fin (coef_p (F := RF) (reals (dfdx i) j) (reals (upp S) j) (reals xval j) (reals (x_min M) j) (reals (x_max M) j)).
  Proof. intros Hi H. rewrite (ap_upp j H). subst S. now rewrite (pb_P m n M xval df0dx fval dfdx D1 D3 D4 D6 V3 i j Hi H). Qed.
  Lemma ap_Q i j : (i < m)%nat -> (j < n)%nat -> QQ S i j = Fin (coef_q (F := RF) (reals (dfdx i) j) (reals (low S) j) (reals xval j) (reals (x_min M) j) (reals (x_max M) j)).
  Proof. intros Hi H. rewrite (ap_low j H). subst S. now rewrite (pb_Q m n M xval df0dx fval dfdx D1 D3 D4 D5 V3 i j Hi H). Qed.

  Theorem approx_positive : each n positive (p0 S) /\ each n positive (q0 S) /\ forall i, (i < m)%nat -> each n positive (PP S i) /\ each n positive (QQ S i).
  Proof.
    repeat split; intros j Hj; pose proof (ap_in j Hj) as B.
    - rewrite (ap_p0 j Hj). eexists; split; [reflexivity|]. apply coef_p_pos, B.
    - rewrite (ap_q0 j Hj). eexists; split; [reflexivity|]. apply coef_q_pos, B.
    - rewrite ap_P by assumption. eexists; split; [reflexivity|]. apply coef_p_pos, B.
    - rewrite ap_Q by assumption. eexists; split; [reflexivity|]. apply coef_q_pos, B.
  Qed.
  Theorem approx_objective j : (j < n)%nat ->
    derivable_pt_lim (fun t => separable n (reals (p0 S)) (reals (q0 S)) (reals (low S)) (reals (upp S)) (set_at (reals xval) j t)) (reals xval j) (reals df0dx j).
  Proof.
    intros Hj. pose proof (ap_in j Hj) as B. eapply dlim_val; [|apply separable_gradient; [exact Hj|exact B]].
    assert (E1 := f_equal to_R (ap_p0 j Hj)). assert (E2 := f_equal to_R (ap_q0 j Hj)). cbn [to_R] in E1, E2.
    change (reals (p0 S) j) with (to_R (p0 S j)). change (reals (q0 S) j) with (to_R (q0 S j)). rewrite E1, E2. apply coef_diff; apply B.
  Qed.
  Theorem approx_constraint i j : (i < m)%nat -> (j < n)%nat ->
    derivable_pt_lim (fun t => separable n (reals (PP S i)) (reals (QQ S i)) (reals (low S)) (reals (upp S)) (set_at (reals xval) j t) - to_R (bb S i)) (reals xval j) (reals (dfdx i) j).
  Proof.
    intros Hi Hj. pose proof (ap_in j Hj) as B. eapply dlim_val; [|apply dlim_minus; [apply separable_gradient; [exact Hj|exact B]|apply dlim_const]].
    assert (E1 := f_equal to_R (ap_P i j Hi Hj)). assert (E2 := f_equal to_R (ap_Q i j Hi Hj)). cbn [to_R] in E1, E2. rewrite Rminus_0_r.
    change (reals (PP S i) j) with (to_R (PP S i j)). change (reals (QQ S i) j) with (to_R (QQ S i j)). rewrite E1, E2. apply coef_diff; apply B.
  Qed.
  Theorem approx_value i : (i < m)%nat ->
    separable n (reals (PP S i)) (reals (QQ S i)) (reals (low S)) (reals (upp S)) (reals xval) - to_R (bb S i) = to_R (fval i).
  Proof.
    intros Hi. assert (Eb : to_R (bb S i) = bb T i) by (unfold S; now rewrite (pb_b m n M xval df0dx fval dfdx D1 D2 D3 D4 D5 D6 V3 V2 i Hi)). rewrite Eb.
    assert (E : bb T i = rsum n (fun j => PP T i j * (1 / (upp T j - rv xval j))) + rsum n (fun j => QQ T i j * (1 / (rv xval j - low T j))) - rv fval i) by reflexivity.
    rewrite E. cbn [to_R]. unfold separable. 
    rewrite (sum_n_ext (K := Rops) n _ (fun j => 1 * (PP T i j * (1 / (upp T j - rv xval j))) + 1 * (QQ T i j * (1 / (rv xval j - low T j))))).
    - rewrite rsum_lin. unfold rv. ops. ring.
    - intros j Hj. rewrite (ap_low j Hj), (ap_upp j Hj). change (reals (PP S i) j) with (to_R (PP S i j)). change (reals (QQ S i) j) with (to_R (QQ S i j)). subst S.
      rewrite (pb_P m n M xval df0dx fval dfdx D1 D3 D4 D6 V3 i j Hi Hj), (pb_Q m n M xval df0dx fval dfdx D1 D3 D4 D5 V3 i j Hi Hj). cbn [to_R]. fold T. change (reals xval j) with (rv xval j). unfold Rdiv. ops. ring.
  Qed.
  Lemma pos_nonneg k u : each k positive u -> each k nonneg u.
  Proof. intros H i Hi. destruct (H i Hi) as (r & E & P). exists r. split; [exact E|lra]. Qed.
  Theorem approx_well_posed : scaling_ok m M -> well_posed m n S.
  Proof.
    intros (Z & A & Y & Q). destruct approx_positive as (P1 & P2 & P3).
    split; [|split; [now apply pos_nonneg|split; [now apply pos_nonneg|split; [|split; [exact Z|split; [exact A|split; [|split; [exact Y|exact Q]]]]]]]].
    - intros j Hj. pose proof (bounds n M xval df0dx fval dfdx D1 D2 D3 D4 D5 D6 j Hj) as B. fold S in B. tauto.
    - intros i Hi. split; apply pos_nonneg; now apply P3.
    - intros i Hi. subst S. rewrite (pb_b m n M xval df0dx fval dfdx D1 D2 D3 D4 D5 D6 V3 V2 i Hi). eexists; split; [reflexivity|exact I].
  Qed.
End Approximation.

(** ** Interior points *)
Section Interior.
  Variables m n : nat.
  Variable S : subproblem XF.
  Variable solve : nat -> (nat -> nat -> XF) -> (nat -> XF) -> result (nat -> XF).
  Hypothesis W : well_posed m n S.
  Hypothesis SF : solves_finite solve.
  Let ES := proj1 (well_posed_real m n S W).
  Let OK := proj2 (well_posed_real m n S W).
  Lemma good_interior st : good m n (real_S S) st <-> interior m n S st.
  Proof.
    split; [intros (rt & E & I); exact (interior_back m n S (real_S S) st rt ES E I)|].
    intros H. destruct (interior_real m n S st ES H) as (E & I). exists (real_st st). auto.
  Qed.
  Theorem visited_interior st : visited m n S solve st -> interior m n S st.
  Proof.
    intros H. apply good_interior. induction H as [|st e d steg j _ (rt & ET & IN) ED EG]; [exact (start_good m n S _ ES OK)|].
    destruct (trial m n S _ ES OK solve SF st rt e d steg ET IN ED EG) as (rd & t & SD & -> & (T1 & T2) & _ & Q).
    assert (P : 1 <= 2 ^ j) by (apply pow_R1_Rle; lra). rewrite xdivF by lra. eexists. split; [apply move_F; eassumption|].
    apply Q; [apply div_pos; lra|]. apply (Rmult_le_reg_r (2 ^ j)); [lra|]. unfold Rdiv. rewrite Rmult_assoc, Rinv_l, Rmult_1_r by lra.
    pose proof (Rmult_le_compat_l t 1 (2 ^ j) ltac:(lra) P). lra.
  Qed.
  (** all points of the loops are visited points *)
  Lemma search_visited k e old d steg : visited m n S solve old -> direction m n S (Fin e : XF) old solve = Ok d -> first_steg m n S old d = Ok steg ->
    forall j r0 r1 cur r, visited m n S solve cur -> visited m n S solve (it_st (search m n S k (Fin e : XF) old d r0 (xdiv steg (Fin (2 ^ j))) r1 cur r)).
  Proof.
    intros VO ED EG. assert (IO := visited_interior old VO). apply good_interior in IO as (rt & ET & IN).
    destruct (trial m n S _ ES OK solve SF old rt e d steg ET IN ED EG) as (rd & t & SD & E & (T1 & T2) & _ & _).
    induction k as [|k IH]; intros j r0 r1 cur r VC; [exact VC|]. cbn [search]. destruct (ltb r0 r1); [|exact VC].
    assert (H : @div XF (xdiv steg (Fin (2 ^ j))) (@lit XF 2) = xdiv steg (Fin (2 ^ Datatypes.S j))).
    { assert (1 <= 2 ^ j) by (apply pow_R1_Rle; lra). subst steg. ops. rewrite (xdivF t (2 ^ j)) by lra. rewrite xdivF by lra. rewrite xdivF by (cbn [pow]; lra). f_equal. cbn [pow]. field. lra. }
    rewrite H. apply IH. now apply (visited_trial m n S solve old e d steg j).
  Qed.
  Lemma inner_step_visited e it it' : visited m n S solve (it_st it) -> inner_step m n S solve (Fin e : XF) it = Ok it' -> visited m n S solve (it_st it').
  Proof.
    intros VO E. unfold inner_step in E. destruct (direction m n S (Fin e : XF) (it_st it) solve) as [d|] eqn:D; [|discriminate]. unfold bind in E; cbv beta iota in E.
    destruct (first_steg m n S (it_st it) d) as [steg|] eqn:G; [|discriminate]. apply Ok_inj in E. subst it'.
    assert (IO := visited_interior _ VO). apply good_interior in IO as (rt & ET & IN). destruct (trial m n S _ ES OK solve SF _ rt e d steg ET IN D G) as (rd & t & SD & E & (T1 & T2) & _ & _).
    pose proof (search_visited 50 e _ d steg VO D G 0 (it_norm it) (lit 2 * it_norm it)%num (it_st it) (it_residu it) VO) as H.
    replace (xdiv steg (Fin (2 ^ 0))) with steg in H; [exact H|]. subst steg. cbn [pow]. rewrite xdivF by lra. f_equal. field.
  Qed.
  Lemma inner_visited k e : forall rmax it it', visited m n S solve (it_st it) -> inner m n S solve k (Fin e : XF) rmax it = Ok it' -> visited m n S solve (it_st it').
  Proof.
    induction k as [|k IH]; intros rmax it it' G; cbn [inner]; destruct (ltb _ rmax); intros E; try (apply Ok_inj in E; now subst it').
    destruct (inner_step m n S solve (Fin e : XF) it) as [it1|] eqn:E1; [|discriminate]. unfold bind in E; cbv beta iota in E.
    destruct (py_maxl _) as [rm|] eqn:E2; [|discriminate]. apply (IH rm it1 it'); [|exact E]. exact (inner_step_visited _ _ _ G E1).
  Qed.
  Lemma outer_visited fuel emin : forall e st st', visited m n S solve st -> outer m n S solve fuel emin (Fin e : XF) st = Done (Ok st') -> visited m n S solve st'.
  Proof.
    induction fuel as [|f IH]; intros e st st' G; cbn [outer]; destruct (ltb emin _); try discriminate; try (intros E; assert (st = st') by congruence; now subst st').
    destruct (outer_step m n S solve (Fin e : XF) st) as [st1|] eqn:E1; [|discriminate]. intros E. apply (IH (1 / 10 * e)%R st1 st'); [|exact E].
    revert E1. unfold outer_step. destruct (np_max _) as [rm|]; [|discriminate]. unfold bind; cbv beta iota. destruct (inner _ _ _ _ _ _ _ _) as [it|] eqn:E2; [|discriminate].
    intros H. apply Ok_inj in H. subst st1. apply (inner_visited _ _ _ _ _ ) in E2; [exact E2|exact G].
  Qed.
  Theorem subsolv_visited fuel emin st : subsolv m n S solve fuel emin = Done (Ok st) -> visited m n S solve st.
  Proof. unfold subsolv. apply outer_visited. constructor. Qed.
  Theorem subsolv_interior fuel emin st : subsolv m n S solve fuel emin = Done (Ok st) -> interior m n S st.
  Proof. intros H. apply visited_interior. exact (subsolv_visited _ _ _ H). Qed.
End Interior.

(** ** The loop over epsi *)
Lemma outer_ends m n S solve (emin : R) : forall k (e : R) fuel st, (0 < e) -> e * (1 / 10) ^ k <= emin -> (k <= fuel)%nat ->
  outer m n S solve fuel (Fin emin : XF) (Fin e : XF) st <> Running.
Proof.
  induction k as [|k IH]; intros e fuel st E L F.
  - cbn [pow] in L. destruct fuel; cbn [outer]; ops; cbn [xltb]; replace (Rltb emin e) with false by (symmetry; apply Rltb_false; lra); discriminate.
  - destruct fuel as [|fuel]; [lia|]. cbn [outer]. destruct (ltb _ _); [|discriminate]. destruct (outer_step _ _ _ _ _ _) as [st1|]; [|discriminate].
    ops. cbn [xmul]. apply IH; [lra| |lia]. cbn [pow] in L. lra.
Qed.
Theorem subsolv_ends m n S solve (emin : R) : 0 < emin -> exists f, forall fuel, (f <= fuel)%nat -> subsolv m n S solve fuel (Fin emin : XF) <> Running.
Proof.
  intros H. destruct (pow_lt_1_zero (1 / 10) ltac:(rewrite Rabs_pos_eq; lra) emin H) as (k & K). exists k. intros fuel F. unfold subsolv.
  apply (outer_ends m n S solve emin k 1 fuel); [lra| |exact F]. specialize (K k (Nat.le_refl k)). apply Rabs_def2 in K. lra.
Qed.
Theorem subsolv_seven m n S solve fuel : (7 <= fuel)%nat -> subsolv m n S solve fuel (Fin (1 / 10000000) : XF) <> Running.
Proof. intros F. apply (outer_ends m n S solve _ 7 1 fuel); [lra|lra|exact F]. Qed.

(** ** Asymptotes *)
Lemma clamp1 lo hi y : lo <= hi -> clamped lo hi y (Rmax (Rmin y hi) lo).
Proof.
  intros H. unfold clamped. split; [split; [apply Rmax_r|apply Rmax_lub; [apply Rmin_r|exact H]]|]. split; [|split]; intros L.
  - rewrite Rmin_left, Rmax_left; lra.
  - rewrite Rmin_left, Rmax_right; lra.
  - rewrite Rmin_right, Rmax_left; lra.
Qed.
Lemma asymptotes : forall n M xval df0dx fval dfdx j, design_ok n M xval -> (j < n)%nat ->
  let S := mma_problem n M xval df0dx fval dfdx in
  let x := reals xval j in let x1 := reals (xold1 M) j in let x2 := reals (xold2 M) j in let width := reals (x_max M) j - reals (x_min M) j in
  ((epoch M <= 2)%nat -> low S j = Fin (x - width / 2) /\ upp S j = Fin (x + width / 2)) /\
  ((2 < epoch M)%nat -> forall g, ((x - x1) * (x1 - x2) < 0 -> g = 7 / 10) -> (0 < (x - x1) * (x1 - x2) -> g = 12 / 10) -> ((x - x1) * (x1 - x2) = 0 -> g = 1) ->
    exists a b, low S j = Fin (x - a) /\ upp S j = Fin (x + b) /\
      clamped (width / 100) (10 * width) (g * (x1 - reals (lowAsymp M) j)) a /\ clamped (width / 100) (10 * width) (g * (reals (upAsymp M) j - x1)) b).
Proof.
  intros n M xval df0dx fval dfdx j (D1 & _ & D3 & D4 & D5 & D6) Hj. cbv zeta. destruct (D1 j Hj) as ((lo & x & Elo & Ex & L1) & (x' & hi & Ex' & Ehi & L2) & (lo' & hi' & Elo' & Ehi' & L3)).
  rewrite Ex in Ex'. injection Ex' as <-. rewrite Elo in Elo'. injection Elo' as <-. rewrite Ehi in Ehi'. injection Ehi' as <-.
  destruct (D3 j Hj) as (x1 & E1 & _). destruct (D4 j Hj) as (x2 & E2 & _). destruct (D5 j Hj) as (l0 & E3 & _). destruct (D6 j Hj) as (u0 & E4 & _).
  unfold reals. cbn [low upp mma_problem]. rewrite Ex, Elo, Ehi, E1, E2, E3, E4, low_F, upp_F. cbn [to_R]. split.
  - intros EP. unfold new_low, new_upp. rewrite (proj2 (Nat.leb_le _ _) EP). ops. split; f_equal; lra.
  - intros EP g G1 G2 G3. unfold new_low, new_upp. rewrite (proj2 (Nat.leb_gt _ _) EP). ops.
    assert (FG : factor (F := RF) ((x - x1) * (x1 - x2)) = g).
    { unfold factor. ops. destruct (Rltb _ 0) eqn:Z1; [apply Rltb_true in Z1; symmetry; now apply G1|]. destruct (Rltb 0 _) eqn:Z2; [apply Rltb_true in Z2; symmetry; now apply G2|].
      apply Rltb_false in Z1, Z2. symmetry. apply G3. lra. }
    rewrite FG.
    exists (Rmax (Rmin (g * (x1 - l0)) (10 * (hi - lo))) ((hi - lo) / 100)), (Rmax (Rmin (g * (u0 - x1)) (10 * (hi - lo))) ((hi - lo) / 100)).
    split; [|split; [|split; apply clamp1; lra]]; f_equal.
    + unfold Rmax, Rmin. repeat destruct Rle_dec; lra.
    + unfold Rmax, Rmin. repeat destruct Rle_dec; lra.
Qed.
