(** Strongly monotone systems have exactly one solution, for C85. *)
From Coq Require Import Reals List Arith Lia Lra Bool.
From Verif Require Import Num Arr Fe Problem ProblemFacts SpecAssembly SpecWeak SpecEnergy EnergyFacts Elastic ElasticFacts LinAlg.
Import ListNotations.
Local Open Scope R_scope.
Local Notation sum n g := (sum_n (K := Rops) n g).
Local Ltac rr := cbv beta; req; try change (car Rops) with R; ring.

Lemma cv_const_zero (u : nat -> R) c : Un_cv u 0 -> (forall j, c <= u j) -> c <= 0.
Proof.
  intros H L. destruct (Rle_lt_dec c 0) as [|C]; [assumption|]. destruct (H c C) as (N & HN). specialize (HN N (Nat.le_refl _)). unfold R_dist in HN. rewrite Rminus_0_r in HN.
  pose proof (L N). pose proof (Rle_abs (u N)). lra.
Qed.
Lemma cv_sum n (u : nat -> nat -> R) (l : nat -> R) : (forall g, (g < n)%nat -> Un_cv (fun j => u j g) (l g)) -> Un_cv (fun j => sum n (u j)) (sum n l).
Proof.
  induction n as [|n IH]; intros H.
  - intros e E. exists 0%nat. intros k _. unfold R_dist. cbn. rewrite Rminus_0_r, Rabs_R0. exact E.
  - rewrite (sum_n_S Rops_ring). change (@add Rops) with Rplus. pose proof (CV_plus _ _ _ _ (IH (fun g Hg => H g (Nat.lt_trans _ _ _ Hg (Nat.lt_succ_diag_r n)))) (H n (Nat.lt_succ_diag_r n))) as C.
    intros e E. destruct (C e E) as (N & HN). exists N. intros k Hk. rewrite (sum_n_S Rops_ring). exact (HN k Hk).
Qed.
Lemma geometric_cauchy (u : nat -> R) c s : 0 <= c -> 0 <= s < 1 -> (forall j, Rabs (u (S j) - u j) <= c * s ^ j) -> Cauchy_crit u.
Proof.
  intros C0 S0 H.
  assert (G : forall p j, Rabs (u (j + p)%nat - u j) <= c * s ^ j / (1 - s)).
  { assert (G1 : forall p j, Rabs (u (j + p)%nat - u j) <= c * s ^ j * (1 - s ^ p) / (1 - s)).
    { induction p as [|p IH]; intros j.
      - rewrite Nat.add_0_r. unfold Rminus at 1. rewrite Rplus_opp_r, Rabs_R0. cbn [pow]. right. field. lra.
      - replace (u (j + S p)%nat - u j) with ((u (S j + p)%nat - u (S j)) + (u (S j) - u j)) by (rewrite Nat.add_succ_r; cbn; ring).
        apply Rle_trans with (1 := Rabs_triang _ _). pose proof (IH (S j)). pose proof (H j).
        replace (c * s ^ j * (1 - s ^ S p) / (1 - s)) with (c * s ^ S j * (1 - s ^ p) / (1 - s) + c * s ^ j); [lra|]. cbn [pow]. field. lra. }
    intros p j. apply Rle_trans with (1 := G1 p j). unfold Rdiv. apply Rmult_le_compat_r; [left; apply Rinv_0_lt_compat; lra|].
    assert (0 <= s ^ p) by (apply pow_le; lra). assert (0 <= c * s ^ j) by (apply Rmult_le_pos; [lra|apply pow_le; lra]). nra. }
  intros e E. destruct (pow_lt_1_zero s ltac:(rewrite Rabs_pos_eq; lra) (e * (1 - s) / (c + 1)) ltac:(apply Rdiv_lt_0_compat; [apply Rmult_lt_0_compat|]; lra)) as (N & HN).
  assert (K : forall j, (j >= N)%nat -> c * s ^ j / (1 - s) < e).
  { intros j Hj. specialize (HN j Hj). rewrite Rabs_pos_eq in HN by (apply pow_le; lra).
    assert (P : 0 <= s ^ j) by (apply pow_le; lra).
    apply (Rmult_lt_compat_r (c + 1)) in HN; [|lra]. replace (e * (1 - s) / (c + 1) * (c + 1)) with (e * (1 - s)) in HN by (field; lra).
    apply (Rmult_lt_reg_r (1 - s)); [lra|]. replace (c * s ^ j / (1 - s) * (1 - s)) with (c * s ^ j) by (field; lra). nra. }
  exists N. intros a b Ha Hb. unfold R_dist. destruct (Nat.le_gt_cases a b).
  - rewrite Rabs_minus_sym. replace b with (a + (b - a))%nat by lia. apply Rle_lt_trans with (1 := G _ _). now apply K.
  - replace a with (b + (a - b))%nat by lia. apply Rle_lt_trans with (1 := G _ _). now apply K.
Qed.
Lemma finite_choice {A} n (P : nat -> A -> Prop) (d : A) : (forall g, (g < n)%nat -> exists a, P g a) -> exists s : nat -> A, forall g, (g < n)%nat -> P g (s g).
Proof.
  induction n as [|n IH]; intros H; [exists (fun _ => d); intros; lia|]. destruct IH as (s & HS); [auto|]. destruct (H n (Nat.lt_succ_diag_r n)) as (a & Ha).
  exists (fun g => if (g =? n)%nat then a else s g). intros g Hg. destruct (Nat.eqb_spec g n) as [->|N]; [exact Ha|]. apply HS. lia.
Qed.

Section Mono.
  Variables (n : nat) (held : nat -> option R).
  Variable a : (nat -> R) -> (nat -> R) -> R.
  Definition heldz (x : nat -> R) : Prop := forall g b, (g < n)%nat -> held g = Some b -> x g = 0.
  Hypothesis a_lin : forall x v t y, a (fun g => x g + t * v g) y = a x y + t * a v y.
  Hypothesis a_sym : forall x y, a x y = a y x.
  Hypothesis a_nn : forall x, 0 <= a x x.
  Hypothesis a_ext : forall x x' y, (forall g, (g < n)%nat -> x g = x' g) -> a x y = a x' y.
  Hypothesis a_def : forall x, heldz x -> a x x = 0 -> forall g, (g < n)%nat -> x g = 0.
  Variable F : (nat -> R) -> nat -> R.
  Definition wk (x v : nat -> R) : R := sum n (fun g => v g * F x g).
  Variables k L : R.
  Hypothesis K0 : 0 < k.
  Hypothesis KL : k <= L.
  Let sub (x y : nat -> R) : nat -> R := fun g => x g + (-1) * y g.
  Hypothesis mono : forall x y, heldz (sub x y) -> k * a (sub x y) (sub x y) <= wk x (sub x y) - wk y (sub x y).
  Hypothesis lip : forall x y v, heldz (sub x y) -> heldz v -> (wk x v - wk y v) * (wk x v - wk y v) <= L * L * a (sub x y) (sub x y) * a v v.

  Lemma a_zero y : a (fun _ => 0) y = 0.
  Proof.
    pose proof (a_lin (fun _ => 0) (fun _ => 0) 1 y) as H. rewrite (a_ext (fun g => 0 + 1 * 0) (fun _ => 0)) in H by (intros; ring). lra.
  Qed.
  Lemma a_scale t v y : a (fun g => t * v g) y = t * a v y.
  Proof. rewrite (a_ext _ (fun g => 0 + t * v g)) by (intros; ring). rewrite (a_lin (fun _ => 0)), a_zero. ring. Qed.
  Lemma a_sum N (c : nat -> R) (v : nat -> nat -> R) y : a (fun h => sum N (fun g => c g * v g h)) y = sum N (fun g => c g * a (v g) y).
  Proof.
    induction N as [|N IH]; [exact (a_zero y)|]. rewrite (sum_n_S Rops_ring), <- IH. change (@add Rops) with Rplus. rewrite <- a_lin. apply a_ext. intros h Hh. rewrite (sum_n_S Rops_ring). reflexivity.
  Qed.
  Lemma unit_sum (x : nat -> R) h : (h < n)%nat -> sum n (fun g => x g * unit_at g h) = x h.
  Proof.
    intros Hh. rewrite <- (Rsum_delta n h x Hh). apply Rsum_ext. intros g Hg. unfold unit_at. rewrite (Nat.eqb_sym g h). apply Rmult_comm.
  Qed.
  Lemma a_units x y : a x y = sum n (fun g => x g * a (unit_at g) y).
  Proof. rewrite <- (a_sum n x unit_at y). apply a_ext. intros h Hh. symmetry. now apply unit_sum. Qed.
  Lemma a_right x y : a x y = sum n (fun g => y g * a x (unit_at g)).
  Proof. rewrite a_sym, a_units. apply Rsum_ext. intros g Hg. now rewrite a_sym. Qed.
  Lemma cauchy x y : a x y * a x y <= a x x * a y y.
  Proof.
    pose proof (a_nn (fun g => a y y * x g + (- a x y) * y g)) as H.
    assert (E : forall z, a (fun g => a y y * x g + (- a x y) * y g) z = a y y * a x z - a x y * a y z).
    { intros z. rewrite (a_lin (fun g => a y y * x g)), a_scale. ring. }
    set (X := fun g => a y y * x g + (- a x y) * y g) in *. rewrite E, (a_sym x X), (a_sym y X), !E, (a_sym y x) in H.
    assert (H2 : 0 <= a y y * (a x x * a y y - a x y * a x y)) by lra.
    pose proof (a_nn y) as Y. destruct Y as [Y|Y].
    - apply Rmult_le_reg_l with (a y y); [exact Y|]. lra.
    - assert (Z : a x y = 0); [|rewrite Z, <- Y; lra].
      pose proof (a_nn x) as XN.
      assert (Q : forall t, 0 <= a x x + 2 * t * a x y).
      { intros t. pose proof (a_nn (fun g => x g + t * y g)) as N. assert (E3 : forall z, a (fun g => x g + t * y g) z = a x z + t * a y z) by (intros; apply a_lin). set (X' := fun g => x g + t * y g) in *.
        rewrite E3, (a_sym x X'), (a_sym y X'), !E3, (a_sym y x), <- Y in N. lra. }
      destruct (Req_dec (a x y) 0) as [|NZ]; [assumption|]. exfalso. pose proof (Q (- (a x x + 1) / (2 * a x y))) as Q1.
      replace (2 * (- (a x x + 1) / (2 * a x y)) * a x y) with (- (a x x + 1)) in Q1 by (field; exact NZ). lra.
  Qed.
  Lemma riesz_one l : exists r, heldz r /\ forall v, heldz v -> a r v = sum n (fun g => v g * l g).
  Proof.
    destruct (definite_solvable n (fun g h => a (unit_at h) (unit_at g)) l (fun g => match held g with Some _ => Some 0 | None => None end)) as (r & R1 & R2).
    - intros x HX Q. apply a_def; [intros g b Hg Hb; apply (HX g 0 Hg); now rewrite Hb|]. rewrite <- Q. rewrite a_right. apply Rsum_ext. intros g Hg. f_equal. rewrite a_units. apply Rsum_ext. intros h Hh. apply Rmult_comm.
    - exists r. split; [intros g b Hg Hb; apply (R1 g 0 Hg); now rewrite Hb|]. intros v HV. rewrite a_right. apply Rsum_ext. intros g Hg. destruct (held g) as [b|] eqn:E.
      + rewrite (HV g b Hg E). ring.
      + f_equal. rewrite <- (R2 g Hg) by now rewrite E. rewrite a_units. apply Rsum_ext. intros h Hh. apply Rmult_comm.
  Qed.
  Lemma riesz_all : exists Rm : nat -> nat -> R, forall g, (g < n)%nat -> heldz (Rm g) /\ forall v, heldz v -> a (Rm g) v = v g.
  Proof.
    apply (finite_choice n (fun g r => heldz r /\ forall v, heldz v -> a r v = v g) (fun _ => 0)). intros g Hg. destruct (riesz_one (unit_at g)) as (r & H1 & H2).
    exists r. split; [exact H1|]. intros v HV. rewrite (H2 v HV). rewrite <- (Rsum_delta n g v Hg). apply Rsum_ext. intros h Hh. unfold unit_at. apply Rmult_comm.
  Qed.
  Section Iter.
    Variable Rm : nat -> nat -> R.
    Hypothesis RM : forall g, (g < n)%nat -> heldz (Rm g) /\ forall v, heldz v -> a (Rm g) v = v g.
    Let rz (l : nat -> R) : nat -> R := fun h => sum n (fun g => l g * Rm g h).
    Lemma rz_held l : heldz (rz l).
    Proof.
      intros h b Hh Hb. unfold rz. transitivity (sum n (fun _ => 0 * 0)); [|rewrite Rsum_mul; rr]. apply Rsum_ext. intros g Hg. rewrite (proj1 (RM g Hg) h b Hh Hb). ring.
    Qed.
    Lemma rz_a l v : heldz v -> a (rz l) v = sum n (fun g => v g * l g).
    Proof. intros HV. unfold rz. rewrite a_sum. apply Rsum_ext. intros g Hg. rewrite (proj2 (RM g Hg) v HV). apply Rmult_comm. Qed.
    Let t := k / (L * L).
    Let q := 1 - k * k / (L * L).
    Lemma L0 : 0 < L * L. Proof. assert (0 < L) by lra. now apply Rmult_lt_0_compat. Qed.
    Lemma q_range : 0 <= q < 1.
    Proof.
      pose proof L0. unfold q. assert (A : k * k / (L * L) <= 1). { apply (Rmult_le_reg_r (L * L)); [lra|]. replace (k * k / (L * L) * (L * L)) with (k * k) by (field; lra). nra. }
      assert (0 < k * k / (L * L)) by (apply Rdiv_lt_0_compat; [now apply Rmult_lt_0_compat|assumption]). lra.
    Qed.
    Let T (x : nat -> R) : nat -> R := fun h => x h + (- t) * rz (F x) h.
    Lemma contract x y : heldz (sub x y) -> heldz (sub (T x) (T y)) /\ a (sub (T x) (T y)) (sub (T x) (T y)) <= q * a (sub x y) (sub x y).
    Proof.
      intros HE. set (e := sub x y) in *. set (rho := rz (fun g => F x g + (-1) * F y g)).
      assert (HR : heldz rho) by apply rz_held.
      assert (ET : forall g, sub (T x) (T y) g = e g + (- t) * rho g).
      { intros g. unfold sub, T, e, rho, sub, rz.
        assert (E : sum n (fun g0 => (F x g0 + -1 * F y g0) * Rm g0 g) = sum n (fun g0 => F x g0 * Rm g0 g) + (-1) * sum n (fun g0 => F y g0 * Rm g0 g)).
        { rewrite <- Rsum_mul, <- Rsum_plus. apply Rsum_ext. intros; rr. }
        rewrite E. ring. }
      assert (AR : forall v, heldz v -> a rho v = wk x v - wk y v).
      { intros v HV. unfold rho. rewrite (rz_a _ v HV). unfold wk. unfold Rminus. replace (- sum n (fun g => v g * F y g)) with ((-1) * sum n (fun g => v g * F y g)) by rr. rewrite <- Rsum_mul, <- Rsum_plus. apply Rsum_ext. intros; rr. }
      split; [intros g b Hg Hb; rewrite ET, (HE g b Hg Hb), (HR g b Hg Hb); ring|].
      assert (E1 : forall z, a (sub (T x) (T y)) z = a e z + (- t) * a rho z).
      { intros z. rewrite <- a_lin. apply a_ext. intros g Hg. apply ET. }
      rewrite E1, (a_sym e (sub (T x) (T y))), (a_sym rho (sub (T x) (T y))), !E1, (a_sym rho e).
      pose proof (mono x y HE) as M. fold e in M. rewrite <- (AR e HE) in M. rewrite (a_sym rho e) in M.
      pose proof (lip x y rho HE HR) as LP. fold e in LP. rewrite <- (AR rho HR) in LP.
      assert (B : a rho rho <= L * L * a e e).
      { destruct (a_nn rho) as [P|P]; [apply (Rmult_le_reg_r (a rho rho)); [exact P|exact LP]|]. rewrite <- P. apply Rmult_le_pos; [left; apply L0|apply a_nn]. }
      assert (TP : 0 < t) by (apply Rdiv_lt_0_compat; [exact K0|apply L0]).
      pose proof L0 as LL.
      assert (TT : t * (L * L) = k) by (unfold t; field; lra).
      assert (QQ : q = 1 - t * k) by (unfold q, t; field; lra). rewrite QQ.
      assert (TB : t * (t * a rho rho) <= t * (k * a e e)).
      { apply Rmult_le_compat_l; [lra|]. rewrite <- TT. rewrite Rmult_assoc. apply Rmult_le_compat_l; lra. }
      assert (TM : t * (k * a e e) <= t * a e rho) by (apply Rmult_le_compat_l; lra).
      lra.
    Qed.
    Lemma coord v g : heldz v -> (g < n)%nat -> v g * v g <= a (Rm g) (Rm g) * a v v.
    Proof. intros HV Hg. rewrite <- (proj2 (RM g Hg) v HV). apply cauchy. Qed.
    Let start : nat -> R := fun g => match held g with Some b => b | None => 0 end.
    Fixpoint iter (j : nat) : nat -> R := match j with O => start | S i => T (iter i) end.
    Lemma iter_held j : forall g b, (g < n)%nat -> held g = Some b -> iter j g = b.
    Proof.
      induction j as [|j IH]; intros g b Hg Hb; cbn [iter]; [unfold start; now rewrite Hb|]. unfold T. rewrite (IH g b Hg Hb), (rz_held _ g b Hg Hb). ring.
    Qed.
    Lemma agree_held x y : (forall g b, (g < n)%nat -> held g = Some b -> x g = b) -> (forall g b, (g < n)%nat -> held g = Some b -> y g = b) -> heldz (sub x y).
    Proof. intros HX HY g b Hg Hb. unfold sub. rewrite (HX g b Hg Hb), (HY g b Hg Hb). ring. Qed.
    Let d0 := a (sub (iter 1) (iter 0)) (sub (iter 1) (iter 0)).
    Lemma iter_steps j : a (sub (iter (S j)) (iter j)) (sub (iter (S j)) (iter j)) <= q ^ j * d0.
    Proof.
      induction j as [|j IH]; [cbn [pow]; unfold d0; lra|]. cbn [pow]. pose proof q_range.
      apply Rle_trans with (q * a (sub (iter (S j)) (iter j)) (sub (iter (S j)) (iter j))).
      - apply contract. apply agree_held; apply iter_held.
      - rewrite Rmult_assoc. apply Rmult_le_compat_l; lra.
    Qed.
    Lemma iter_cauchy g : (g < n)%nat -> Cauchy_crit (fun j => iter j g).
    Proof.
      intros Hg. pose proof q_range as QR. assert (D0 : 0 <= d0) by apply a_nn. assert (C0 : 0 <= a (Rm g) (Rm g)) by apply a_nn.
      apply (geometric_cauchy _ (sqrt (a (Rm g) (Rm g) * d0)) (sqrt q)); [apply sqrt_pos| |].
      - split; [apply sqrt_pos|]. rewrite <- sqrt_1. apply sqrt_lt_1_alt. lra.
      - intros j. assert (HS : heldz (sub (iter (S j)) (iter j))) by (apply agree_held; apply iter_held).
        pose proof (coord _ g HS Hg) as C. pose proof (iter_steps j) as I.
        assert (E : sub (iter (S j)) (iter j) g = iter (S j) g - iter j g) by (unfold sub; ring). rewrite E in C.
        apply Rsqr_incr_0_var; [|apply Rmult_le_pos; [apply sqrt_pos|apply pow_le, sqrt_pos]]. rewrite <- Rsqr_abs. unfold Rsqr.
        apply Rle_trans with (1 := C). apply Rle_trans with (a (Rm g) (Rm g) * (q ^ j * d0)); [now apply Rmult_le_compat_l|].
        right. replace (sqrt (a (Rm g) (Rm g) * d0) * sqrt q ^ j * (sqrt (a (Rm g) (Rm g) * d0) * sqrt q ^ j)) with ((sqrt (a (Rm g) (Rm g) * d0) * sqrt (a (Rm g) (Rm g) * d0)) * (sqrt q ^ j * sqrt q ^ j)) by ring.
        rewrite sqrt_sqrt by (now apply Rmult_le_pos). rewrite <- Rpow_mult_distr, sqrt_sqrt by lra. ring.
    Qed.
    Theorem iter_solves : exists x, (forall g b, (g < n)%nat -> held g = Some b -> x g = b) /\ forall g, (g < n)%nat -> held g = None -> F x g = 0.
    Proof.
      set (x := fun g => match lt_dec g n with left H => proj1_sig (R_complete _ (iter_cauchy g H)) | right _ => 0 end).
      assert (CV : forall g, (g < n)%nat -> Un_cv (fun j => iter j g) (x g)).
      { intros g Hg. unfold x. destruct (lt_dec g n) as [H|]; [|contradiction]. exact (proj2_sig (R_complete _ (iter_cauchy g H))). }
      assert (HX : forall g b, (g < n)%nat -> held g = Some b -> x g = b).
      { intros g b Hg Hb. apply (UL_sequence (fun j => iter j g)); [apply CV, Hg|]. intros e E. exists 0%nat. intros j _. rewrite (iter_held j g b Hg Hb). unfold R_dist. rewrite Rminus_diag_eq, Rabs_R0; auto. }
      exists x. split; [exact HX|].
      assert (EZ : forall g, (g < n)%nat -> Un_cv (fun j => sub x (iter j) g) 0).
      { intros g Hg. pose proof (CV g Hg) as C. intros e E. destruct (C e E) as (N & HN). exists N. intros j Hj. specialize (HN j Hj). unfold R_dist in *. rewrite Rminus_0_r. unfold sub.
        replace (x g + -1 * iter j g) with (- (iter j g - x g)) by ring. now rewrite Rabs_Ropp. }
      assert (AZ : Un_cv (fun j => a (sub x (iter j)) (sub x (iter j))) 0).
      { assert (Q : Un_cv (fun j => sum n (fun g => sum n (fun h => sub x (iter j) g * sub x (iter j) h * a (unit_at g) (unit_at h)))) (sum n (fun g => sum n (fun h => 0 * 0 * a (unit_at g) (unit_at h))))).
        { apply (cv_sum n (fun j g => sum n (fun h => sub x (iter j) g * sub x (iter j) h * a (unit_at g) (unit_at h)))). intros g Hg.
          apply (cv_sum n (fun j h => sub x (iter j) g * sub x (iter j) h * a (unit_at g) (unit_at h))). intros h Hh. apply CV_mult; [apply CV_mult; now apply EZ|].
          intros e E. exists 0%nat. intros j _. unfold R_dist. rewrite Rminus_diag_eq, Rabs_R0; auto. }
        assert (Z : sum n (fun g => sum n (fun h => 0 * 0 * a (unit_at g) (unit_at h))) = 0).
        { transitivity (sum n (fun _ => 0 * 0)); [|rewrite Rsum_mul; rr]. apply Rsum_ext. intros g Hg. transitivity (sum n (fun _ => 0 * 0)); [|rewrite Rsum_mul; rr]. apply Rsum_ext. intros; rr. }
        rewrite Z in Q. intros e E. destruct (Q e E) as (N & HN). exists N. intros j Hj. specialize (HN j Hj).
        assert (EQ : a (sub x (iter j)) (sub x (iter j)) = sum n (fun g => sum n (fun h => sub x (iter j) g * sub x (iter j) h * a (unit_at g) (unit_at h)))).
        { rewrite a_units. apply Rsum_ext. intros g Hg. rewrite a_right, <- Rsum_mul. apply Rsum_ext. intros; rr. }
        rewrite EQ. exact HN. }
      assert (FIX : forall g, (g < n)%nat -> T x g = x g).
      { intros g Hg. assert (S2 : (T x g - x g) * (T x g - x g) <= 0).
        { apply (cv_const_zero (fun j => 2 * (a (Rm g) (Rm g) * (q * a (sub x (iter j)) (sub x (iter j)))) + 2 * (sub x (iter (S j)) g * sub x (iter (S j)) g))).
          - assert (C : Un_cv (fun j => 2 * (a (Rm g) (Rm g) * (q * a (sub x (iter j)) (sub x (iter j)))) + 2 * (sub x (iter (S j)) g * sub x (iter (S j)) g)) (2 * (a (Rm g) (Rm g) * (q * 0)) + 2 * (0 * 0))).
            { assert (KC : forall c, Un_cv (fun _ => c) c) by (intros c e E; exists 0%nat; intros j _; unfold R_dist; rewrite Rminus_diag_eq, Rabs_R0; auto).
              assert (SH : Un_cv (fun j => sub x (iter (S j)) g) 0) by (intros e E; destruct (EZ g Hg e E) as (N & HN); exists N; intros j Hj; apply HN; lia).
              apply (CV_plus (fun j => 2 * (a (Rm g) (Rm g) * (q * a (sub x (iter j)) (sub x (iter j)))))); apply (CV_mult (fun _ => 2)); try apply KC.
              - apply (CV_mult (fun _ => a (Rm g) (Rm g))); [apply KC|]. apply (CV_mult (fun _ => q)); [apply KC|exact AZ].
              - now apply CV_mult. }
            replace (2 * (a (Rm g) (Rm g) * (q * 0)) + 2 * (0 * 0)) with 0 in C by ring. exact C.
          - intros j. assert (HJ : heldz (sub x (iter j))) by (apply agree_held; [exact HX|apply iter_held]).
            destruct (contract x (iter j) HJ) as (H1 & H2). change (T (iter j)) with (iter (S j)) in H1, H2.
            pose proof (coord _ g H1 Hg) as C. pose proof (a_nn (Rm g)) as RP.
            assert (C2 : sub (T x) (iter (S j)) g * sub (T x) (iter (S j)) g <= a (Rm g) (Rm g) * (q * a (sub x (iter j)) (sub x (iter j)))).
            { apply Rle_trans with (1 := C). now apply Rmult_le_compat_l. }
            set (u := sub (T x) (iter (S j)) g) in *. set (v := sub x (iter (S j)) g) in *.
            replace (T x g - x g) with (u - v) by (unfold u, v, sub; ring). pose proof (Rle_0_sqr (u + v)) as X. unfold Rsqr in X. nra. }
        pose proof (Rle_0_sqr (T x g - x g)) as X. unfold Rsqr in X. assert (Z : (T x g - x g) * (T x g - x g) = 0) by lra. apply Rmult_integral in Z. destruct Z; lra. }
      assert (RZ : forall g, (g < n)%nat -> rz (F x) g = 0).
      { intros g Hg. pose proof (FIX g Hg) as E. unfold T in E. assert (TP : 0 < t) by (apply Rdiv_lt_0_compat; [exact K0|apply L0]).
        assert (Z : t * rz (F x) g = 0) by lra. apply Rmult_integral in Z. destruct Z; lra. }
      intros g Hg Hf. assert (HU : heldz (unit_at g)).
      { intros h b Hh Hb. unfold unit_at. destruct (Nat.eqb_spec g h) as [->|]; [congruence|reflexivity]. }
      pose proof (rz_a (F x) (unit_at g) HU) as E. rewrite (a_ext _ (fun _ => 0) _ RZ), a_zero in E. rewrite <- (Rsum_delta n g (F x) Hg). symmetry. exact E.
    Qed.
  End Iter.
  Theorem mono_exists : exists x, (forall g b, (g < n)%nat -> held g = Some b -> x g = b) /\ forall g, (g < n)%nat -> held g = None -> F x g = 0.
  Proof. destruct riesz_all as (Rm & RM). exact (iter_solves Rm RM). Qed.
  Theorem mono_unique x y : (forall g b, (g < n)%nat -> held g = Some b -> x g = b) -> (forall g, (g < n)%nat -> held g = None -> F x g = 0) ->
    (forall g b, (g < n)%nat -> held g = Some b -> y g = b) -> (forall g, (g < n)%nat -> held g = None -> F y g = 0) -> forall g, (g < n)%nat -> x g = y g.
  Proof.
    intros X1 X2 Y1 Y2 g Hg. assert (HZ : heldz (sub x y)) by (apply agree_held; assumption).
    assert (Z : forall z, (forall g, (g < n)%nat -> held g = None -> F z g = 0) -> wk z (sub x y) = 0).
    { intros z HF. unfold wk. transitivity (sum n (fun _ => 0 * 0)); [|rewrite Rsum_mul; rr]. apply Rsum_ext. intros h Hh. destruct (held h) as [b|] eqn:E; [rewrite (HZ h b Hh E); ring|rewrite (HF h Hh E); ring]. }
    pose proof (mono x y HZ) as M. rewrite (Z x X2), (Z y Y2) in M. pose proof (a_nn (sub x y)).
    assert (Z0 : a (sub x y) (sub x y) = 0) by nra. pose proof (a_def _ HZ Z0 g Hg) as E. unfold sub in E. lra.
  Qed.
End Mono.
