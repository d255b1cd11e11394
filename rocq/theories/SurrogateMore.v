(** Lemmas for C109: power of the stress, no stored energy, loss, samples, boundary values. *)
From Coq Require Import Reals String List Arith Lia Lra Psatz Bool Permutation.
From Verif Require Import Num Arr Fe Problem Basis SpecBc BcFacts SpecFe SpecSelect SelectFacts GeomFacts Init SpecInit Lagrangian LaserHeat ElasticFacts VolumeMain TwoVarsEnd Surrogate SpecSurrogate SurrogateMain.
Import ListNotations.
Local Open Scope R_scope.
Local Notation sum := (sum_n (K := Rops)).

Section Power.
  Variables (p : params) (G : R -> tensor) (dG : tensor) (t : R).
  Hypothesis D : forall i j, (i < 2)%nat -> (j < 2)%nat -> derivable_pt_lim (fun s => G s i j) t (dG i j).
  Let dE (i j : nat) : R := / 2 * (dG 0%nat i * def_grad (G t) 0%nat j + def_grad (G t) 0%nat i * dG 0%nat j + (dG 1%nat i * def_grad (G t) 1%nat j + def_grad (G t) 1%nat i * dG 1%nat j)).
  Lemma d_F i j : (i < 2)%nat -> (j < 2)%nat -> derivable_pt_lim (fun s => def_grad (G s) i j) t (dG i j).
  Proof. intros Hi Hj. apply (d_eq _ _ (dG i j + 0)); [ring|]. apply (derivable_pt_lim_plus (fun s => G s i j) (fun _ => delta i j)); [now apply D|apply derivable_pt_lim_const]. Qed.
  Lemma d_E i j : (i < 2)%nat -> (j < 2)%nat -> derivable_pt_lim (fun s => green (def_grad (G s)) i j) t (dE i j).
  Proof.
    intros Hi Hj. apply (d_ext_all t (fun s => / 2 * (def_grad (G s) 0%nat i * def_grad (G s) 0%nat j + def_grad (G s) 1%nat i * def_grad (G s) 1%nat j - delta i j))). { intros y. unfold green. now rewrite sum2. }
    unfold dE. apply (d_eq _ _ (/ 2 * (dG 0%nat i * def_grad (G t) 0%nat j + def_grad (G t) 0%nat i * dG 0%nat j + (dG 1%nat i * def_grad (G t) 1%nat j + def_grad (G t) 1%nat i * dG 1%nat j) - 0))); [ring|].
    apply (derivable_pt_lim_scal (fun s => def_grad (G s) 0%nat i * def_grad (G s) 0%nat j + def_grad (G s) 1%nat i * def_grad (G s) 1%nat j - delta i j)).
    apply (derivable_pt_lim_minus (fun s => def_grad (G s) 0%nat i * def_grad (G s) 0%nat j + def_grad (G s) 1%nat i * def_grad (G s) 1%nat j) (fun _ => delta i j)); [|apply derivable_pt_lim_const].
    apply (derivable_pt_lim_plus (fun s => def_grad (G s) 0%nat i * def_grad (G s) 0%nat j) (fun s => def_grad (G s) 1%nat i * def_grad (G s) 1%nat j)); [apply (derivable_pt_lim_mult (fun s => def_grad (G s) 0%nat i) (fun s => def_grad (G s) 0%nat j))|apply (derivable_pt_lim_mult (fun s => def_grad (G s) 1%nat i) (fun s => def_grad (G s) 1%nat j))]; apply d_F; lia.
  Qed.
  Lemma power : exists dE12, derivable_pt_lim (fun s => green (def_grad (G s)) 0%nat 1%nat) t dE12 /\
    derivable_pt_lim (fun s => network p (voigt (green (def_grad (G s)))) - sum 3 (fun i => initial_stress p i * voigt (green (def_grad (G s))) i)) t
      (contract2 (surrogate_stress p (G t)) dG - P_fn p (initial_stress p) (green (def_grad (G t))) 0%nat 1%nat * dE12).
  Proof.
    exists (dE 0%nat 1%nat). split; [apply d_E; lia|].
    assert (V : forall i, (i < 3)%nat -> derivable_pt_lim (fun s => voigt (green (def_grad (G s))) i) t (voigt dE i)) by (intros [|[|[|i]]] Hi; try lia; cbn [voigt]; apply d_E; lia).
    apply (d_eq _ _ (sum 3 (fun i => voigt dE i * compute_input_gradient p (voigt (green (def_grad (G t)))) i) - sum 3 (fun i => initial_stress p i * voigt dE i))).
    - rewrite !sum3. unfold contract2, surrogate_stress, first_PK_stress. rewrite !sum2. set (F := def_grad (G t)) in *. unfold P_fn. set (g := compute_input_gradient p (voigt (green F))). set (q := initial_stress p). unfold dE, voigt. fold F. field.
    - apply (derivable_pt_lim_minus (fun s => network p (voigt (green (def_grad (G s))))) (fun s => sum 3 (fun i => initial_stress p i * voigt (green (def_grad (G s))) i))); [exact (network_curve p (fun s => voigt (green (def_grad (G s)))) (voigt dE) t V)|].
      apply (dsum 3 (fun i s => initial_stress p i * voigt (green (def_grad (G s))) i) t (fun i => initial_stress p i * voigt dE i)). intros i Hi. apply (derivable_pt_lim_scal (fun s => voigt (green (def_grad (G s))) i)). now apply V.
  Qed.
End Power.

(** a network whose energy near rest is exp (E11 + E12 - 1) *)
Definition wit : params := mkParams
  (mkDense (fun i k => if (k =? 0)%nat then (if (i <? 2)%nat then 1 else 0) else 0) (fun k => if (k =? 0)%nat then -1 else 0))
  (mkDense (fun i k => if (i =? 0)%nat then (if (k =? 0)%nat then 1 else 0) else 0) (fun k => if (k =? 0)%nat then 2 else 0))
  (mkDense (fun i k => if (i =? 0)%nat then (if (k =? 0)%nat then 1 else 0) else 0) (fun k => 0))
  (mkDense (fun i k => if (i =? 0)%nat then 1 else 0) (fun k => 0)).
Lemma sum_first (f : nat -> R) : (forall k, k <> 0%nat -> f k = 0) -> sum width f = f 0%nat.
Proof. intros Z. apply (sum_n_single (K := Rops)); [exact Rops_ring|unfold width; lia|]. intros i _ Hi. now apply Z. Qed.
Lemma wit0 x : pre0 wit x 0%nat = x 0%nat + x 1%nat - 1.
Proof. unfold pre0, dense_apply. rewrite sum3. cbn [kernel bias dense0 wit Nat.eqb Nat.ltb Nat.leb]. ring. Qed.
Lemma elu_low x : -1 < elu x. Proof. unfold elu. destruct (Rlt_dec 0 x); [lra|]. pose proof (exp_pos x). lra. Qed.
Lemma wit1 x : pre1 wit x 0%nat = elu (pre0 wit x 0%nat) + 2.
Proof. unfold pre1, dense_apply. rewrite sum_first; [cbn [kernel bias dense1 wit Nat.eqb]; ring|]. intros [|k] H; [congruence|]. cbn [kernel dense1 wit Nat.eqb]. ring. Qed.
Lemma wit2 x : pre2 wit x 0%nat = elu (pre1 wit x 0%nat).
Proof. unfold pre2, dense_apply. rewrite sum_first; [cbn [kernel bias dense2 wit Nat.eqb]; ring|]. intros [|k] H; [congruence|]. cbn [kernel dense2 wit Nat.eqb]. ring. Qed.
Lemma wit_grad x i : x 0%nat + x 1%nat <= 1 -> (i < 3)%nat -> compute_input_gradient wit x i = if (i <? 2)%nat then exp (x 0%nat + x 1%nat - 1) else 0.
Proof.
  intros LE Hi. assert (P1 : 0 < pre1 wit x 0%nat) by (rewrite wit1; pose proof (elu_low (pre0 wit x 0%nat)); lra).
  assert (P2 : 0 < pre2 wit x 0%nat) by (rewrite wit2; unfold elu; destruct (Rlt_dec 0 (pre1 wit x 0%nat)); lra).
  assert (B2 : back2 wit x 0%nat = 1). { unfold back2. rewrite sum_first; [|intros [|k] H; [congruence|]; cbn [kernel dense2 wit Nat.eqb]; ring]. cbn [kernel dense2 wit Nat.eqb]. unfold back3, elu_grad. cbn [kernel dense3 wit Nat.eqb]. destruct (Rlt_dec _ _); [ring|contradiction]. }
  assert (B1 : back1 wit x 0%nat = 1). { unfold back1. rewrite sum_first; [|intros [|k] H; [congruence|]; cbn [kernel dense1 wit Nat.eqb]; ring]. cbn [kernel dense1 wit Nat.eqb]. rewrite B2. unfold elu_grad. destruct (Rlt_dec _ _); [ring|contradiction]. }
  unfold compute_input_gradient. rewrite sum_first; [|intros [|k] H; [congruence|]; cbn [kernel dense0 wit Nat.eqb]; ring]. cbn [kernel dense0 wit Nat.eqb]. rewrite B1, wit0. unfold elu_grad. destruct (Rlt_dec _ _); [lra|]. destruct (i <? 2)%nat; ring.
Qed.
Lemma wit_init i : (i < 3)%nat -> initial_stress wit i = if (i <? 2)%nat then exp (-1) else 0.
Proof. intros Hi. unfold initial_stress. rewrite wit_grad by (auto; lra). now replace (0 + 0 - 1) with (-1) by ring. Qed.
Section Wit.
  Variables (a q : R).
  Hypothesis A : 9 / 10 < a < 11 / 10.
  Hypothesis Q : q <= 1.
  Let s := exp ((a * a - 1) / 2 + a * q / 2 - 1) - exp (-1).
  Lemma wit_P i : (i < 3)%nat -> compute_input_gradient wit (voigt (green (def_grad (mat2 (a - 1) q 0 0)))) i - initial_stress wit i = if (i <? 2)%nat then s else 0.
  Proof.
    intros Hi. assert (E0 : voigt (green (def_grad (mat2 (a - 1) q 0 0))) 0%nat = (a * a - 1) / 2). { cbn [voigt]. unfold green, def_grad, delta. rewrite sum2. cbn [mat2 Nat.eqb]. field. }
    assert (E1 : voigt (green (def_grad (mat2 (a - 1) q 0 0))) 1%nat = a * q / 2). { cbn [voigt]. unfold green, def_grad, delta. rewrite sum2. cbn [mat2 Nat.eqb]. field. }
    rewrite wit_grad, wit_init by (auto; rewrite E0, E1; nra). rewrite E0, E1. unfold s. destruct (i <? 2)%nat; ring.
  Qed.
  Lemma wit_00 : surrogate_stress wit (mat2 (a - 1) q 0 0) 0%nat 0%nat = (a + q) * s.
  Proof. unfold surrogate_stress, first_PK_stress. rewrite sum2. unfold P_fn. rewrite !wit_P by lia. cbn [Nat.ltb Nat.leb]. unfold def_grad, delta. cbn [mat2 Nat.eqb]. ring. Qed.
  Lemma wit_01 : surrogate_stress wit (mat2 (a - 1) q 0 0) 0%nat 1%nat = a * s.
  Proof. unfold surrogate_stress, first_PK_stress. rewrite sum2. unfold P_fn. rewrite !wit_P by lia. cbn [Nat.ltb Nat.leb]. unfold def_grad, delta. cbn [mat2 Nat.eqb]. ring. Qed.
End Wit.
Definition Phi (a q : R) : R := 2 * exp ((a * a - 1) / 2 + a * q / 2 - 1) - a * q * exp (-1).
Lemma Phi_q a q : derivable_pt_lim (fun y => Phi a y) q (a * (exp ((a * a - 1) / 2 + a * q / 2 - 1) - exp (-1))).
Proof.
  unfold Phi. apply (d_eq _ _ (2 * (exp ((a * a - 1) / 2 + a * q / 2 - 1) * (a / 2)) - a * exp (-1))); [field|].
  apply (derivable_pt_lim_minus (fun y => 2 * exp ((a * a - 1) / 2 + a * y / 2 - 1)) (fun y => a * y * exp (-1))).
  - apply (derivable_pt_lim_scal (fun y => exp ((a * a - 1) / 2 + a * y / 2 - 1))). apply (derivable_pt_lim_comp (fun y => (a * a - 1) / 2 + a * y / 2 - 1) exp); [|apply derivable_pt_lim_exp].
    apply (d_ext_all q (fun y => a / 2 * y + ((a * a - 1) / 2 - 1))); [intros; field|]. apply (d_eq _ _ (a / 2 * 1 + 0)); [ring|]. apply (derivable_pt_lim_plus (fun y => a / 2 * y) (fun _ => (a * a - 1) / 2 - 1)); [apply (derivable_pt_lim_scal (fun y => y)), derivable_pt_lim_id|apply derivable_pt_lim_const].
  - apply (d_ext_all q (fun y => a * exp (-1) * y)); [intros; ring|]. apply (d_eq _ _ (a * exp (-1) * 1)); [ring|]. apply (derivable_pt_lim_scal (fun y => y)), derivable_pt_lim_id.
Qed.
Lemma Phi_a a q : derivable_pt_lim (fun y => Phi y q) a ((2 * a + q) * exp ((a * a - 1) / 2 + a * q / 2 - 1) - q * exp (-1)).
Proof.
  unfold Phi. apply (d_eq _ _ (2 * (exp ((a * a - 1) / 2 + a * q / 2 - 1) * (a + q / 2)) - q * exp (-1))); [field|].
  apply (derivable_pt_lim_minus (fun y => 2 * exp ((y * y - 1) / 2 + y * q / 2 - 1)) (fun y => y * q * exp (-1))).
  - apply (derivable_pt_lim_scal (fun y => exp ((y * y - 1) / 2 + y * q / 2 - 1))). apply (derivable_pt_lim_comp (fun y => (y * y - 1) / 2 + y * q / 2 - 1) exp); [|apply derivable_pt_lim_exp].
    apply (d_ext_all a (fun y => / 2 * (y * y) + (q / 2 * y + (- / 2 - 1)))); [intros; field|]. apply (d_eq _ _ (/ 2 * (1 * a + a * 1) + (q / 2 * 1 + 0))); [field|].
    apply (derivable_pt_lim_plus (fun y => / 2 * (y * y)) (fun y => q / 2 * y + (- / 2 - 1))); [apply (derivable_pt_lim_scal (fun y => y * y)), (derivable_pt_lim_mult (fun y => y) (fun y => y)); apply derivable_pt_lim_id|].
    apply (derivable_pt_lim_plus (fun y => q / 2 * y) (fun _ => - / 2 - 1)); [apply (derivable_pt_lim_scal (fun y => y)), derivable_pt_lim_id|apply derivable_pt_lim_const].
  - apply (d_ext_all a (fun y => q * exp (-1) * y)); [intros; ring|]. apply (d_eq _ _ (q * exp (-1) * 1)); [ring|]. apply (derivable_pt_lim_scal (fun y => y)), derivable_pt_lim_id.
Qed.
Lemma no_energy : ~ exists Psi, stored_energy (surrogate_stress wit) Psi.
Proof.
  intros (Psi & S). set (h := fun a q => Psi (a - 1) q 0 0 - Phi a q).
  assert (C : forall a, 9 / 10 < a < 11 / 10 -> h a 1 = h a 0).
  { intros a Ha. destruct (MVT_cor2 (h a) (fun _ => 0) 0 1) as (c & E & _); [lra| |lra]. intros c Hc. unfold h.
    apply (d_eq _ _ (surrogate_stress wit (mat2 (a - 1) c 0 0) 0%nat 1%nat - a * (exp ((a * a - 1) / 2 + a * c / 2 - 1) - exp (-1)))); [rewrite wit_01 by lra; ring|].
    apply (derivable_pt_lim_minus (fun q => Psi (a - 1) q 0 0) (fun q => Phi a q)); [apply (S (a - 1) c 0 0)|apply Phi_q]. }
  assert (Da : forall q, q <= 1 -> derivable_pt_lim (fun a => h a q) 1 (- exp (q / 2 - 1) - exp (-1))).
  { intros q Hq. unfold h. apply (d_eq _ _ (surrogate_stress wit (mat2 (1 - 1) q 0 0) 0%nat 0%nat - ((2 * 1 + q) * exp ((1 * 1 - 1) / 2 + 1 * q / 2 - 1) - q * exp (-1)))).
    { rewrite wit_00 by lra. replace ((1 * 1 - 1) / 2 + 1 * q / 2 - 1) with (q / 2 - 1) by field. ring. }
    apply (derivable_pt_lim_minus (fun a => Psi (a - 1) q 0 0) (fun a => Phi a q)); [|apply Phi_a]. apply (d_eq _ _ (surrogate_stress wit (mat2 (1 - 1) q 0 0) 0%nat 0%nat * 1)); [ring|].
    apply (derivable_pt_lim_comp (fun a => a - 1) (fun z => Psi z q 0 0)); [|apply (S (1 - 1) q 0 0)]. apply (d_eq _ _ (1 - 0)); [ring|]. apply (derivable_pt_lim_minus (fun a => a) (fun _ => 1)); [apply derivable_pt_lim_id|apply derivable_pt_lim_const]. }
  pose proof (Da 0 ltac:(lra)) as D0. pose proof (d_ext (fun a => h a 1) (fun a => h a 0) 1 _ (1 / 10) ltac:(lra) ltac:(intros y Hy; apply C; apply Rabs_def2 in Hy; lra) (Da 1 ltac:(lra))) as D1.
  pose proof (uniqueness_limite _ _ _ _ D0 D1) as U. assert (E : exp (0 / 2 - 1) = exp (1 / 2 - 1)) by lra. apply exp_inv in E. lra.
Qed.

(** the loss *)
Lemma sum_zero n (f : nat -> R) : (forall i, (i < n)%nat -> 0 <= f i) -> sum n f = 0 -> forall i, (i < n)%nat -> f i = 0.
Proof.
  induction n as [|n IH]; [lia|]. intros P Z i Hi. rewrite (sum_n_S (K := Rops) Rops_ring) in Z. change (sum n f + f n = 0) in Z. pose proof (Rsum_nonneg n f ltac:(intros; apply P; lia)) as N. pose proof (P n ltac:(lia)) as PN.
  destruct (Nat.eq_dec i n) as [->|]; [lra|]. apply IH; [intros; apply P; lia|lra|lia].
Qed.
Lemma loss_term y z : sqrt ((y - z) ^ 2 / (y ^ 2 + / 10 ^ 3)) = Rabs (y - z) / sqrt (y ^ 2 + / 10 ^ 3).
Proof. assert (0 < y ^ 2 + / 10 ^ 3) by nra. rewrite sqrt_div_alt by auto. now rewrite <- Rsqr_pow2, sqrt_Rsqr_abs. Qed.
Lemma loss_mean p b x y : nllloss p b x y = sum b (fun r => sum 3 (fun i => Rabs (y r i - compute_input_gradient p (x r) i) / sqrt (y r i ^ 2 + / 10 ^ 3))) / INR (b * 3).
Proof. unfold nllloss, Rdiv. f_equal. apply Rsum_ext. intros r _. apply Rsum_ext. intros i _. apply loss_term. Qed.
Lemma loss_nonneg p b x y : 0 <= nllloss p b x y.
Proof.
  unfold nllloss. assert (N : 0 <= sum b (fun r => sum 3 (fun i => sqrt ((y r i - batch_gradient p x r i) ^ 2 / (y r i ^ 2 + / 10 ^ 3))))) by (apply Rsum_nonneg; intros; apply Rsum_nonneg; intros; apply sqrt_pos).
  destruct b as [|b]; [cbn [Nat.mul INR]; unfold Rdiv; rewrite Rinv_0; lra|]. apply Rmult_le_pos; [exact N|]. apply Rlt_le, Rinv_0_lt_compat, lt_0_INR. lia.
Qed.
Lemma loss_zero p b x y : (0 < b)%nat -> (nllloss p b x y = 0 <-> forall r i, (r < b)%nat -> (i < 3)%nat -> y r i = compute_input_gradient p (x r) i).
Proof.
  intros Hb. assert (PB : 0 < INR (b * 3)) by (apply lt_0_INR; lia). rewrite loss_mean.
  assert (PT : forall r i, 0 <= Rabs (y r i - compute_input_gradient p (x r) i) / sqrt (y r i ^ 2 + / 10 ^ 3)). { intros r i. apply Rmult_le_pos; [apply Rabs_pos|]. apply Rlt_le, Rinv_0_lt_compat, sqrt_lt_R0. nra. }
  split.
  - intros Z. assert (Z' : sum b (fun r => sum 3 (fun i => Rabs (y r i - compute_input_gradient p (x r) i) / sqrt (y r i ^ 2 + / 10 ^ 3))) = 0). { apply (Rmult_eq_reg_r (/ INR (b * 3))); [rewrite Rmult_0_l; exact Z|]. apply Rinv_neq_0_compat. lra. }
    intros r i Hr Hi. pose proof (sum_zero b _ (fun r _ => Rsum_nonneg 3 _ (fun i _ => PT r i)) Z' r Hr) as Z1. cbv beta in Z1. pose proof (sum_zero 3 _ (fun i _ => PT r i) Z1 i Hi) as Z2. cbv beta in Z2.
    assert (PS : 0 < sqrt (y r i ^ 2 + / 10 ^ 3)) by (apply sqrt_lt_R0; nra). assert (Z3 : Rabs (y r i - compute_input_gradient p (x r) i) = 0). { apply (Rmult_eq_reg_r (/ sqrt (y r i ^ 2 + / 10 ^ 3))); [rewrite Rmult_0_l; exact Z2|]. apply Rinv_neq_0_compat. lra. }
    destruct (Req_dec (y r i - compute_input_gradient p (x r) i) 0) as [E|E]; [lra|]. now apply Rabs_no_R0 in E.
  - intros E. assert (Z : sum b (fun r => sum 3 (fun i => Rabs (y r i - compute_input_gradient p (x r) i) / sqrt (y r i ^ 2 + / 10 ^ 3))) = sum b (fun _ => 0)).
    { apply Rsum_ext. intros r Hr. rewrite sum3, !E by lia. unfold Rminus. rewrite !Rplus_opp_r, Rabs_R0. unfold Rdiv. req. ring. }
    rewrite Z. assert (Z0 : sum b (fun _ => 0) = 0). { transitivity (0 * sum b (fun _ => 0)); [rewrite <- Rsum_mul; apply Rsum_ext; intros; req; ring|req; ring]. } rewrite Z0. unfold Rdiv. ring.
Qed.

(** the samples *)
Lemma chunks_all k fuel l : (0 < k)%nat -> (length l <= fuel)%nat -> concat (chunks fuel k l) = l /\ (forall b, In b (chunks fuel k l) -> (0 < length b <= k)%nat) /\ length (chunks fuel k l) = ((length l + (k - 1)) / k)%nat.
Proof.
  intros Hk. revert l. induction fuel as [|fuel IH]; intros l Hl.
  - destruct l; [|cbn in Hl; lia]. cbn. split; [reflexivity|]. split; [tauto|]. symmetry. apply Nat.div_small. lia.
  - destruct l as [|a l]; [cbn; split; [reflexivity|split; [tauto|]]; symmetry; apply Nat.div_small; lia|]. cbn [chunks]. remember (a :: l) as m eqn:Em. assert (Lm : (0 < length m)%nat) by (rewrite Em; cbn; lia).
    destruct (IH (skipn k m)) as (C & B & N); [rewrite skipn_length; lia|]. cbn [concat]. rewrite C, firstn_skipn. split; [reflexivity|]. split.
    + intros b [<-|Hb]; [rewrite firstn_length; lia|now apply B].
    + cbn [length]. rewrite N, skipn_length. destruct (le_lt_dec k (length m)) as [H|H].
      * replace (length m + (k - 1))%nat with (length m - k + (k - 1) + 1 * k)%nat by lia. rewrite Nat.div_add by lia. lia.
      * replace (length m - k)%nat with 0%nat by lia. rewrite (Nat.div_small (0 + (k - 1)) k) by lia. apply (Nat.div_unique _ _ 1 (length m - 1)); lia.
Qed.
Lemma epoch n drawn : Permutation drawn (train_indices n) -> let B := epoch_batches drawn in
  concat B = drawn /\ NoDup (concat B) /\ (forall i, In i (concat B) <-> (1 <= i < n)%nat) /\ (forall b, In b B -> (0 < length b <= 16)%nat) /\ length B = ((n - 1 + 15) / 16)%nat.
Proof.
  intros P B. assert (TI : train_indices n = seq 1 (n - 1)). { unfold train_indices. destruct n as [|n]; [reflexivity|]. cbn [seq skipn]. f_equal. lia. }
  destruct (chunks_all 16 (length drawn) drawn ltac:(lia) ltac:(lia)) as (C & S & N). fold (epoch_batches drawn) in C, S, N. fold B in C, S, N. split; [exact C|]. rewrite C. rewrite TI in P. split; [apply (Permutation_NoDup (Permutation_sym P)), seq_NoDup|]. split; [|split; [exact S|]].
  - intros i. transitivity (In i (seq 1 (n - 1))); [split; apply Permutation_in; [exact P|now apply Permutation_sym]|]. rewrite in_seq. lia.
  - rewrite N, (Permutation_length P), seq_length. reflexivity.
Qed.

(** the boundary values *)
Lemma su_values s quad fquad normals pts cls (f : fe Rops) n k : fe_init sqrt s quad fquad normals pts cls 2 2 (Some su_bc) = Ok f -> (n < length pts)%nat -> (k < 2)%nat ->
  let y := nth 1 (nth n pts []) 0 in
  (Rabs y <= / 10 ^ 5 -> prescribed f n k = Some 0) /\ (Rabs (y - 30) <= 31 / 10 ^ 5 -> prescribed f n k = Some (if (k =? 1)%nat then - (3 / 2) else 0)) /\ (/ 10 ^ 5 < Rabs y -> 31 / 10 ^ 5 < Rabs (y - 30) -> prescribed f n k = None).
Proof.
  intros B Hn Hk y. rewrite (bc_prescribed _ _ _ _ _ _ _ _ _ f n k B) by reflexivity. unfold dirichlet_value. apply Nat.ltb_lt in Hn. rewrite Hn. unfold su_bc. cbn [fst snd length seq fold_left nth loc_holds andb].
  assert (TB : su_bottom (nth n pts []) = true <-> Rabs y <= / 10 ^ 5). { unfold su_bottom. fold y. rewrite isclose_true, Rabs_R0, Rminus_0_r. split; intros; lra. }
  assert (TT : su_top (nth n pts []) = true <-> Rabs (y - 30) <= 31 / 10 ^ 5). { unfold su_top. fold y. rewrite isclose_true. rewrite (Rabs_pos_eq 30) by lra. split; intros; lra. }
  assert (EV : - (5 / 100) * 30 = - (3 / 2)) by field.
  destruct (su_bottom _) eqn:HB, (su_top _) eqn:HT.
  - exfalso. destruct TB as [TB _], TT as [TT _]. specialize (TB eq_refl). specialize (TT eq_refl). apply Rabs_def2' in TB. apply Rabs_def2' in TT. lra.
  - split; [|split].
    + intros _. destruct k as [|[|k]]; [| |lia]; reflexivity.
    + intros H. apply TT in H. discriminate.
    + intros H _. destruct TB as [TB _]. specialize (TB eq_refl). lra.
  - split; [|split].
    + intros H. apply TB in H. discriminate.
    + intros _. rewrite <- EV. destruct k as [|[|k]]; [| |lia]; reflexivity.
    + intros _ H. destruct TT as [TT _]. specialize (TT eq_refl). lra.
  - split; [|split].
    + intros H. apply TB in H. discriminate.
    + intros H. apply TT in H. discriminate.
    + intros _ _. destruct k as [|[|k]]; [| |lia]; reflexivity.
Qed.
(** what a zero loss means *)
Lemma fitted p e_data pk2_data batch : batch <> [] -> (forall idx, In idx batch -> nth idx pk2_data (fun _ _ => 0) 0%nat 1%nat = nth idx pk2_data (fun _ _ => 0) 1%nat 0%nat) ->
  nllloss p (length batch) (fun r => fst (getitem e_data pk2_data (nth r batch 0%nat))) (fun r => snd (getitem e_data pk2_data (nth r batch 0%nat))) = 0 ->
  forall idx E, In idx batch -> (forall i, (i < 3)%nat -> voigt E i = nth idx e_data (fun _ => 0) i) -> same2 (P_fn p (fun _ => 0) E) (nth idx pk2_data (fun _ _ => 0)).
Proof.
  intros NB S L idx E HI HE. assert (PB : (0 < length batch)%nat) by (destruct batch; [congruence|cbn; lia]). pose proof (proj1 (loss_zero p _ _ _ PB) L) as L'. clear L. rename L' into L. destruct (In_nth batch idx 0%nat HI) as (r & Hr & Er).
  assert (G : forall i, (i < 3)%nat -> compute_input_gradient p (voigt E) i = snd (getitem e_data pk2_data idx) i).
  { intros i Hi. specialize (L r i Hr Hi). cbv beta in L. rewrite Er in L. rewrite L. apply gradient_ext. exact HE. }
  specialize (S idx HI). pose proof (G 0%nat ltac:(lia)) as G0. pose proof (G 1%nat ltac:(lia)) as G1. pose proof (G 2%nat ltac:(lia)) as G2. unfold getitem in G0, G1, G2. cbn [snd] in G0, G1, G2.
  intros [|[|i]] [|[|j]] Hi Hj; try lia; unfold P_fn; rewrite ?G0, ?G1, ?G2, ?S; ring.
Qed.
