(** A crystal that slips: uniaxial stress along a crystal axis, with the face-centred cubic slip systems, for C92 and C93. *)
From Coq Require Import Reals List Arith Lia Lra Bool FunctionalExtensionality.
From Coquelicot Require Derive.
From Verif Require Import Num Arr ArrFacts Fe FeFacts SpecFe Problem SpecAssembly SpecWeak SpecEnergy Elastic ElasticFacts Plasticity SpecPlasticity PlasticityFacts
  Lagrangian SpecLagrangian LagrangianFacts LagrangianMain FinPlast SpecFinPlast FinPlastFacts FinPlastMain CrystalPlast SpecCrystal CrystalFacts CrystalSolve CrystalDeriv CrystalMain CrystalExact.
Import ListNotations.
Local Open Scope R_scope.

Notation fcc := slip_systems_fcc.
Lemma twelve_cases (P : nat -> Prop) : P 0%nat -> P 1%nat -> P 2%nat -> P 3%nat -> P 4%nat -> P 5%nat -> P 6%nat -> P 7%nat -> P 8%nat -> P 9%nat -> P 10%nat -> P 11%nat ->
  forall s, (s < 12)%nat -> P s.
Proof. intros ? ? ? ? ? ? ? ? ? ? ? ? s Hs. do 12 (destruct s as [|s]; [assumption|]). lia. Qed.
Ltac row := cbn [normal direction slip_systems_fcc nth Nat.add].
Lemma fcc_dir s : (s < 12)%nat -> dot3 (direction fcc s) (direction fcc s) = 2.
Proof. revert s. apply twelve_cases; unfold dot3, direction; rewrite sum3; cbn [slip_systems_fcc nth Nat.add]; req; ring. Qed.
Lemma fcc_norm s : (s < 12)%nat -> dot3 (normal fcc s) (normal fcc s) = 3.
Proof. revert s. apply twelve_cases; unfold dot3, normal; rewrite sum3; cbn [slip_systems_fcc nth Nat.add]; req; ring. Qed.
Lemma fcc_plane : in_plane fcc.
Proof. change (forall s, (s < 12)%nat -> dot3 (direction fcc s) (normal fcc s) = 0). apply twelve_cases; unfold dot3, normal, direction; rewrite sum3; cbn [slip_systems_fcc nth Nat.add]; req; ring. Qed.
Lemma at_ident v i : (i < 3)%nat -> at_vec ident v i = v i.
Proof. revert i. apply three_cases; unfold at_vec, ident; rewrite sum3; cbn [Nat.eqb]; req; ring. Qed.
Definition w6 : R := / (sqrt 2 * sqrt 3).
Lemma w6_pos : 0 < w6.
Proof. unfold w6. apply Rinv_0_lt_compat, Rmult_lt_0_compat; apply sqrt_lt_R0; lra. Qed.
Lemma w6_sq : w6 * w6 = / 6.
Proof.
  unfold w6. rewrite <- Rinv_mult. f_equal. pose proof (sqrt_def 2 ltac:(lra)). pose proof (sqrt_def 3 ltac:(lra)).
  replace (sqrt 2 * sqrt 3 * (sqrt 2 * sqrt 3)) with ((sqrt 2 * sqrt 2) * (sqrt 3 * sqrt 3)) by ring. rewrite H, H0. ring.
Qed.
Lemma fcc_frame s i j : (s < 12)%nat -> (i < 3)%nat -> (j < 3)%nat -> slip_frame fcc ident s i j = w6 * (direction fcc s i * normal fcc s j).
Proof.
  intros Hs Hi Hj. unfold slip_frame. rewrite !at_ident by assumption. unfold unit. rewrite (fcc_dir s Hs), (fcc_norm s Hs). unfold w6. req; field.
  split; apply Rgt_not_eq, sqrt_lt_R0; lra.
Qed.

(** stress s0 along the first axis: the shear stress on each system is 60.8 or 0 *)
Definition s0 : R := 608 / 10 * / w6.
Definition uniaxial : tensor := fun i j => if (i =? 0)%nat then if (j =? 0)%nat then s0 else 0 else 0.
Lemma normal_x s : (s < 12)%nat -> normal fcc s 0%nat = 1.
Proof. revert s. apply twelve_cases; reflexivity. Qed.
Lemma direction_x s : (s < 12)%nat -> direction fcc s 0%nat = 0 \/ direction fcc s 0%nat = 1.
Proof. revert s. apply twelve_cases; unfold direction; cbn [slip_systems_fcc nth Nat.add]; auto. Qed.
Lemma case_resolved s : (s < 12)%nat -> resolved fcc ident uniaxial s = 608 / 10 * direction fcc s 0%nat.
Proof.
  intros Hs. unfold resolved, ddot, uniaxial. rewrite !sum3. cbn [Nat.eqb].
  transitivity (s0 * slip_frame fcc ident s 0%nat 0%nat); [req; ring|]. rewrite (fcc_frame s 0%nat 0%nat Hs) by lia. rewrite (normal_x s Hs). unfold s0. pose proof w6_pos. req; field. lra.
Qed.
Definition g0 : vect := fun _ => 608 / 10.
Section Slip.
  Variable dt : R.
  Let e := dt / 1000 * w6.
  Lemma case_slip s : (s < 12)%nat -> slip_by dt (resolved fcc ident uniaxial s) (g0 s) = dt / 1000 * direction fcc s 0%nat.
  Proof.
    intros Hs. rewrite (case_resolved s Hs). unfold slip_by, g0. destruct (direction_x s Hs) as [-> | ->].
    - rewrite Rmult_0_r. destruct (Rle_dec 0 0) as [_|C]; [|lra]. unfold Rdiv at 2. rewrite Rmult_0_l. ring.
    - rewrite Rmult_1_r. destruct (Rle_dec 0 (608 / 10)) as [_|C]; [|lra]. replace (608 / 10 / (608 / 10)) with 1 by field. ring.
  Qed.
  Lemma sum12 (f : nat -> R) : sum_n (K := Rops) 12 f = f 0%nat + (f 1%nat + (f 2%nat + (f 3%nat + (f 4%nat + (f 5%nat + (f 6%nat + (f 7%nat + (f 8%nat + (f 9%nat + (f 10%nat + (f 11%nat + 0))))))))))).
  Proof. reflexivity. Qed.
  Definition diag3 (a b c : R) : tensor := fun i j => if (i =? j)%nat then match i with 0%nat => a | 1%nat => b | _ => c end else 0.
  Lemma case_flow : flow fcc dt g0 ident uniaxial == diag3 (8 * e) (- 4 * e) (- 4 * e).
  Proof.
    intros i j Hi Hj. unfold flow. transitivity (sum_n (K := Rops) 12 (fun s => e * (direction fcc s 0%nat * (direction fcc s i * normal fcc s j)))).
    - change (length fcc) with 12%nat. apply sum_n_ext. intros s Hs. rewrite (case_slip s Hs), (fcc_frame s i j Hs Hi Hj). unfold e. req; ring.
    - rewrite sum12. unfold normal, direction, diag3. cbn [slip_systems_fcc nth Nat.add].
      revert i Hi. apply three_cases; revert j Hj; apply three_cases; cbn [slip_systems_fcc nth Nat.add Nat.eqb]; req; ring.
  Qed.
  Lemma diag_mul a b c a' b' c' : diag3 a b c ** diag3 a' b' c' == diag3 (a * a') (b * b') (c * c').
  Proof. intros i j Hi Hj. unfold mul3. rewrite sum3. revert i Hi. apply three_cases; revert j Hj; apply three_cases; unfold diag3; cbn [Nat.eqb]; req; ring. Qed.
  Lemma vol_diag a b c : vol (diag3 a b c) = a * b * c.
  Proof. rewrite vol_formula. unfold diag3. cbn [Nat.eqb]. req; ring. Qed.
  Lemma case_step : (fun i j => ident i j - flow fcc dt g0 ident uniaxial i j) == diag3 (1 - 8 * e) (1 + 4 * e) (1 + 4 * e).
  Proof.
    intros i j Hi Hj. rewrite (case_flow i j Hi Hj). revert i Hi. apply three_cases; revert j Hj; apply three_cases; unfold diag3, ident; cbn [Nat.eqb]; req; ring.
  Qed.
  Lemma case_plastic : times ident (fun i j => ident i j - flow fcc dt g0 ident uniaxial i j) == diag3 (1 - 8 * e) (1 + 4 * e) (1 + 4 * e).
  Proof. rewrite times_mul. eapply s_trans; [apply m_1l|]. exact case_step. Qed.
  Lemma case_volume : vol (times ident (fun i j => ident i j - flow fcc dt g0 ident uniaxial i j)) = 1 - 48 * (e * e) - 128 * (e * e * e).
  Proof. rewrite (vol_ext _ _ case_plastic), vol_diag. ring. Qed.
  (** strains *)
  Definition e1 : R := 289800 * s0 / 19326400000.
  Definition e2 : R := - 121400 * s0 / 19326400000.
  Definition k1 : R := sqrt (1 + 2 * e1).
  Definition k2 : R := sqrt (1 + 2 * e2).
  Lemma s0_bounds : 0 < s0 < 200.
  Proof.
    unfold s0. pose proof w6_pos as P. pose proof w6_sq as Q. split; [apply Rmult_lt_0_compat; [lra|now apply Rinv_0_lt_compat]|].
    assert (L : 1 / 3 < w6). { destruct (Rlt_dec (1 / 3) w6) as [L|L]; [exact L|]. exfalso. assert (w6 * w6 <= 1 / 3 * (1 / 3)) by (apply Rmult_le_compat; lra). lra. }
    assert (/ w6 < 3). { apply (Rmult_lt_reg_r w6); [exact P|]. rewrite Rinv_l by lra. lra. } lra.
  Qed.
  Lemma k1_sq : k1 * k1 = 1 + 2 * e1.
  Proof. unfold k1. apply sqrt_def. unfold e1. pose proof s0_bounds. lra. Qed.
  Lemma k2_sq : k2 * k2 = 1 + 2 * e2.
  Proof. unfold k2. apply sqrt_def. unfold e2. pose proof s0_bounds. lra. Qed.
  Lemma k1_pos : 0 < k1. Proof. apply sqrt_lt_R0. unfold e1. pose proof s0_bounds. lra. Qed.
  Lemma k2_pos : 0 < k2. Proof. apply sqrt_lt_R0. unfold e2. pose proof s0_bounds. lra. Qed.
  Hypothesis He : 0 <= e < / 8.
  Definition case_F : tensor := diag3 (k1 / (1 - 8 * e)) (k2 / (1 + 4 * e)) (k2 / (1 + 4 * e)).
  Definition case_G : tensor := fun i j => case_F i j - eye3 i j.
  Lemma case_def : def_grad case_G == case_F.
  Proof. intros i j _ _. unfold def_grad, case_G. req; ring. Qed.
  Lemma case_lattice F : F == case_F -> lattice fcc dt F ident g0 ident uniaxial == diag3 k1 k2 k2.
  Proof.
    intros H. unfold lattice. rewrite times_mul. eapply s_trans; [apply m_ext; [exact H|exact case_plastic]|]. eapply s_trans; [apply diag_mul|].
    intros i j _ _. unfold diag3. destruct (i =? j)%nat; [|reflexivity]. destruct i as [|[|i]]; req; field; lra.
  Qed.
  Lemma case_law F : F == case_F -> law_gap fcc dt F ident g0 ident uniaxial == no_stress.
  Proof.
    intros H. pose proof k1_sq as K1. pose proof k2_sq as K2.
    assert (E : green (lattice fcc dt F ident g0 ident uniaxial) == diag3 e1 e2 e2).
    { eapply s_trans; [apply green_ext, case_lattice, H|]. intros i j Hi Hj. unfold green. rewrite sum3. revert i Hi. apply three_cases; revert j Hj; apply three_cases; unfold diag3, ident; cbn [Nat.eqb]; req; lra. }
    assert (T : turned_law ident (diag3 e1 e2 e2) == uniaxial).
    { unfold turned_law. eapply s_trans; [apply conj_1|]. eapply s_trans; [apply cubic_ext; eapply s_trans; [apply conj_ext; [|apply s_refl]|apply conj_1]|].
      - intros i j _ _. unfold transp, ident. now rewrite Nat.eqb_sym.
      - intros i j Hi Hj. unfold cubic_law, trace. rewrite sum3. revert i Hi. apply three_cases; revert j Hj; apply three_cases; unfold diag3, uniaxial, e1, e2; cbn [Nat.eqb]; req; field. }
    intros i j Hi Hj. unfold law_gap. rewrite (turned_ext ident ident _ _ (s_refl _) E i j Hi Hj), (T i j Hi Hj). unfold no_stress. req; ring.
  Qed.
  Lemma case_F_vol : 0 < vol case_F.
  Proof.
    unfold case_F. rewrite vol_diag. pose proof k1_pos. pose proof k2_pos. repeat apply Rmult_lt_0_compat; try assumption; apply Rinv_0_lt_compat; lra.
  Qed.
  (** hardening *)
  Lemma case_hardening G Fp sl s : slip_resistance_new (helper fcc dt G Fp g0 sl ident uniaxial) s = 608 / 10 + 5415 / 10 * (Rabs (dt / 1000) * 8 * to_saturation (608 / 10)).
  Proof.
    rewrite hardening. unfold g0 at 1. do 2 f_equal. change (length fcc) with 12%nat.
    transitivity (sum_n (K := Rops) 12 (fun s => Rabs (dt / 1000) * to_saturation (608 / 10) * direction fcc s 0%nat)).
    - apply sum_n_ext. intros k Hk. rewrite (case_slip k Hk). unfold g0. destruct (direction_x k Hk) as [-> | ->]; [rewrite Rmult_0_r, Rabs_R0|rewrite Rmult_1_r]; req; ring.
    - rewrite sum12. unfold direction. cbn [slip_systems_fcc nth Nat.add]. req; ring.
  Qed.
End Slip.
Lemma case_saturation : 132 / 1000 <= to_saturation (608 / 10).
Proof.
  unfold to_saturation. cbv zeta. destruct (Rle_dec 0 (1 - 608 / 10 / (1098 / 10))) as [H|H]; [|lra].
  replace (1 - 608 / 10 / (1098 / 10)) with (490 / 1098) in * by field.
  assert (2 / 3 <= sqrt (490 / 1098)). { rewrite <- (sqrt_square (2 / 3)) by lra. apply sqrt_le_1_alt. lra. } lra.
Qed.
Lemma e_bounds : 0 < 100 / 1000 * w6 < / 8.
Proof. pose proof w6_pos as P. pose proof w6_sq as Q. split; [lra|]. destruct (Rlt_dec w6 (1 / 2)) as [L|L]; [lra|]. exfalso. assert (1 / 2 * (1 / 2) <= w6 * w6) by (apply Rmult_le_compat; lra). lra. Qed.

(** ** a tenth of this stress, reached by the local solve in one pass *)
Definition mild : tensor := fun i j => / 10 * uniaxial i j.
Definition eta : R := / 10 ^ 15 * w6.
Lemma eta_bounds : 0 < eta < / 10 ^ 15.
Proof.
  unfold eta. pose proof w6_pos as P. pose proof w6_sq as Q. assert (w6 < 1). { destruct (Rlt_dec w6 1) as [L|L]; [exact L|]. exfalso. assert (1 * 1 <= w6 * w6) by (apply Rmult_le_compat; lra). lra. }
  assert (0 < / 10 ^ 15) by (apply Rinv_0_lt_compat, pow_lt; lra). split; [now apply Rmult_lt_0_compat|]. rewrite <- (Rmult_1_r (/ 10 ^ 15)) at 2. now apply Rmult_lt_compat_l.
Qed.
Lemma mild_resolved s : resolved fcc ident mild s = / 10 * resolved fcc ident uniaxial s.
Proof. unfold resolved, ddot, mild. rewrite !sum3. req; ring. Qed.
Lemma mild_slip s : (s < 12)%nat -> slip_by (1 / 100) (resolved fcc ident mild s) (g0 s) = / 10 ^ 15 * direction fcc s 0%nat.
Proof.
  intros Hs. rewrite mild_resolved, (case_resolved s Hs). unfold slip_by, g0. destruct (direction_x s Hs) as [-> | ->].
  - rewrite !Rmult_0_r. destruct (Rle_dec 0 0) as [_|C]; [|lra]. unfold Rdiv at 3. rewrite Rmult_0_l. ring.
  - rewrite Rmult_1_r. destruct (Rle_dec 0 (/ 10 * (608 / 10))) as [_|C]; [|lra]. replace (/ 10 * (608 / 10) / (608 / 10)) with (/ 10) by field. field.
Qed.
Lemma mild_flow : flow fcc (1 / 100) g0 ident mild == diag3 (8 * eta) (- 4 * eta) (- 4 * eta).
Proof.
  intros i j Hi Hj. unfold flow. transitivity (sum_n (K := Rops) 12 (fun s => eta * (direction fcc s 0%nat * (direction fcc s i * normal fcc s j)))).
  - change (length fcc) with 12%nat. apply sum_n_ext. intros s Hs. rewrite (mild_slip s Hs), (fcc_frame s i j Hs Hi Hj). unfold eta. req; ring.
  - rewrite sum12. unfold normal, direction, diag3. cbn [slip_systems_fcc nth Nat.add].
    revert i Hi. apply three_cases; revert j Hj; apply three_cases; cbn [slip_systems_fcc nth Nat.add Nat.eqb]; req; ring.
Qed.
Definition m1 : R := sqrt (1 + 2 * (e1 / 10)).
Definition m2 : R := sqrt (1 + 2 * (e2 / 10)).
Lemma m1_sq : m1 * m1 = 1 + 2 * (e1 / 10).
Proof. unfold m1. apply sqrt_def. unfold e1. pose proof s0_bounds. lra. Qed.
Lemma m2_sq : m2 * m2 = 1 + 2 * (e2 / 10).
Proof. unfold m2. apply sqrt_def. unfold e2. pose proof s0_bounds. lra. Qed.
Definition mild_G : tensor := diag3 (m1 - 1) (m2 - 1) (m2 - 1).
Section Mild.
  Variables (G Fp : tensor) (g sl : vect) (M : tensor) (LS : tensor -> vect -> vect).
  Hypothesis HG : G == mild_G.
  Hypothesis HFp : Fp == ident.
  Hypothesis Hg : forall s, (s < 12)%nat -> g s = g0 s.
  Hypothesis HM : M == ident.
  Hypothesis HL : forall A, identity9 A -> exact_on LS A.
  Lemma mild_F : def_grad G == diag3 m1 m2 m2.
  Proof. intros i j Hi Hj. unfold def_grad. rewrite (HG i j Hi Hj). revert i Hi. apply three_cases; revert j Hj; apply three_cases; unfold mild_G, diag3, eye3; cbn [Nat.eqb]; req; ring. Qed.
  Lemma diag_law A a b : A == diag3 a b b -> turned_law ident (green A) == diag3 (168400 * ((a * a - 1) / 2) + 242800 * ((b * b - 1) / 2)) (121400 * ((a * a - 1) / 2) + 289800 * ((b * b - 1) / 2)) (121400 * ((a * a - 1) / 2) + 289800 * ((b * b - 1) / 2)).
  Proof.
    intros H. assert (E : green A == diag3 ((a * a - 1) / 2) ((b * b - 1) / 2) ((b * b - 1) / 2)).
    { eapply s_trans; [apply green_ext, H|]. intros i j Hi Hj. unfold green. rewrite sum3. revert i Hi. apply three_cases; revert j Hj; apply three_cases; unfold diag3, ident; cbn [Nat.eqb]; req; field. }
    eapply s_trans; [apply turned_ext; [apply s_refl|exact E]|]. unfold turned_law. eapply s_trans; [apply conj_1|]. eapply s_trans; [apply cubic_ext; eapply s_trans; [apply conj_ext; [|apply s_refl]|apply conj_1]|].
    - intros i j _ _. unfold transp, ident. now rewrite Nat.eqb_sym.
    - intros i j Hi Hj. unfold cubic_law, trace. rewrite sum3. revert i Hi. apply three_cases; revert j Hj; apply three_cases; unfold diag3; cbn [Nat.eqb]; req; field.
  Qed.
  Let gap S := law_gap fcc (1 / 100) (def_grad G) Fp g M S.
  Lemma gap_std S : gap S == law_gap fcc (1 / 100) (diag3 m1 m2 m2) ident g0 ident S.
  Proof. unfold gap. apply gap_ext; [exact mild_F|exact HFp|exact Hg|exact HM|apply s_refl]. Qed.
  Lemma mild_first : gap no_stress == (fun i j => - mild i j).
  Proof.
    eapply s_trans; [apply gap_std|]. intros i j Hi Hj. unfold law_gap.
    assert (L : lattice fcc (1 / 100) (diag3 m1 m2 m2) ident g0 ident no_stress == diag3 m1 m2 m2).
    { eapply s_trans; [apply lattice_elastic, flow_zero, s_refl|]. rewrite times_mul. apply m_1r. }
    rewrite (diag_law _ _ _ L i j Hi Hj), m1_sq, m2_sq. unfold mild, no_stress, uniaxial, e1, e2. revert i Hi. apply three_cases; revert j Hj; apply three_cases; unfold diag3; cbn [Nat.eqb]; req; field.
  Qed.
  Lemma mild_second S : S == mild -> size3 (gap S) <= / 10 ^ 8.
  Proof.
    intros H. set (x := m1 * m1 * (- 8 * eta + 32 * (eta * eta))). set (y := m2 * m2 * (4 * eta + 8 * (eta * eta))).
    assert (E : gap S == diag3 (- (168400 * x + 242800 * y)) (- (121400 * x + 289800 * y)) (- (121400 * x + 289800 * y))).
    { eapply s_trans; [apply gap_std|]. eapply s_trans; [apply gap_ext; [apply s_refl|apply s_refl|reflexivity|apply s_refl|exact H]|]. intros i j Hi Hj. unfold law_gap.
      assert (L : lattice fcc (1 / 100) (diag3 m1 m2 m2) ident g0 ident mild == diag3 (m1 * (1 - 8 * eta)) (m2 * (1 + 4 * eta)) (m2 * (1 + 4 * eta))).
      { unfold lattice. rewrite times_mul. eapply s_trans; [apply m_r|apply diag_mul]. rewrite times_mul. eapply s_trans; [apply m_1l|]. intros a b Ha Hb. rewrite (mild_flow a b Ha Hb).
        revert a Ha. apply three_cases; revert b Hb; apply three_cases; unfold diag3, ident; cbn [Nat.eqb]; req; ring. }
      rewrite (diag_law _ _ _ L i j Hi Hj).
      replace (m1 * (1 - 8 * eta) * (m1 * (1 - 8 * eta))) with (m1 * m1 + 2 * x) by (unfold x; ring). replace (m2 * (1 + 4 * eta) * (m2 * (1 + 4 * eta))) with (m2 * m2 + 2 * y) by (unfold y; ring).
      rewrite m1_sq, m2_sq. unfold mild, uniaxial, e1, e2. revert i Hi. apply three_cases; revert j Hj; apply three_cases; unfold diag3; cbn [Nat.eqb]; req; field. }
    rewrite (size_ext _ _ E). pose proof eta_bounds as (N1 & N2). pose proof s0_bounds as (S1 & S2).
    assert (T : / 10 ^ 15 = / 1000000000000000) by (f_equal; ring). rewrite T in N2. assert (T8 : / 10 ^ 8 = / 100000000) by (f_equal; ring). rewrite T8.
    assert (NN : 0 <= eta * eta <= eta * / 1000000000000000) by (split; [apply Rmult_le_pos; lra|apply Rmult_le_compat_l; lra]).
    assert (K1 : 0 <= m1 * m1 <= 11 / 10) by (rewrite m1_sq; unfold e1; lra). assert (K2 : 0 <= m2 * m2 <= 1) by (rewrite m2_sq; unfold e2; lra).
    assert (X : - 9 / 1000000000000000 <= x <= 0).
    { unfold x. set (u := 8 * eta - 32 * (eta * eta)). replace (- 8 * eta + 32 * (eta * eta)) with (- u) by (unfold u; ring). assert (U : 0 <= u <= 8 / 1000000000000000) by (unfold u; lra).
      assert (0 <= m1 * m1 * u <= 11 / 10 * (8 / 1000000000000000)) by (split; [apply Rmult_le_pos; lra|apply Rmult_le_compat; lra]). lra. }
    assert (Y : 0 <= y <= 5 / 1000000000000000).
    { unfold y. set (u := 4 * eta + 8 * (eta * eta)). assert (U : 0 <= u <= 5 / 1000000000000000) by (unfold u; lra).
      assert (0 <= m2 * m2 * u <= 1 * (5 / 1000000000000000)) by (split; [apply Rmult_le_pos; lra|apply Rmult_le_compat; lra]). lra. }
    set (p := - (168400 * x + 242800 * y)). set (q := - (121400 * x + 289800 * y)). assert (HP : - 3 / 1000000000 <= p <= 3 / 1000000000) by (unfold p; lra). assert (HQ : - 3 / 1000000000 <= q <= 3 / 1000000000) by (unfold q; lra).
    unfold size3. rewrite <- (sqrt_square (/ 100000000)) by lra. apply sqrt_le_1_alt. unfold ddot, diag3. rewrite !sum3. cbn [Nat.eqb].
    assert (SQ : forall z, - 3 / 1000000000 <= z <= 3 / 1000000000 -> z * z <= 9 / 1000000000000000000).
    { intros z Hz. replace (z * z) with (Rabs z * Rabs z) by (rewrite <- Rabs_mult; apply Rabs_pos_eq, Rle_0_sqr). assert (Rabs z <= 3 / 1000000000) by (apply Rabs_le; lra). pose proof (Rabs_pos z).
      replace (9 / 1000000000000000000) with (3 / 1000000000 * (3 / 1000000000)) by lra. apply Rmult_le_compat; lra. }
    pose proof (SQ p HP). pose proof (SQ q HQ). change (p * p + (0 * 0 + (0 * 0 + 0)) + (0 * 0 + (q * q + (0 * 0 + 0)) + (0 * 0 + (0 * 0 + (q * q + 0)) + 0)) <= / 100000000 * / 100000000). lra.
  Qed.
  Lemma mild_solved fuel : exists S, solved_S fcc (1 / 100) LS (Datatypes.S fuel) G Fp g sl M = Some S /\ S == mild.
  Proof.
    set (x := ravel_params fcc G Fp g sl M). set (fr := implicit_residual fcc (1 / 100) x).
    assert (FG : forall y, fr y = ravel9 (gap (unflatten_fn y))) by (intros y; apply residual_params).
    assert (F0 : fr (fun _ => 0) = ravel9 (fun i j => - mild i j)) by (rewrite FG; apply ravel_ext, mild_first).
    assert (T : tol < norm9 (fr (fun _ => 0))).
    { rewrite F0, norm9_size. eapply Rlt_le_trans; [|apply (entry_size _ 0 0); lia]. cbv beta. unfold mild, uniaxial. cbn [Nat.eqb]. rewrite Rabs_Ropp.
      pose proof s0_bounds. assert (1 <= s0). { unfold s0. pose proof w6_pos as P. pose proof w6_sq as Q. assert (w6 < 1). { destruct (Rlt_dec w6 1) as [L|L]; [exact L|]. exfalso. assert (1 * 1 <= w6 * w6) by (apply Rmult_le_compat; lra). lra. }
        assert (1 <= / w6). { rewrite <- Rinv_1. apply Rinv_le_contravar; lra. } lra. }
      rewrite Rabs_pos_eq by lra. unfold tol. assert (T8 : / 10 ^ 8 = / 100000000) by (f_equal; ring). rewrite T8. lra. }
    pose (d := LS (jacfwd fr (fun _ => 0)) (fun k => - fr (fun _ => 0) k)).
    assert (DH : unflatten_fn (half_step (fun _ => 0) d 0) == mild).
    { intros i j Hi Hj. unfold half_step, unflatten_fn. cbn [pow]. pose proof (jac_zero fcc (1 / 100) x) as I. pose proof (HL _ I (fun k => - fr (fun _ => 0) k) (3 * i + j)%nat ltac:(lia)) as E.
      rewrite (identity_apply _ _ _ I) in E by lia. change (d (3 * i + j)%nat = - fr (fun _ => 0) (3 * i + j)%nat) in E. rewrite E, F0, ravel_entry by assumption. req; field. }
    assert (ZR : norm9 (fr (half_step (fun _ => 0) d 0)) <= tol) by (rewrite FG, norm9_size; apply mild_second, DH).
    destruct (body_spec LS fr (fun _ => 0)) as (k & Hk & EN & _ & B & _). fold d in EN, B.
    assert (k = 0)%nat by (destruct k; [reflexivity|]; specialize (B 0%nat ltac:(lia)); lra). subst k.
    exists (unflatten_fn (iter LS fr 1)). split; [|cbn [iter]; rewrite EN; exact DH].
    unfold solved_S, newton_solver. fold x. fold fr. pose proof (loop_found LS fr 1 (Datatypes.S fuel) 0) as L. change (iter LS fr 0) with (fun _ : nat => 0) in L. change (0 + 1)%nat with 1%nat in L. cbv zeta. rewrite L; [reflexivity| | |lia].
    - intros j Hj. replace (0 + j)%nat with 0%nat by lia. exact T.
    - cbn [iter]. rewrite EN. exact ZR.
  Qed.
  Lemma mild_slips S s : S == mild -> (s < 12)%nat -> slip_by (1 / 100) (resolved fcc M S s) (g s) = / 10 ^ 15 * direction fcc s 0%nat.
  Proof. intros H Hs. rewrite (Hg s Hs), (resolved_ext fcc M ident S mild s HM H). now apply mild_slip. Qed.
End Mild.
