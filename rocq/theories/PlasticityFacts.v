(** The return map at one quadrature point, for C76. *)
From Coq Require Import Reals List Arith Lia Lra Bool.
From Verif Require Import Num Arr Fe Problem SpecAssembly SpecWeak SpecEnergy EnergyFacts Elastic ElasticFacts Plasticity SpecPlasticity.
Import ListNotations.
Local Open Scope R_scope.

Section Point.
  Variable d : nat.
  Hypothesis D : (0 < d)%nat.
  Lemma D0 : INR d <> 0.
  Proof. apply not_0_INR. lia. Qed.
  Lemma Dpos : 0 < INR d.
  Proof. now apply lt_0_INR. Qed.

  Definition tcomb (a : R) (A : tensor) (b : R) (B : tensor) : tensor := fun i j => a * A i j + b * B i j.
  Definition teye (a : R) : tensor := fun i j => if (i =? j)%nat then a else 0.

  Lemma ddot_ext A A' B B' : same_on d A A' -> same_on d B B' -> ddot d A B = ddot d A' B'.
  Proof. intros H1 H2. apply Rsum_ext. intros i Hi. apply Rsum_ext. intros j Hj. now rewrite H1, H2. Qed.
  Lemma ddot_sym A B : ddot d A B = ddot d B A.
  Proof. apply Rsum_ext. intros i Hi. apply Rsum_ext. intros j Hj. cbn; ring. Qed.
  Lemma ddot_comb_l a A b B C : ddot d (tcomb a A b B) C = a * ddot d A C + b * ddot d B C.
  Proof.
    unfold ddot. rewrite <- !Rsum_mul, <- Rsum_plus. apply Rsum_ext. intros i Hi. rewrite <- !Rsum_mul, <- Rsum_plus. apply Rsum_ext. intros j Hj. unfold tcomb. cbn; ring.
  Qed.
  Lemma ddot_comb_r a A b B C : ddot d C (tcomb a A b B) = a * ddot d C A + b * ddot d C B.
  Proof. rewrite ddot_sym, ddot_comb_l, (ddot_sym A), (ddot_sym B). reflexivity. Qed.
  Lemma ddot_nonneg A : 0 <= ddot d A A.
  Proof. apply Rsum_nonneg. intros i Hi. apply Rsum_nonneg. intros j Hj. apply Rle_0_sqr. Qed.
  Lemma ddot_zero A : ddot d A A = 0 -> same_on d A (fun _ _ => 0).
  Proof.
    intros H i j Hi Hj.
    assert (L : forall n (g : nat -> R) m, (forall x, (x < n)%nat -> 0 <= g x) -> (m < n)%nat -> g m <= sum_n (K := Rops) n g).
    { induction n as [|n IH]; intros g m N Hm; [lia|]. rewrite (sum_n_S Rops_ring). change (@add Rops) with Rplus.
      destruct (Nat.eq_dec m n) as [->|Ne].
      - pose proof (Rsum_nonneg n g (fun x Hx => N x (Nat.lt_trans _ _ _ Hx (Nat.lt_succ_diag_r n)))) as Z. lra.
      - pose proof (IH g m (fun x Hx => N x (Nat.lt_trans _ _ _ Hx (Nat.lt_succ_diag_r n))) ltac:(lia)) as Z. pose proof (N n (Nat.lt_succ_diag_r n)) as Y. lra. }
    assert (Z : A i j * A i j <= 0).
    { rewrite <- H. apply Rle_trans with (sum_n (K := Rops) d (fun j => A i j * A i j)).
      - apply (L d (fun j => A i j * A i j) j); [intros; apply Rle_0_sqr|auto].
      - apply (L d (fun i => sum_n (K := Rops) d (fun j => A i j * A i j)) i); [intros; apply Rsum_nonneg; intros; apply Rle_0_sqr|auto]. }
    pose proof (Rle_0_sqr (A i j)) as Y. unfold Rsqr in Y. apply Rsqr_0_uniq. unfold Rsqr. apply Rle_antisym; assumption.
  Qed.
  Lemma cauchy A B : ddot d A B <= sqrt (ddot d A A) * sqrt (ddot d B B).
  Proof.
    assert (Q : forall t, 0 <= ddot d A A + 2 * t * ddot d A B + t * t * ddot d B B).
    { intros t. replace (ddot d A A + 2 * t * ddot d A B + t * t * ddot d B B) with (ddot d (tcomb 1 A t B) (tcomb 1 A t B)); [apply ddot_nonneg|].
      rewrite ddot_comb_l, !ddot_comb_r, (ddot_sym B A). ring. }
    pose proof (ddot_nonneg A) as NA. pose proof (ddot_nonneg B) as NB.
    set (a := ddot d A A) in *. set (b := ddot d B B) in *. set (c := ddot d A B) in *.
    assert (H : c * c <= a * b).
    { destruct (Req_dec b 0) as [E|E].
      - destruct (Req_dec c 0) as [->|Ec]; [nra|]. specialize (Q (- (a + 1) / (2 * c))). rewrite E in Q.
        replace (a + 2 * (- (a + 1) / (2 * c)) * c + _ * _ * 0) with (-1) in Q by (field; lra). lra.
      - specialize (Q (- c / b)). replace (a + 2 * (- c / b) * c + - c / b * (- c / b) * b) with (a - c * c / b) in Q by (field; lra).
        assert (P : 0 < b) by lra. assert (c * c / b <= a) by lra. apply (Rmult_le_compat_r b) in H; [|lra].
        replace (c * c / b * b) with (c * c) in H by (field; lra). exact H. }
    rewrite <- sqrt_mult by assumption. apply Rle_trans with (Rabs c); [apply Rle_abs|]. rewrite <- (sqrt_Rsqr_abs c). apply sqrt_le_1_alt. exact H.
  Qed.

  Lemma trace_ext A B : same_on d A B -> trace d A = trace d B.
  Proof. intros H. apply Rsum_ext. intros i Hi. now apply H. Qed.
  Lemma trace_comb a A b B : trace d (tcomb a A b B) = a * trace d A + b * trace d B.
  Proof. unfold trace. rewrite <- !Rsum_mul, <- Rsum_plus. apply Rsum_ext. intros i Hi. reflexivity. Qed.
  Lemma Rsum_const n (a : R) : sum_n (K := Rops) n (fun _ => a) = INR n * a.
  Proof. induction n as [|n IH]; [cbn; req; ring|]. rewrite (sum_n_S Rops_ring), IH, S_INR. cbn; req; ring. Qed.
  Lemma trace_eye a : trace d (teye a) = INR d * a.
  Proof. rewrite <- Rsum_const. apply Rsum_ext. intros i Hi. unfold teye. now rewrite Nat.eqb_refl. Qed.
  Lemma ddot_eye a A : ddot d (teye a) A = a * trace d A.
  Proof.
    unfold ddot, trace. rewrite <- Rsum_mul. apply Rsum_ext. intros i Hi.
    transitivity (sum_n (K := Rops) d (fun j => (if (i =? j)%nat then 1 else 0) * (a * A i j))).
    - apply Rsum_ext. intros j Hj. unfold teye. destruct (i =? j)%nat; cbn; req; ring.
    - exact (Rsum_delta d i (fun j => a * A i j) Hi).
  Qed.

  Lemma shear_form A : same_on d (shear_part d A) (tcomb 1 A (- 1) (teye (trace d A / INR d))).
  Proof. intros i j Hi Hj. unfold shear_part, tcomb, teye. destruct (i =? j)%nat; req; ring. Qed.
  Lemma shear_ext A B : same_on d A B -> same_on d (shear_part d A) (shear_part d B).
  Proof. intros H i j Hi Hj. unfold shear_part. now rewrite H, (trace_ext A B H) by auto. Qed.
  Lemma shear_trace A : trace d (shear_part d A) = 0.
  Proof. rewrite (trace_ext _ _ (shear_form A)), trace_comb, trace_eye. req; field. apply D0. Qed.
  Lemma shear_comb a A b B : same_on d (shear_part d (tcomb a A b B)) (tcomb a (shear_part d A) b (shear_part d B)).
  Proof. intros i j Hi Hj. unfold shear_part. rewrite trace_comb. unfold tcomb. destruct (i =? j)%nat; req; field; apply D0. Qed.
  Lemma shear_shear A : same_on d (shear_part d (shear_part d A)) (shear_part d A).
  Proof. intros i j Hi Hj. unfold shear_part at 1. rewrite shear_trace. destruct (i =? j)%nat; req; field; apply D0. Qed.
  Lemma ddot_shear_r A B : ddot d (shear_part d A) B = ddot d (shear_part d A) (shear_part d B).
  Proof.
    rewrite (ddot_ext _ (shear_part d A) (shear_part d B) _ (fun i j _ _ => eq_refl) (shear_form B)).
    rewrite ddot_comb_r, (ddot_sym _ (teye _)), ddot_eye, shear_trace. ring.
  Qed.
  Lemma ddot_split A B : ddot d A B = ddot d (shear_part d A) (shear_part d B) + trace d A * trace d B / INR d.
  Proof.
    rewrite <- ddot_shear_r. rewrite (ddot_ext _ _ B B (shear_form A) (fun i j _ _ => eq_refl)).
    rewrite ddot_comb_l, ddot_eye. field. apply D0.
  Qed.
  Lemma deviator_shear A : same_on d (deviator d A) (shear_part d A).
  Proof. intros i j Hi Hj. unfold deviator, shear_part. destruct (i =? j)%nat; req; field; apply D0. Qed.
  Lemma safe_sqrt_sqrt x : 0 <= x -> safe_sqrt x = sqrt x.
  Proof. intros H. unfold safe_sqrt. destruct (Rlt_dec 0 x); [reflexivity|]. replace x with 0 by lra. now rewrite sqrt_0. Qed.
  Lemma s_norm_mises A : s_norm d (deviator d A) = von_mises d A.
  Proof.
    unfold s_norm, von_mises. change (sum_n (K := Rops) d _) with (ddot d (deviator d A) (deviator d A)).
    rewrite (ddot_ext _ _ _ _ (deviator_shear A) (deviator_shear A)). apply safe_sqrt_sqrt.
    pose proof (ddot_nonneg (shear_part d A)). lra.
  Qed.
  Lemma mises_nonneg A : 0 <= von_mises d A.
  Proof. apply sqrt_pos. Qed.
  Lemma mises_sq A : von_mises d A * von_mises d A = 3 / 2 * ddot d (shear_part d A) (shear_part d A).
  Proof. apply sqrt_sqrt. pose proof (ddot_nonneg (shear_part d A)). lra. Qed.
  Lemma mises_ext A B : same_on d A B -> von_mises d A = von_mises d B.
  Proof. intros H. unfold von_mises. now rewrite (ddot_ext _ _ _ _ (shear_ext A B H) (shear_ext A B H)). Qed.
  (** a stress with von Mises below the limit works at most that much in a shear direction *)
  Lemma mises_cauchy A B : ddot d (shear_part d A) (shear_part d B) <= 2 / 3 * (von_mises d A * von_mises d B).
  Proof.
    eapply Rle_trans; [apply cauchy|]. unfold von_mises. rewrite !sqrt_mult by (try lra; apply ddot_nonneg).
    pose proof (sqrt_sqrt (3 / 2) ltac:(lra)) as E. set (x := sqrt (ddot d (shear_part d A) _)). set (y := sqrt (ddot d (shear_part d B) _)).
    apply Req_le. transitivity (2 / 3 * (sqrt (3 / 2) * sqrt (3 / 2)) * (x * y)); [rewrite E; field|ring].
  Qed.
  Lemma mises_scale a A B : 0 <= a -> same_on d (shear_part d B) (fun i j => a * shear_part d A i j) -> von_mises d B = a * von_mises d A.
  Proof.
    intros Ha H. unfold von_mises. rewrite (ddot_ext _ _ _ _ H H).
    replace (ddot d (fun i j => a * shear_part d A i j) (fun i j => a * shear_part d A i j)) with (a * a * ddot d (shear_part d A) (shear_part d A)).
    - replace (3 / 2 * (a * a * ddot d (shear_part d A) (shear_part d A))) with ((a * a) * (3 / 2 * ddot d (shear_part d A) (shear_part d A))) by ring.
      rewrite sqrt_mult; [|nra|pose proof (ddot_nonneg (shear_part d A)); lra]. now rewrite sqrt_square.
    - symmetry. rewrite (ddot_ext _ (tcomb a (shear_part d A) 0 A) _ (tcomb a (shear_part d A) 0 A)) by (intros i j _ _; unfold tcomb; req; ring).
      rewrite ddot_comb_l, ddot_comb_r. ring.
  Qed.

  (** Hooke's law *)
  Definition G2 : R := 2 * (70000 / (2 * (1 + 3 / 10))).
  Definition kap : R := 3 / 10 / (1 - 2 * (3 / 10)).
  Lemma G2pos : 0 < G2. Proof. unfold G2. lra. Qed.
  Lemma kapos : 0 < kap. Proof. unfold kap. lra. Qed.
  Lemma hooke_form e : same_on d (hooke d e) (tcomb G2 e G2 (teye (kap * trace d e))).
  Proof. intros i j _ _. unfold hooke, tcomb, teye, G2, kap. destruct (i =? j)%nat; req; ring. Qed.
  Lemma stress_hooke e : same_on d (stress_of d e) (hooke d e).
  Proof. intros i j _ _. unfold stress_of, hooke, lmbda, mu, E_young, nu. destruct (i =? j)%nat; req; field. Qed.
  Lemma hooke_ext e e' : same_on d e e' -> same_on d (hooke d e) (hooke d e').
  Proof. intros H i j Hi Hj. unfold hooke. now rewrite H, (trace_ext e e' H) by auto. Qed.
  Lemma hooke_comb a A b B : same_on d (hooke d (tcomb a A b B)) (tcomb a (hooke d A) b (hooke d B)).
  Proof. intros i j Hi Hj. unfold hooke. rewrite trace_comb. unfold tcomb. destruct (i =? j)%nat; req; ring. Qed.
  Lemma hooke_trace e : trace d (hooke d e) = G2 * (1 + kap * INR d) * trace d e.
  Proof. rewrite (trace_ext _ _ (hooke_form e)), trace_comb, trace_eye. req; ring. Qed.
  Lemma bulk : 0 < 1 + kap * INR d.
  Proof. pose proof kapos. pose proof Dpos. nra. Qed.
  Definition compliance (s : tensor) : tensor := tcomb (/ G2) s (- / G2) (teye (kap / (1 + kap * INR d) * trace d s)).
  Lemma compliance_ok s : strain_of d s (compliance s).
  Proof.
    intros i j Hi Hj. rewrite (hooke_form _ i j Hi Hj). unfold compliance at 2. rewrite trace_comb, trace_eye.
    unfold tcomb, compliance, tcomb, teye. pose proof G2pos. pose proof bulk. destruct (i =? j)%nat; req; field; lra.
  Qed.
  Lemma hooke_inj e e' : same_on d (hooke d e) (hooke d e') -> same_on d e e'.
  Proof.
    intros H. assert (T : trace d e = trace d e').
    { pose proof (trace_ext _ _ H) as E. rewrite !hooke_trace in E. pose proof G2pos. pose proof bulk. apply (Rmult_eq_reg_l (G2 * (1 + kap * INR d))); [exact E|nra]. }
    intros i j Hi Hj. specialize (H i j Hi Hj). rewrite (hooke_form e i j Hi Hj), (hooke_form e' i j Hi Hj) in H. unfold tcomb in H. rewrite T in H. pose proof G2pos. nra.
  Qed.
  (** the energy product of two strains *)
  Definition hbil (a b : tensor) : R := ddot d (hooke d a) b.
  Lemma hbil_form a b : hbil a b = G2 * ddot d a b + G2 * kap * (trace d a * trace d b).
  Proof. unfold hbil. rewrite (ddot_ext _ _ b b (hooke_form a) (fun i j _ _ => eq_refl)), ddot_comb_l, ddot_eye. ring. Qed.
  Lemma hbil_sym a b : hbil a b = hbil b a.
  Proof. rewrite !hbil_form, (ddot_sym a b). ring. Qed.
  Lemma hbil_comb_l x a y b c : hbil (tcomb x a y b) c = x * hbil a c + y * hbil b c.
  Proof. rewrite !hbil_form, ddot_comb_l, trace_comb. ring. Qed.
  Lemma hbil_comb_r x a y b c : hbil c (tcomb x a y b) = x * hbil c a + y * hbil c b.
  Proof. rewrite !hbil_form, ddot_comb_r, trace_comb. ring. Qed.
  Lemma hbil_lower a : G2 * ddot d a a <= hbil a a.
  Proof. rewrite hbil_form. pose proof G2pos. pose proof kapos. pose proof (Rle_0_sqr (trace d a)) as S. unfold Rsqr in S. assert (0 <= G2 * kap) by nra. nra. Qed.
  Lemma hbil_nonneg a : 0 <= hbil a a.
  Proof. pose proof (hbil_lower a). pose proof (ddot_nonneg a). pose proof G2pos. nra. Qed.
  Lemma hbil_zero a : hbil a a <= 0 -> same_on d a (fun _ _ => 0).
  Proof. intros H. apply ddot_zero. pose proof (hbil_lower a). pose proof (ddot_nonneg a). pose proof G2pos. nra. Qed.
  Lemma hbil_ext a a' b b' : same_on d a a' -> same_on d b b' -> hbil a b = hbil a' b'.
  Proof. intros H1 H2. unfold hbil. apply ddot_ext; auto. now apply hooke_ext. Qed.
End Point.

Section Return.
  Variable d : nat.
  Hypothesis D : (0 < d)%nat.
  Variables (G so eo : tensor).
  (** the elastic predictor *)
  Definition predictor : tensor := fun i j => hooke d (fun k l => strain G k l - eo k l) i j + so i j.
  Let t := predictor.
  Let s := stress_return_map d G so eo.
  Lemma trial_predictor : same_on d (trial d G so eo) t.
  Proof. intros i j Hi Hj. unfold trial, t, predictor. now rewrite (stress_hooke d). Qed.
  (** the share of the shear part taken off *)
  Definition cut : R := if Rlt_dec 0 (von_mises d t - 250) then (von_mises d t - 250) / von_mises d t else 0.
  Lemma return_form : same_on d s (tcomb 1 t (- cut) (shear_part d t)).
  Proof.
    intros i j Hi Hj. unfold s, stress_return_map. cbv zeta. rewrite (s_norm_mises d D), (mises_ext d _ _ trial_predictor).
    rewrite (deviator_shear d D _ i j Hi Hj), (shear_ext d _ _ trial_predictor i j Hi Hj), (trial_predictor i j Hi Hj).
    unfold sig0, tcomb, cut, safe_divide. destruct (Rlt_dec 0 (von_mises d t - 250)).
    - destruct (Req_EM_T (von_mises d t) 0) as [E|E]; [lra|]. req; field. exact E.
    - destruct (Req_EM_T (von_mises d t) 0) as [E|E]; req; [ring|]. field. exact E.
  Qed.
  Lemma cut_range : 0 <= cut < 1.
  Proof.
    unfold cut. destruct (Rlt_dec 0 (von_mises d t - 250)); [|lra]. assert (0 < von_mises d t) by lra. split.
    - apply Rlt_le. apply Rdiv_lt_0_compat; lra.
    - apply (Rmult_lt_reg_r (von_mises d t)); [lra|]. unfold Rdiv. rewrite Rmult_assoc, Rinv_l by lra. lra.
  Qed.
  Lemma cut_zero : admissible d t -> cut = 0.
  Proof. unfold admissible, cut. intros H. destruct (Rlt_dec 0 (von_mises d t - 250)); [lra|reflexivity]. Qed.
  Lemma cut_pos : ~ admissible d t -> 0 < cut /\ (1 - cut) * von_mises d t = 250.
  Proof.
    unfold admissible, cut. intros H. destruct (Rlt_dec 0 (von_mises d t - 250)); [|lra]. split; [apply Rdiv_lt_0_compat; lra|field; lra].
  Qed.
  Lemma return_shear : same_on d (shear_part d s) (fun i j => (1 - cut) * shear_part d t i j).
  Proof.
    intros i j Hi Hj. rewrite (shear_ext d _ _ return_form i j Hi Hj), (shear_comb d D 1 t (- cut) _ i j Hi Hj).
    unfold tcomb. rewrite (shear_shear d D t i j Hi Hj). req; ring.
  Qed.
  Lemma return_mises : von_mises d s = (1 - cut) * von_mises d t.
  Proof. apply (mises_scale d); [pose proof cut_range; lra|exact return_shear]. Qed.
  Lemma return_admissible : admissible d s.
  Proof.
    unfold admissible. rewrite return_mises. destruct (Rle_dec (von_mises d t) 250) as [H|H].
    - rewrite (cut_zero H). lra.
    - destruct (cut_pos H) as (_ & ->). lra.
  Qed.
  Lemma return_elastic : admissible d t -> same_on d s t.
  Proof. intros H i j Hi Hj. rewrite (return_form i j Hi Hj), (cut_zero H). unfold tcomb. req; ring. Qed.
  Lemma return_trace : trace d s = trace d t.
  Proof. rewrite (trace_ext d _ _ return_form), trace_comb, (shear_trace d D). req; ring. Qed.
  Lemma predictor_symmetric : symmetric d so -> symmetric d eo -> symmetric d t.
  Proof.
    intros H1 H2 i j Hi Hj. unfold t, predictor. rewrite (H1 i j) by auto. f_equal. unfold hooke. rewrite (Nat.eqb_sym j i), (H2 i j) by auto.
    replace (strain G j i) with (strain G i j) by (unfold strain; req; ring). reflexivity.
  Qed.
  Lemma return_symmetric : symmetric d so -> symmetric d eo -> symmetric d s.
  Proof.
    intros H1 H2 i j Hi Hj. rewrite (return_form i j Hi Hj), (return_form j i Hj Hi). unfold tcomb, shear_part.
    rewrite (predictor_symmetric H1 H2 j i) by auto. now rewrite (Nat.eqb_sym j i).
  Qed.
  (** plastic strain of the step *)
  Definition flow : tensor := fun i j => cut / G2 * shear_part d t i j.
  Lemma flow_trace : trace d flow = 0.
  Proof.
    rewrite (trace_ext d _ (tcomb (cut / G2) (shear_part d t) 0 t)) by (intros i j _ _; unfold flow, tcomb; req; ring).
    rewrite trace_comb, (shear_trace d D). req; ring.
  Qed.
  Lemma flow_stress : same_on d (hooke d flow) (fun i j => t i j - s i j).
  Proof.
    intros i j Hi Hj. rewrite (hooke_form d flow i j Hi Hj), flow_trace, (return_form i j Hi Hj). unfold tcomb, teye, flow.
    pose proof G2pos. destruct (i =? j)%nat; req; field; lra.
  Qed.
  Lemma flow_dissipates tau : admissible d tau -> 0 <= ddot d (fun i j => s i j - tau i j) flow.
  Proof.
    intros A. destruct (Rle_dec (von_mises d t) 250) as [H|H].
    - rewrite (ddot_ext d _ (fun i j => s i j - tau i j) flow (tcomb 0 t 0 t)) by (intros i j _ _; unfold flow, tcomb; rewrite ?(cut_zero H); req; try reflexivity; field; pose proof G2pos; lra).
      rewrite ddot_comb_r. lra.
    - destruct (cut_pos H) as (C & E).
      rewrite (ddot_ext d _ (tcomb 1 s (- 1) tau) flow (tcomb (cut / G2) (shear_part d t) 0 t)) by (intros i j _ _; unfold flow, tcomb; req; ring).
      rewrite ddot_comb_r, ddot_comb_l, (ddot_sym d s), (ddot_sym d tau), (ddot_shear_r d D t s), (ddot_shear_r d D t tau), (ddot_sym d _ (shear_part d s)), (ddot_sym d _ (shear_part d tau)).
      assert (E1 : ddot d (shear_part d s) (shear_part d t) = 2 / 3 * (250 * von_mises d t)).
      { rewrite (ddot_ext d _ (tcomb (1 - cut) (shear_part d t) 0 t) _ (shear_part d t)); [|intros i j Hi Hj; rewrite (return_shear i j Hi Hj); unfold tcomb; req; ring|intros i j _ _; reflexivity].
        rewrite ddot_comb_l. pose proof (mises_sq d t) as M. rewrite <- E. nra. }
      pose proof (mises_cauchy d tau t) as E2. unfold admissible in A. pose proof (mises_nonneg d t) as N. pose proof G2pos as GP.
      assert (E3 : von_mises d tau * von_mises d t <= 250 * von_mises d t) by (apply Rmult_le_compat_r; auto).
      assert (CG : 0 < cut / G2) by (apply Rdiv_lt_0_compat; lra).
      assert (Z : 0 <= ddot d (shear_part d s) (shear_part d t) - ddot d (shear_part d tau) (shear_part d t)) by lra. nra.
  Qed.
  Lemma zero_admissible : admissible d (fun _ _ => 0).
  Proof.
    assert (Z : same_on d (shear_part d (fun _ _ => 0)) (fun i j => 0 * shear_part d t i j)).
    { intros i j _ _. unfold shear_part. assert (E : trace d (fun _ _ => 0 : Rops) = 0) by (unfold trace; rewrite Rsum_const; req; ring).
      rewrite E. destruct (i =? j)%nat; req; [|ring]. field. now apply D0. }
    unfold admissible. rewrite (mises_scale d 0 t _ (Rle_refl 0) Z). lra.
  Qed.

  (** strain increment = elastic part + plastic part *)
  Lemma strain_split : same_on d (fun k l => strain G k l - eo k l) (fun k l => compliance d (fun i j => s i j - so i j) k l + flow k l).
  Proof.
    apply (hooke_inj d D). intros i j Hi Hj.
    rewrite (hooke_ext d (fun k l => compliance d (fun i j => s i j - so i j) k l + flow k l) (tcomb 1 (compliance d (fun i j => s i j - so i j)) 1 flow) ltac:(intros a b _ _; unfold tcomb; req; ring) i j Hi Hj).
    rewrite (hooke_comb d 1 _ 1 _ i j Hi Hj). unfold tcomb. rewrite (compliance_ok d D _ i j Hi Hj), (flow_stress i j Hi Hj).
    unfold t, predictor. symmetry. req; ring.
  Qed.
End Return.
