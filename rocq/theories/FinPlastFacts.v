(** The return map of finite-strain plasticity at a point, for C90. *)
From Coq Require Import Reals List Arith Lia Lra Bool.
From Verif Require Import Num Arr ArrFacts Fe FeFacts SpecFe Problem SpecAssembly SpecWeak SpecEnergy Elastic ElasticFacts Plasticity SpecPlasticity PlasticityFacts
  Lagrangian SpecLagrangian LagrangianFacts LagrangianMain FinPlast SpecFinPlast.
Import ListNotations.
Local Open Scope R_scope.

Notation "A == B" := (same_on 3 A B) (at level 70).
Notation "A ** B" := (mul3 A B) (at level 40, left associativity).
Notation "A ^T" := (trans3 A) (at level 9, format "A ^T").
Lemma s_refl A : A == A. Proof. intros i j _ _. reflexivity. Qed.
Lemma s_sym A B : A == B -> B == A. Proof. intros H i j Hi Hj. symmetry. now apply H. Qed.
Lemma s_trans A B C : A == B -> B == C -> A == C. Proof. intros H1 H2 i j Hi Hj. rewrite H1 by auto. now apply H2. Qed.
Lemma m_ext A A' B B' : A == A' -> B == B' -> A ** B == A' ** B'. Proof. exact (mm_ext (K := Rops) A A' B B'). Qed.
Lemma m_l A A' B : A == A' -> A ** B == A' ** B. Proof. intros H. apply m_ext; [exact H|apply s_refl]. Qed.
Lemma m_r A B B' : B == B' -> A ** B == A ** B'. Proof. intros H. apply m_ext; [apply s_refl|exact H]. Qed.
Lemma m_assoc A B C : (A ** B) ** C == A ** (B ** C). Proof. exact (mm_assoc Rops_field A B C). Qed.
Lemma m_1r A : A ** eye3 == A. Proof. exact (mm_id_r Rops_field A). Qed.
Lemma m_1l A : eye3 ** A == A. Proof. exact (mm_id_l Rops_field A). Qed.
Lemma m_inv_r M : vol M <> 0 -> M ** inv_mat (K := Rops) 3 M == eye3. Proof. exact (mm_inv_r Rops_field M). Qed.
Lemma m_inv_l M : vol M <> 0 -> inv_mat (K := Rops) 3 M ** M == eye3. Proof. exact (mm_inv_l Rops_field M). Qed.
Lemma m_cancel A B M : vol M <> 0 -> A ** M == B ** M -> A == B. Proof. exact (cancel_r Rops_field A B M). Qed.
Lemma vol_mul A B : vol (A ** B) = vol A * vol B. Proof. exact (det_mm Rops_field A B). Qed.
Lemma vol_ext A B : A == B -> vol A = vol B. Proof. exact (det_ext3 (K := Rops) A B). Qed.
Lemma t_mul A B : (A ** B)^T == B^T ** A^T.
Proof. intros i j _ _. unfold trans3, mul3. rewrite !sum3. req; ring. Qed.
Lemma t_ext A B : A == B -> A^T == B^T. Proof. intros H i j Hi Hj. unfold trans3. now apply H. Qed.
Lemma t_1 : eye3^T == eye3. Proof. intros i j _ _. unfold trans3, eye3. now rewrite Nat.eqb_sym. Qed.
Lemma vol_formula A : vol A = A 0%nat 0%nat * (A 1%nat 1%nat * A 2%nat 2%nat - A 1%nat 2%nat * A 2%nat 1%nat)
  - A 0%nat 1%nat * (A 1%nat 0%nat * A 2%nat 2%nat - A 1%nat 2%nat * A 2%nat 0%nat) + A 0%nat 2%nat * (A 1%nat 0%nat * A 2%nat 1%nat - A 1%nat 1%nat * A 2%nat 0%nat).
Proof. unfold vol. rewrite (det_det3 Rops_ring). unfold det3. cbv [add mul sub opp zero one Rops]. req; ring. Qed.
Lemma vol_t A : vol A^T = vol A. Proof. rewrite !vol_formula. unfold trans3. ring. Qed.
Lemma vol_1 : vol eye3 = 1. Proof. rewrite vol_formula. cbn. ring. Qed.
Lemma vol_scale c A : vol (fun i j => c * A i j) = c * c * c * vol A. Proof. rewrite !vol_formula. req; ring. Qed.
Lemma conj_mul A B : conj3 A B == A ** B ** A^T.
Proof. intros i j _ _. unfold conj3, mul3, trans3. rewrite !sum3. req; ring. Qed.
Lemma times_mul A B : times A B = A ** B. Proof. reflexivity. Qed.
Lemma ident_eye : ident = eye3. Proof. reflexivity. Qed.
Lemma three : INR 3 = 3. Proof. cbn. ring. Qed.

(** ** the shear part *)
Lemma dev_shear A : deviatoric A == shear_part 3 A.
Proof. intros i j _ _. unfold deviatoric, shear_part, eye3. rewrite three. destruct (i =? j)%nat; req; field. Qed.
Lemma norm_shear A : norm3 (fun i j => shear_G * deviatoric A i j) = shear_stress A.
Proof.
  unfold norm3, shear_stress.
  replace (sum_n (K := Rops) 3 (fun i => sum_n (K := Rops) 3 (fun j => shear_G * deviatoric A i j * (shear_G * deviatoric A i j))))
    with (80000 * 80000 * ddot 3 (shear_part 3 A) (shear_part 3 A)).
  - rewrite sqrt_mult; [|lra|apply ddot_nonneg]. now rewrite sqrt_square by lra.
  - rewrite <- (ddot_ext 3 _ _ _ _ (dev_shear A) (dev_shear A)). unfold ddot, shear_G. rewrite !sum3. req; ring.
Qed.
Lemma shear_stress_ext A B : A == B -> shear_stress A = shear_stress B.
Proof. intros H. unfold shear_stress. now rewrite (ddot_ext 3 _ _ _ _ (shear_ext 3 _ _ H) (shear_ext 3 _ _ H)). Qed.
Lemma shear_stress_nonneg A : 0 <= shear_stress A.
Proof. unfold shear_stress. pose proof (sqrt_pos (ddot 3 (shear_part 3 A) (shear_part 3 A))). lra. Qed.
Lemma shear_stress_scale c A B : 0 <= c -> shear_part 3 B == (fun i j => c * shear_part 3 A i j) -> shear_stress B = c * shear_stress A.
Proof.
  intros Hc H. unfold shear_stress. rewrite (ddot_ext 3 _ _ _ _ H H).
  replace (ddot 3 (fun i j => c * shear_part 3 A i j) (fun i j => c * shear_part 3 A i j)) with (c * c * ddot 3 (shear_part 3 A) (shear_part 3 A)).
  - rewrite sqrt_mult; [|apply Rle_0_sqr|apply ddot_nonneg]. rewrite sqrt_square by exact Hc. ring.
  - unfold ddot. rewrite !sum3. req; ring.
Qed.
Lemma tau_kirchhoff F b : get_tau F b == kirchhoff (vol F) b.
Proof.
  intros i j Hi Hj. unfold get_tau, kirchhoff. rewrite (dev_shear b i j Hi Hj). unfold vol, bulk_K, shear_G, eye3. destruct (i =? j)%nat; req; field.
Qed.
Lemma kirchhoff_ext J b b' : b == b' -> kirchhoff J b == kirchhoff J b'.
Proof. intros H i j Hi Hj. unfold kirchhoff. now rewrite (shear_ext 3 _ _ H i j Hi Hj). Qed.

(** ** the correction, as a function of the trial value *)
Section Core.
  Variables (bt : tensor) (a : R).
  Definition over : R := shear_stress bt - strength a.
  Definition mean : R := trace 3 bt / 3.
  (** share of the shear that stays, and the added hardening *)
  Definition keep : R := if Rlt_dec over 0 then 1 else 1 - over * (mean * 80000) / ((mean * 80000 + 6) * shear_stress bt).
  Definition gain : R := if Rlt_dec over 0 then 0 else sqrt (2 / 3) * (over / (2 * (mean * 80000 + 6))).
  Definition b_new : tensor := fun i j => keep * shear_part 3 bt i j + (if (i =? j)%nat then mean else 0).
  Lemma b_new_split : b_new == tcomb keep (shear_part 3 bt) 1 (teye mean).
  Proof. intros i j _ _. unfold b_new, tcomb, teye. destruct (i =? j)%nat; req; ring. Qed.
  Lemma trace_teye x : trace 3 (teye x) = 3 * x.
  Proof. unfold trace, teye. rewrite sum3. cbn. req; ring. Qed.
  Lemma shear_teye x : shear_part 3 (teye x) == (fun _ _ => 0).
  Proof. intros i j _ _. unfold shear_part. rewrite trace_teye, three. unfold teye. destruct (i =? j)%nat; req; field. Qed.
  Lemma b_new_trace : trace 3 b_new = trace 3 bt.
  Proof.
    rewrite (trace_ext 3 _ _ b_new_split).
    transitivity (keep * trace 3 (shear_part 3 bt) + 1 * trace 3 (teye mean)); [unfold trace, tcomb; rewrite !sum3; req; ring|].
    rewrite (shear_trace 3 (Nat.lt_0_succ 2)), trace_teye. unfold mean. req; field.
  Qed.
  Lemma b_new_shear : shear_part 3 b_new == (fun i j => keep * shear_part 3 bt i j).
  Proof.
    intros i j Hi Hj. unfold shear_part at 1. rewrite b_new_trace. unfold b_new, mean. rewrite three. destruct (i =? j)%nat; req; ring.
  Qed.
  Lemma b_new_symmetric : symmetric 3 bt -> symmetric 3 b_new.
  Proof. intros S i j Hi Hj. unfold b_new, shear_part. rewrite (S i j Hi Hj), (Nat.eqb_sym i j). reflexivity. Qed.

  Hypothesis A0 : 0 <= a.
  Hypothesis M0 : 0 < mean.
  Lemma strength_pos : 0 < strength a.
  Proof. unfold strength. apply Rmult_lt_0_compat; [apply sqrt_lt_R0; lra|lra]. Qed.
  Lemma keep_range : 0 < keep <= 1.
  Proof.
    unfold keep. destruct (Rlt_dec over 0) as [H|H]; [lra|]. pose proof strength_pos as SP. unfold over in *.
    set (n := shear_stress bt) in *. set (g := mean * 80000) in *. assert (G : 0 < g) by (unfold g; lra).
    assert (D : 0 < (g + 6) * n) by (apply Rmult_lt_0_compat; lra).
    assert (X : 0 <= (n - strength a) * g / ((g + 6) * n) < 1); [|lra].
    split; [apply Rmult_le_pos; [apply Rmult_le_pos; lra|left; now apply Rinv_0_lt_compat]|].
    apply (Rmult_lt_reg_r ((g + 6) * n)); [exact D|]. unfold Rdiv. rewrite Rmult_assoc, Rinv_l by lra. rewrite Rmult_1_r, Rmult_1_l. nra.
  Qed.
  Lemma keep_lt : 0 < over -> keep < 1.
  Proof.
    intros O. unfold keep. destruct (Rlt_dec over 0) as [H|H]; [lra|]. pose proof strength_pos as SP. unfold over in *.
    set (n := shear_stress bt) in *. set (g := mean * 80000) in *. assert (G : 0 < g) by (unfold g; lra).
    assert (D : 0 < (g + 6) * n) by (apply Rmult_lt_0_compat; lra).
    assert (X : 0 < (n - strength a) * g / ((g + 6) * n)); [|lra].
    apply Rmult_lt_0_compat; [apply Rmult_lt_0_compat; lra|now apply Rinv_0_lt_compat].
  Qed.
  Lemma gain_nonneg : 0 <= gain.
  Proof.
    unfold gain. destruct (Rlt_dec over 0) as [H|H]; [lra|]. apply Rmult_le_pos; [apply sqrt_pos|]. apply Rmult_le_pos; [lra|]. left. apply Rinv_0_lt_compat. lra.
  Qed.
  Lemma gain_pos : 0 < over -> 0 < gain.
  Proof.
    intros O. unfold gain. destruct (Rlt_dec over 0) as [H|H]; [lra|]. apply Rmult_lt_0_compat; [apply sqrt_lt_R0; lra|]. apply Rmult_lt_0_compat; [lra|]. apply Rinv_0_lt_compat. lra.
  Qed.
  Lemma elastic_keep : over <= 0 -> keep = 1 /\ gain = 0.
  Proof.
    intros O. unfold keep, gain. destruct (Rlt_dec over 0) as [H|H]; [now split|]. assert (Z : over = 0) by lra. rewrite Z. unfold Rdiv. split; ring.
  Qed.
  Lemma b_new_shear_stress : shear_stress b_new = keep * shear_stress bt.
  Proof. apply shear_stress_scale; [pose proof keep_range; lra|exact b_new_shear]. Qed.
  Lemma sqrt23 : sqrt (2 / 3) * sqrt (2 / 3) = 2 / 3. Proof. apply sqrt_sqrt. lra. Qed.
  (** on the yield surface *)
  Lemma b_new_surface : 0 <= over -> shear_stress b_new = strength (a + gain).
  Proof.
    intros O. rewrite b_new_shear_stress. unfold keep, gain. destruct (Rlt_dec over 0) as [H|H]; [lra|]. clear H. pose proof strength_pos as SP.
    assert (ST : forall x, strength (a + sqrt (2 / 3) * x) = strength a + 12 * x).
    { intros x. unfold strength. transitivity (sqrt (2 / 3) * (400 + 18 * a) + 18 * (sqrt (2 / 3) * sqrt (2 / 3)) * x); [ring|]. rewrite sqrt23. field. }
    rewrite ST. unfold over in *. field. lra.
  Qed.
  Lemma b_new_within : shear_stress b_new <= strength (a + gain).
  Proof.
    destruct (Rle_lt_dec 0 over) as [O|O]; [right; now apply b_new_surface|].
    rewrite b_new_shear_stress. destruct (elastic_keep (Rlt_le _ _ O)) as [-> ->]. unfold over in O. rewrite Rplus_0_r. lra.
  Qed.
  (** plastic flow *)
  Lemma flow_amount : sqrt (2 / 3) * (shear_stress bt - shear_stress b_new) = 2 * 80000 * mean * gain.
  Proof.
    rewrite b_new_shear_stress. unfold keep, gain. destruct (Rlt_dec over 0) as [H|H]; [ring|]. pose proof strength_pos as SP. unfold over in *. field. lra.
  Qed.
  Lemma b_new_elastic : over <= 0 -> b_new == bt.
  Proof.
    intros O i j Hi Hj. unfold b_new. rewrite (proj1 (elastic_keep O)). unfold shear_part, mean. rewrite three. destruct (i =? j)%nat; req; field.
  Qed.
  Lemma b_new_positive : positive bt -> positive b_new.
  Proof.
    intros PB v V. pose proof keep_range as (K0 & K1).
    replace (sum_n (K := Rops) 3 (fun i => sum_n (K := Rops) 3 (fun j => v i * b_new i j * v j)))
      with (keep * sum_n (K := Rops) 3 (fun i => sum_n (K := Rops) 3 (fun j => v i * bt i j * v j)) + (1 - keep) * mean * (v 0%nat * v 0%nat + v 1%nat * v 1%nat + v 2%nat * v 2%nat)).
    - apply Rplus_lt_le_0_compat; [apply Rmult_lt_0_compat; [exact K0|now apply PB]|]. apply Rmult_le_pos; [apply Rmult_le_pos; lra|]. nra.
    - unfold b_new, shear_part, mean. rewrite three, !sum3. cbn [Nat.eqb]. req; ring.
  Qed.
End Core.

(** ** the code computes them *)
Lemma yield_over G Fo bo a : yield_trial G Fo bo a = over (be_trial G Fo bo) a.
Proof. unfold yield_trial, stress_trial, over. rewrite norm_shear. reflexivity. Qed.
Section Map.
  Variables (G Fo bo : tensor) (a : R).
  Let bt := be_trial G Fo bo.
  Hypothesis A0 : 0 <= a.
  Hypothesis M0 : 0 < trace 3 bt.
  Let M1 : 0 < mean bt. Proof. unfold mean. lra. Qed.
  Lemma map_a : snd (fst (return_map G Fo bo a)) = a + gain bt a.
  Proof.
    unfold return_map, gain. rewrite yield_over. fold bt. destruct (Rlt_dec (over bt a) 0) as [H|H]; cbn [fst snd]; [ring|].
    apply f_equal, f_equal. pose proof M1 as M2. unfold hard_H1, shear_G.
    replace (1 / 3 * trace 3 bt) with (mean bt) by (unfold mean; field). set (m := mean bt) in *. field. lra.
  Qed.
  Lemma map_b : fst (fst (return_map G Fo bo a)) == b_new bt a.
  Proof.
    intros i j Hi Hj. unfold return_map. rewrite yield_over. fold bt. destruct (Rlt_dec (over bt a) 0) as [H|H]; cbn [fst snd].
    - symmetry. apply (b_new_elastic bt a); auto. lra.
    - unfold stress_trial. rewrite norm_shear. fold bt. rewrite (dev_shear bt i j Hi Hj). unfold b_new, keep. destruct (Rlt_dec (over bt a) 0) as [C|_]; [contradiction|].
      pose proof M1 as M2. pose proof (strength_pos a A0) as SP. unfold over in *. unfold hard_H1, shear_G, eye3.
      replace (1 / 3 * trace 3 bt) with (mean bt) by (unfold mean; field). set (m := mean bt) in *. set (n := shear_stress bt) in *.
      set (s := shear_part 3 bt i j). destruct (i =? j)%nat; req; field; lra.
  Qed.
  Lemma map_tau : snd (return_map G Fo bo a) == kirchhoff (vol (def_grad G)) (b_new bt a).
  Proof.
    eapply s_trans; [|apply kirchhoff_ext; exact map_b]. eapply s_trans; [|apply tau_kirchhoff].
    unfold return_map. destruct (Rlt_dec (yield_trial G Fo bo a) 0); cbn [fst snd]; apply s_refl.
  Qed.
End Map.
