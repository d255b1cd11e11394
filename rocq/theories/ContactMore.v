(** Lemmas for C103: turning together, moment, states without energy, the random diagonal. *)
From Coq Require Import String Reals List Arith Lia Lra Psatz Bool.
From Verif Require Import Num Arr ArrFacts Fe SpecFe FeFacts Problem ProblemFacts DerivFacts SpecEnergy Elastic ElasticFacts Plasticity SpecEigen HyperElastic SpecHyper HyperFacts HyperMain HyperUse HyperEnd Contact SpecContact ContactRot ContactMain.
Import ListNotations.
Local Open Scope R_scope.
Local Notation sum := (sum_n (K := Rops)).

Lemma rot2_alg (a b c e : R) : a * e - b * c = 1 -> a * a + (c * c + 0) = 1 -> a * b + (c * e + 0) = 0 -> e = a /\ b = - c /\ a * a + c * c = 1.
Proof.
  intros D O0 O1. split; [|split; [|lra]].
  - transitivity (e * (a * a + (c * c + 0))); [rewrite O0; ring|]. transitivity (a * (a * e - b * c) + c * (a * b + (c * e + 0))); [ring|rewrite D, O1; ring].
  - transitivity (b * (a * a + (c * c + 0))); [rewrite O0; ring|]. transitivity (a * (a * b + (c * e + 0)) - c * (a * e - b * c)); [ring|rewrite D, O1; ring].
Qed.
Lemma rot2_form Q : is_rotation 2 Q -> Q 1%nat 1%nat = Q 0%nat 0%nat /\ Q 0%nat 1%nat = - Q 1%nat 0%nat /\ Q 0%nat 0%nat * Q 0%nat 0%nat + Q 1%nat 0%nat * Q 1%nat 0%nat = 1.
Proof.
  intros [D O]. rewrite det2_at in D. pose proof (O 0 0 ltac:(lia) ltac:(lia))%nat as O0. pose proof (O 0 1 ltac:(lia) ltac:(lia))%nat as O1. pose proof (O 1 1 ltac:(lia) ltac:(lia))%nat as O3.
  unfold product, transposed, identity in *. rewrite rsum2 in O0, O1, O3. cbn [Nat.eqb] in *. exact (rot2_alg _ _ _ _ D O0 O1).
Qed.
Lemma swing_rot Q F : is_rotation 2 Q -> swing (product 2 Q F) = swing F /\ (product 2 Q F 0%nat 0%nat + product 2 Q F 1%nat 1%nat = Q 0%nat 0%nat * (F 0%nat 0%nat + F 1%nat 1%nat) - Q 1%nat 0%nat * (F 1%nat 0%nat - F 0%nat 1%nat)) /\
  (product 2 Q F 1%nat 0%nat - product 2 Q F 0%nat 1%nat = Q 1%nat 0%nat * (F 0%nat 0%nat + F 1%nat 1%nat) + Q 0%nat 0%nat * (F 1%nat 0%nat - F 0%nat 1%nat)).
Proof.
  intros RQ. destruct (rot2_form Q RQ) as (E1 & E2 & E3). assert (A : product 2 Q F 0%nat 0%nat + product 2 Q F 1%nat 1%nat = Q 0%nat 0%nat * (F 0%nat 0%nat + F 1%nat 1%nat) - Q 1%nat 0%nat * (F 1%nat 0%nat - F 0%nat 1%nat)).
  { unfold product. rewrite !rsum2, E1, E2. req; ring. }
  assert (B : product 2 Q F 1%nat 0%nat - product 2 Q F 0%nat 1%nat = Q 1%nat 0%nat * (F 0%nat 0%nat + F 1%nat 1%nat) + Q 0%nat 0%nat * (F 1%nat 0%nat - F 0%nat 1%nat)).
  { unfold product. rewrite !rsum2, E1, E2. req; ring. }
  split; [|auto]. unfold swing. rewrite A, B. apply (f_equal sqrt). revert E3. generalize (Q 0%nat 0%nat) (Q 1%nat 0%nat) (F 0%nat 0%nat + F 1%nat 1%nat) (F 1%nat 0%nat - F 0%nat 1%nat). cbn. intros c s a b U.
  transitivity ((c * c + s * s) * (a * a + b * b)); [ring|rewrite U; ring].
Qed.
Lemma cos_rot Q F : is_rotation 2 Q -> 0 < det (K := Rops) 2 F -> swing_cos (product 2 Q F) = Q 0%nat 0%nat * swing_cos F - Q 1%nat 0%nat * swing_sin F /\ swing_sin (product 2 Q F) = Q 1%nat 0%nat * swing_cos F + Q 0%nat 0%nat * swing_sin F.
Proof.
  intros RQ P. destruct (swing_rot Q F RQ) as (E & A & B). pose proof (swing_pos F P). unfold swing_cos, swing_sin. rewrite E, A, B. split; req; unfold Rdiv; ring.
Qed.
Lemma norm_dot F : norm_sq F = ten_dot 2 F F. Proof. unfold norm_sq, ten_dot. rewrite !rsum2. req; ring. Qed.
Lemma shape_rot Q F : is_rotation 2 Q -> shape_energy (product 2 Q F) = shape_energy F /\ volume_energy (product 2 Q F) = volume_energy F.
Proof. intros RQ. unfold shape_energy, volume_energy. rewrite !norm_dot, (dot_rot_l 2 Q F F RQ), (det_rot_l 2 (or_introl eq_refl) Q F RQ). auto. Qed.
Lemma energy_rot solid r0 r1 Q F : is_rotation 2 Q -> 0 < det (K := Rops) 2 F ->
  contact_energy solid (Q 0%nat 0%nat * r0 - Q 1%nat 0%nat * r1) (Q 1%nat 0%nat * r0 + Q 0%nat 0%nat * r1) (product 2 Q F) = contact_energy solid r0 r1 F.
Proof.
  intros RQ P. destruct (shape_rot Q F RQ) as [S1 S2]. destruct (cos_rot Q F RQ P) as [C1 C2]. destruct (rot2_form Q RQ) as (_ & _ & U). unfold contact_energy, turning_energy. rewrite S1, S2, C1, C2. destruct solid; [reflexivity|].
  apply (f_equal2 Rplus); [reflexivity|]. apply (f_equal2 Rmult); [reflexivity|]. revert U. generalize (Q 0%nat 0%nat) (Q 1%nat 0%nat) (swing_cos F) (swing_sin F). cbn. intros q0 q1 c s U.
  transitivity ((q0 * q0 + q1 * q1) * ((c - r0) * (c - r0) + (s - r1) * (s - r1))); [ring|rewrite U; ring].
Qed.
Lemma spin_embed Q Rm r0 r1 : is_rotation 2 Q -> same 3 Rm (spin r0 r1) -> same 3 (product 3 (embed Q) Rm) (spin (Q 0%nat 0%nat * r0 - Q 1%nat 0%nat * r1) (Q 1%nat 0%nat * r0 + Q 0%nat 0%nat * r1)).
Proof.
  intros RQ H. destruct (rot2_form Q RQ) as (E1 & E2 & _). intros i j Hi Hj. unfold product. rewrite rsum3, !H by lia. unfold embed.
  destruct i as [|[|[|i]]]; [| | |lia]; (destruct j as [|[|[|j]]]; [| | |lia]); cbn [Nat.ltb Nat.leb Nat.eqb andb spin]; rewrite ?E1, ?E2; req; ring.
Qed.
(** the moment P F^T - F P^T *)
Lemma shape_sym F : 0 < det (K := Rops) 2 F -> same 2 (product 2 (shape_stress F) (transposed F)) (transposed (product 2 (shape_stress F) (transposed F))) /\ same 2 (product 2 (volume_stress F) (transposed F)) (transposed (product 2 (volume_stress F) (transposed F))).
Proof.
  intros P. assert (N : det (K := Rops) 2 F <> 0) by lra. pose proof (inv_r 2 F (or_introl eq_refl) N) as IR.
  assert (I0 : forall i j, (i < 2)%nat -> (j < 2)%nat -> sum 2 (fun k => inv_mat (K := Rops) 2 F k i * F j k) = if (j =? i)%nat then 1 else 0).
  { intros i j Hi Hj. transitivity (product 2 F (inv_mat (K := Rops) 2 F) j i); [|exact (IR j i Hj Hi)]. unfold product. apply Rsum_ext. intros k Hk. req; ring. }
  assert (GEN : forall a b, same 2 (product 2 (fun i j => a * F i j + b * inv_mat (K := Rops) 2 F j i) (transposed F)) (fun i j => a * sum 2 (fun k => F i k * F j k) + b * (if (j =? i)%nat then 1 else 0))).
  { intros a b i j Hi Hj. transitivity (a * sum 2 (fun k => F i k * F j k) + b * sum 2 (fun k => inv_mat (K := Rops) 2 F k i * F j k)); [unfold product, transposed; rewrite !rsum2; req; ring|].
    apply (f_equal2 Rplus); [reflexivity|]. apply (f_equal2 Rmult); [reflexivity|exact (I0 i j Hi Hj)]. }
  assert (SYM : forall a b (A : tensor), same 2 A (fun i j => a * F i j + b * inv_mat (K := Rops) 2 F j i) -> same 2 (product 2 A (transposed F)) (transposed (product 2 A (transposed F)))).
  { intros a b A HA i j Hi Hj. unfold transposed at 2. pose proof (product_ext 2 _ _ _ _ HA (same_refl 2 (transposed F))) as E. rewrite (E i j Hi Hj), (E j i Hj Hi), (GEN a b i j Hi Hj), (GEN a b j i Hj Hi), !rsum2.
    rewrite (Nat.eqb_sym i j). req; ring. }
  split.
  - apply (SYM (shear_G * Rpower (det (K := Rops) 2 F) (- (2) / 3)) (- (shear_G * Rpower (det (K := Rops) 2 F) (- (2) / 3) * (norm_sq F + 1) / 3))). intros i j _ _. unfold shape_stress. req; field.
  - apply (SYM 0 (bulk_K * ln (det (K := Rops) 2 F))). intros i j _ _. unfold volume_stress. req; ring.
Qed.
Lemma turning_moment r0 r1 F : 0 < det (K := Rops) 2 F -> let T := product 2 (turning_stress r0 r1 F) (transposed F) in T 1%nat 0%nat - T 0%nat 1%nat = 2 * stiff_R * (swing_sin F * r0 - swing_cos F * r1).
Proof.
  intros P T. pose proof (swing_pos F P) as NP. pose proof (swing_unit F P) as U. unfold T, product, transposed, turning_stress. rewrite !rsum2.
  transitivity (2 * stiff_R * (swing_sin F * r0 - swing_cos F * r1) / swing F * (swing_cos F * (F 0%nat 0%nat + F 1%nat 1%nat) + swing_sin F * (F 1%nat 0%nat - F 0%nat 1%nat))); [req; ring|].
  replace (F 0%nat 0%nat + F 1%nat 1%nat) with (swing F * swing_cos F) by (unfold swing_cos; field; lra). replace (F 1%nat 0%nat - F 0%nat 1%nat) with (swing F * swing_sin F) by (unfold swing_sin; field; lra).
  transitivity (2 * stiff_R * (swing_sin F * r0 - swing_cos F * r1) * (swing_cos F * swing_cos F + swing_sin F * swing_sin F)); [field; lra|rewrite U; ring].
Qed.
Lemma moment_form solid r0 r1 F : 0 < det (K := Rops) 2 F -> let T := product 2 (contact_law solid r0 r1 F) (transposed F) in
  T 1%nat 0%nat - T 0%nat 1%nat = if solid then 0 else 2 * stiff_R * (swing_sin F * r0 - swing_cos F * r1).
Proof.
  intros P T. destruct (shape_sym F P) as [S1 S2]. pose proof (S1 1 0 ltac:(lia) ltac:(lia))%nat as E1. pose proof (S2 1 0 ltac:(lia) ltac:(lia))%nat as E2. unfold transposed at 2 in E1. unfold transposed at 2 in E2. pose proof (turning_moment r0 r1 F P) as TM. cbv zeta in TM.
  assert (LIN : forall x y (A B C : tensor) i j, product 2 (fun i j => x * A i j + y * B i j) C i j = x * product 2 A C i j + y * product 2 B C i j) by (intros x y A B C i j; unfold product; rewrite !rsum2; req; ring).
  assert (EXT : forall (A B : tensor) i j, (forall i j, A i j = B i j) -> product 2 A (transposed F) i j = product 2 B (transposed F) i j) by (intros A B i j H; unfold product; rewrite !rsum2, !H; reflexivity).
  unfold T. destruct solid.
  - rewrite !(EXT (contact_law true r0 r1 F) (fun i j => 1 * volume_stress F i j + 1 * shape_stress F i j)) by (intros; unfold contact_law; req; ring). rewrite !LIN, E1, E2. ring.
  - rewrite !(EXT (contact_law false r0 r1 F) (fun i j => faint * shape_stress F i j + 1 * turning_stress r0 r1 F i j)) by (intros; unfold contact_law; req; ring). rewrite !LIN, E1, <- TM. ring.
Qed.

(** states without energy *)
Lemma g_pos : 0 < shear_G. Proof. unfold shear_G. apply Rinv_0_lt_compat. lra. Qed.
Lemma k_pos : 0 < bulk_K. Proof. unfold bulk_K. apply Rinv_0_lt_compat. lra. Qed.
Lemma dot_embed F : ten_dot 3 (embed F) (embed F) = norm_sq F + 1. Proof. now rewrite <- trace_dot, trace_embed. Qed.
Lemma shape_nonneg F : 0 < det (K := Rops) 2 F -> 0 <= shape_energy F.
Proof.
  intros P. unfold shape_energy. pose proof g_pos. apply Rmult_le_pos; [lra|]. pose proof (det_trace 3 (embed F) (or_intror eq_refl) ltac:(now rewrite embed_det)) as D. rewrite embed_det, dot_embed in D. cbn [INR] in D. replace (1 + 1 + 1) with 3 in D by ring. lra.
Qed.
Lemma det_scale (c : R) (F : tensor) : det (K := Rops) 3 (fun i j => c * F i j) = c ^ 3 * det (K := Rops) 3 F.
Proof. rewrite !(det_det3 Rops_ring). unfold det3. cbn [add mul sub opp Rops]. change (car Rops) with R. ring. Qed.
Lemma shape_zero F : 0 < det (K := Rops) 2 F -> (shape_energy F = 0 <-> is_rotation 2 F).
Proof.
  intros P. set (J := det (K := Rops) 2 F) in *. split.
  - intros Z. unfold shape_energy in Z. fold J in Z. pose proof g_pos as G. assert (Z1 : Rpower J (- (2) / 3) * (norm_sq F + 1) = 3) by (apply (Rmult_eq_reg_l (shear_G / 2)); lra).
    set (y := Rpower J (- (1) / 3)). assert (Y0 : 0 < y) by (unfold y, Rpower; apply exp_pos). assert (Y2 : y * y = Rpower J (- (2) / 3)) by (unfold y; rewrite <- Rpower_plus; f_equal; field).
    assert (Y3 : y ^ 3 * J = 1).
    { replace (y ^ 3) with (Rpower J (- (1))). { rewrite Rpower_Ropp, Rpower_1 by exact P. field. lra. } replace (y ^ 3) with (y * (y * y)) by ring. rewrite Y2. unfold y. rewrite <- Rpower_plus. f_equal. field. }
    set (G1 := fun i j => y * embed F i j). assert (D1 : det (K := Rops) 3 G1 = 1) by (unfold G1; rewrite det_scale, embed_det; exact Y3).
    assert (T1 : ten_dot 3 G1 G1 = INR 3).
    { transitivity (y * y * ten_dot 3 (embed F) (embed F)); [unfold ten_dot, G1; rewrite !rsum3; req; ring|]. rewrite dot_embed, Y2, Z1. cbn [INR]. ring. }
    pose proof (det_trace_eq 3 G1 (or_intror eq_refl) D1 T1) as O. pose proof (O 2 2 ltac:(lia) ltac:(lia))%nat as O2. unfold product, transposed, identity, G1, embed in O2. rewrite rsum3 in O2. cbn [Nat.ltb Nat.leb Nat.eqb andb] in O2.
    assert (Y1 : y = 1). { assert (y * 0 * (y * 0) + (y * 0 * (y * 0) + (y * 1 * (y * 1) + 0)) = 1) by exact O2. nra. }
    apply rotation_embed. split; [rewrite embed_det; fold J; rewrite Y1 in Y3; lra|]. intros i j Hi Hj. rewrite <- (O i j Hi Hj). unfold product, transposed, G1. rewrite Y1. apply Rsum_ext. intros k Hk. req; ring.
  - intros RQ. pose proof (embed_rotation F RQ) as RE. destruct RQ as [D O]. unfold shape_energy. fold J in D |- *. rewrite D, one_power, <- dot_embed. replace (ten_dot 3 (embed F) (embed F)) with 3; [field; apply Rgt_not_eq; exact g_pos|].
    rewrite <- (ten_dot_ext 3 _ _ _ _ (product_1_r 3 (embed F)) (product_1_r 3 (embed F))), (dot_rot_l 3 _ _ _ RE), dot_1. cbn [INR]. ring. all: try (right; reflexivity).
Qed.
Lemma swing_of_rotation Q : is_rotation 2 Q -> swing_cos Q = Q 0%nat 0%nat /\ swing_sin Q = Q 1%nat 0%nat.
Proof.
  intros RQ. destruct (rot2_form Q RQ) as (E1 & E2 & U). assert (S : swing Q = 2).
  { unfold swing. rewrite E1, E2. replace ((Q 0%nat 0%nat + Q 0%nat 0%nat) ^ 2 + (Q 1%nat 0%nat - - Q 1%nat 0%nat) ^ 2) with (2 * 2) by (transitivity (4 * (Q 0%nat 0%nat * Q 0%nat 0%nat + Q 1%nat 0%nat * Q 1%nat 0%nat)); [rewrite U; ring|req; ring]). apply sqrt_square. lra. }
  unfold swing_cos, swing_sin. rewrite S, E1, E2. split; req; field.
Qed.
Lemma ln2_nonneg x : 0 <= ln x ^ 2. Proof. apply pow2_ge_0. Qed.
Lemma energy_nonneg solid r0 r1 F : 0 < det (K := Rops) 2 F -> 0 <= contact_energy solid r0 r1 F.
Proof.
  intros P. pose proof (shape_nonneg F P) as S. unfold contact_energy. destruct solid.
  - unfold volume_energy. pose proof k_pos. pose proof (ln2_nonneg (det (K := Rops) 2 F)). apply Rplus_le_le_0_compat; [apply Rmult_le_pos; lra|exact S].
  - unfold turning_energy, stiff_R, faint. pose proof (pow2_ge_0 (swing_cos F - r0)). pose proof (pow2_ge_0 (swing_sin F - r1)). lra.
Qed.
Lemma energy_zero solid r0 r1 F : 0 < det (K := Rops) 2 F -> (contact_energy solid r0 r1 F = 0 <-> is_rotation 2 F /\ (solid = false -> F 0%nat 0%nat = r0 /\ F 1%nat 0%nat = r1)).
Proof.
  intros P. pose proof (shape_nonneg F P) as S. unfold contact_energy. split.
  - intros Z. destruct solid.
    + assert (V : 0 <= volume_energy F) by (unfold volume_energy; pose proof k_pos; pose proof (ln2_nonneg (det (K := Rops) 2 F)); apply Rmult_le_pos; lra).
      split; [apply (shape_zero F P); lra|discriminate].
    + unfold turning_energy, stiff_R, faint in Z. pose proof (pow2_ge_0 (swing_cos F - r0)) as A. pose proof (pow2_ge_0 (swing_sin F - r1)) as B.
      assert (RF : is_rotation 2 F) by (apply (shape_zero F P); lra). destruct (swing_of_rotation F RF) as [C1 C2]. split; [exact RF|]. intros _.
      assert (swing_cos F - r0 = 0) by (apply sq0; lra). assert (swing_sin F - r1 = 0) by (apply sq0; lra). rewrite C1, C2 in *. split; lra.
  - intros [RF H]. assert (S0 : shape_energy F = 0) by now apply (shape_zero F P). destruct solid.
    + rewrite S0. unfold volume_energy. destruct RF as [D _]. rewrite D, ln_1. ring.
    + destruct (swing_of_rotation F RF) as [C1 C2]. destruct (H eq_refl) as [H1 H2]. rewrite S0. unfold turning_energy. rewrite C1, C2, H1, H2. ring.
Qed.

(** the random diagonal *)
Lemma simple_rest n : -1 < n 0%nat -> -1 < n 1%nat -> (simple_spectrum (fun i j => 0 + diag_of n i j + eye_of i j) <-> n 0%nat <> n 1%nat /\ n 0%nat <> 0 /\ n 1%nat <> 0).
Proof.
  intros P0 P1. unfold simple_spectrum. cbv zeta. unfold product, transposed, diag_of, eye_of. rewrite !rsum2. cbn [Nat.eqb].
  match goal with |- (?A <> 0 /\ ?B <> 0) <-> _ => replace A with (((n 0%nat - n 1%nat) * (n 0%nat + n 1%nat + 2)) ^ 2) by (req; ring); replace B with ((n 0%nat * (n 0%nat + 2)) * (n 1%nat * (n 1%nat + 2))) by (req; ring) end.
  generalize dependent (n 0%nat). generalize dependent (n 1%nat). intros b Pb a Pa. split.
  - intros [H1 H2]. split; [intros ->; apply H1; ring|]. split; intros ->; apply H2; ring.
  - intros (H1 & H2 & H3). split; [apply pow_nonzero; apply Rmult_integral_contrapositive; split; lra|]. apply Rmult_integral_contrapositive; split; apply Rmult_integral_contrapositive; split; lra.
Qed.
Lemma rotation_not_simple F : is_rotation 2 F -> ~ simple_spectrum F.
Proof.
  intros [_ O] [H _]. apply H. rewrite (O 0 0 ltac:(lia) ltac:(lia))%nat, (O 1 1 ltac:(lia) ltac:(lia))%nat, (O 0 1 ltac:(lia) ltac:(lia))%nat. unfold identity. cbn [Nat.eqb]. ring.
Qed.
