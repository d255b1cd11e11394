(** Lemmas for C102: rotations, least energy, the linear law, the plane and the weighted energies. *)
From Coq Require Import String Reals List Arith Lia Lra Psatz Bool.
From Verif Require Import Num Arr Fe SpecFe FeFacts Problem SpecAssembly SpecWeak SpecEnergy Elastic ElasticFacts ProblemFacts Plasticity LagrangianMain MmaMain MmaKkt AdjointFacts HyperElastic SpecHyper HyperFacts.
Import ListNotations.
Local Open Scope R_scope.

Lemma alg_rot (a b q f g : R) : a * (q * f) + b * (q * g) = q * (a * f + b * g). Proof. ring. Qed.
Lemma alg_kir (a b f g i : R) : (a * f + b * i) * g = a * (f * g) + b * (g * i). Proof. ring. Qed.
Lemma algz (a b c : R) : a * b + 0 * c = a * b. Proof. ring. Qed.
(** ** rotations *)
Section Rotate.
  Variables (d : nat) (E nu : R).
  Hypothesis D : ok_dim d.
  Lemma rot_nz Q : is_rotation d Q -> det (K := Rops) d Q <> 0. Proof. intros [H _]. rewrite H. exact R1_neq_R0. Qed.
  Lemma rot_inv Q : is_rotation d Q -> same d (transposed Q) (inv_mat (K := Rops) d Q).
  Proof. intros H. apply inv_unique; [exact D|now apply rot_nz|exact (proj2 H)]. Qed.
  Lemma rot_t Q : is_rotation d Q -> is_rotation d (transposed Q).
  Proof.
    intros H. split; [rewrite det_t by exact D; exact (proj1 H)|]. change (transposed (transposed Q)) with Q.
    apply same_trans with (product d Q (inv_mat (K := Rops) d Q)); [apply product_ext; [apply same_refl|now apply rot_inv]|apply inv_r; [exact D|now apply rot_nz]].
  Qed.
  Lemma dot_product A B : ten_dot d A B = sum_n (K := Rops) d (fun i => product d (transposed A) B i i).
  Proof. unfold ten_dot, product, transposed. rewrite Rsum_swap. reflexivity. Qed.
  Lemma dot_rot_l Q A B : is_rotation d Q -> ten_dot d (product d Q A) (product d Q B) = ten_dot d A B.
  Proof.
    intros H. rewrite !dot_product. apply Rsum_ext. intros i Hi.
    assert (S : same d (product d (transposed (product d Q A)) (product d Q B)) (product d (transposed A) B)); [|exact (S i i Hi Hi)].
    apply same_trans with (product d (product d (transposed A) (transposed Q)) (product d Q B)); [apply product_ext; [apply product_t|apply same_refl]|].
    apply same_trans with (product d (transposed A) (product d (transposed Q) (product d Q B))); [apply product_assoc|]. apply product_ext; [apply same_refl|].
    apply same_trans with (product d (product d (transposed Q) Q) B); [apply same_sym, product_assoc|].
    apply same_trans with (product d identity B); [apply product_ext; [exact (proj2 H)|apply same_refl]|apply product_1_l].
  Qed.
  Lemma dot_t A B : ten_dot d (transposed A) (transposed B) = ten_dot d A B.
  Proof. unfold ten_dot, transposed. now rewrite Rsum_swap. Qed.
  Lemma dot_rot_r Q A B : is_rotation d Q -> ten_dot d (product d A Q) (product d B Q) = ten_dot d A B.
  Proof.
    intros H. rewrite <- dot_t. rewrite (ten_dot_ext d _ _ _ _ (product_t d A Q) (product_t d B Q)). rewrite (dot_rot_l _ _ _ (rot_t Q H)). apply dot_t.
  Qed.
  Lemma det_rot_l Q F : is_rotation d Q -> det (K := Rops) d (product d Q F) = det (K := Rops) d F.
  Proof. intros H. rewrite det_product by exact D. rewrite (proj1 H). apply Rmult_1_l. Qed.
  Lemma det_rot_r Q F : is_rotation d Q -> det (K := Rops) d (product d F Q) = det (K := Rops) d F.
  Proof. intros H. rewrite det_product by exact D. rewrite (proj1 H). apply Rmult_1_r. Qed.
  Lemma psi_rot_l Q F : is_rotation d Q -> psi d E nu (product d Q F) = psi d E nu F.
  Proof. intros H. rewrite !psi_form, (det_rot_l Q F H), (dot_rot_l Q F F H). reflexivity. Qed.
  Lemma psi_rot_r Q F : is_rotation d Q -> psi d E nu (product d F Q) = psi d E nu F.
  Proof. intros H. rewrite !psi_form, (det_rot_r Q F H), (dot_rot_r Q F F H). reflexivity. Qed.
  Lemma invT_rot Q F : is_rotation d Q -> det (K := Rops) d F <> 0 -> same d (invT d (product d Q F)) (product d Q (invT d F)).
  Proof.
    intros H N. assert (NQ : det (K := Rops) d (product d Q F) <> 0) by (rewrite det_rot_l; assumption).
    assert (S : same d (product d (inv_mat (K := Rops) d F) (transposed Q)) (inv_mat (K := Rops) d (product d Q F))).
    { apply inv_unique; [exact D|exact NQ|]. apply same_trans with (product d (inv_mat (K := Rops) d F) (product d (transposed Q) (product d Q F))); [apply product_assoc|].
      apply same_trans with (product d (inv_mat (K := Rops) d F) F); [|now apply inv_l]. apply product_ext; [apply same_refl|].
      apply same_trans with (product d (product d (transposed Q) Q) F); [apply same_sym, product_assoc|].
      apply same_trans with (product d identity F); [apply product_ext; [exact (proj2 H)|apply same_refl]|apply product_1_l]. }
    intros i j Hi Hj. unfold invT. rewrite <- (S j i Hj Hi). unfold product, transposed. apply Rsum_ext. intros k Hk. apply Rmult_comm.
  Qed.
  Lemma neo_rot Q F : is_rotation d Q -> det (K := Rops) d F <> 0 -> same d (neo_stress d E nu (product d Q F)) (product d Q (neo_stress d E nu F)).
  Proof.
    intros H N i j Hi Hj. rewrite neo_form, (det_rot_l Q F H), (dot_rot_l Q F F H), (invT_rot Q F H N i j Hi Hj).
    set (a := shear_modulus E nu * _). set (b := bulk_modulus E nu * _ * _ - _).
    transitivity (sum_n (K := Rops) d (fun k => a * (Q i k * F k j) + b * (Q i k * invT d F k j))); [rewrite Rsum_plus, !Rsum_mul; reflexivity|].
    apply Rsum_ext. intros k Hk. rewrite neo_form. cbv zeta; unfold a, b; exact (alg_rot _ _ _ _ _).
  Qed.
  (** P F^T is symmetric *)
  Lemma kirchhoff_sym F : det (K := Rops) d F <> 0 -> same d (product d (neo_stress d E nu F) (transposed F)) (transposed (product d (neo_stress d E nu F) (transposed F))).
  Proof.
    intros N.
    assert (EQ : forall i j, (i < d)%nat -> (j < d)%nat -> product d (neo_stress d E nu F) (transposed F) i j =
      shear_modulus E nu * Rpower (det (K := Rops) d F) (- (2) / INR d) * product d F (transposed F) i j +
      (bulk_modulus E nu * (det (K := Rops) d F - 1) * det (K := Rops) d F - shear_modulus E nu * Rpower (det (K := Rops) d F) (- (2) / INR d) * (ten_dot d F F / INR d)) * identity i j).
    { intros i j Hi Hj. set (a := shear_modulus E nu * Rpower _ _). set (b := bulk_modulus E nu * _ * _ - _).
      assert (I : identity i j = product d F (inv_mat (K := Rops) d F) j i) by (rewrite (inv_r d F D N j i Hj Hi); unfold identity; now rewrite Nat.eqb_sym).
      rewrite I. unfold product. rewrite <- !Rsum_mul, <- Rsum_plus. apply Rsum_ext. intros k Hk. rewrite neo_form. cbv zeta; unfold a, b, transposed, invT. exact (alg_kir _ _ _ _ _). }
    intros i j Hi Hj. unfold transposed at 2. rewrite !EQ by assumption. unfold identity. rewrite (Nat.eqb_sym j i). f_equal. f_equal. unfold product, transposed. apply Rsum_ext.
    intros k Hk. apply Rmult_comm.
  Qed.
  Lemma dot_1 : ten_dot d identity identity = INR d.
  Proof. destruct D as [-> | ->]; unfold ten_dot, identity; [rewrite !rsum2|rewrite !rsum3]; cbn [Nat.eqb INR]; req; ring. Qed.
  Lemma one_power y : Rpower 1 y = 1. Proof. unfold Rpower. rewrite ln_1, Rmult_0_r. apply exp_0. Qed.
  Lemma neo_1 : same d (neo_stress d E nu identity) (fun _ _ => 0).
  Proof.
    intros i j Hi Hj. rewrite neo_form, (det_1 d D), dot_1, one_power. pose proof (dim_pos d D).
    assert (I : invT d identity i j = identity i j).
    { unfold invT. rewrite <- (inv_unique d identity identity D) by (try (rewrite (det_1 d D); exact R1_neq_R0); try assumption; apply product_1_l). unfold identity. now rewrite Nat.eqb_sym. }
    rewrite I. req. field. lra.
  Qed.
  Lemma psi_1 : psi d E nu identity = 0.
  Proof. rewrite psi_form, (det_1 d D), dot_1, one_power. req; field. Qed.
  Lemma neo_rotation Q : is_rotation d Q -> same d (neo_stress d E nu Q) (fun _ _ => 0).
  Proof.
    intros H i j Hi Hj. rewrite <- (neo_ext d E nu (product d Q identity) Q (product_1_r d Q) i j Hi Hj).
    rewrite (neo_rot Q identity H ltac:(rewrite (det_1 d D); exact R1_neq_R0) i j Hi Hj). unfold product.
    apply (sum_n_zero_ext Rops_ring). intros k Hk. rewrite (neo_1 k j Hk Hj). exact (Rmult_0_r _).
  Qed.
End Rotate.

(** ** least energy *)
Lemma amgm3 x y z : 0 <= x -> 0 <= y -> 0 <= z -> (x + y + z) ^ 3 - 27 * (x * y * z) =
  (x + y + z) / 2 * ((x - y) ^ 2 + (y - z) ^ 2 + (z - x) ^ 2) + 3 * (x * (y - z) ^ 2 + y * (z - x) ^ 2 + z * (x - y) ^ 2).
Proof. intros. field. Qed.
Definition col (F : tensor) (j k : nat) : R := sum_n (K := Rops) 3 (fun i => F i j * F i k).
Definition jac (F : tensor) : R := det (K := Rops) 3 F.
Lemma jac_form F : jac F = F 0%nat 0%nat * (F 1%nat 1%nat * F 2%nat 2%nat - F 1%nat 2%nat * F 2%nat 1%nat) - F 0%nat 1%nat * (F 1%nat 0%nat * F 2%nat 2%nat - F 1%nat 2%nat * F 2%nat 0%nat) +
  F 0%nat 2%nat * (F 1%nat 0%nat * F 2%nat 1%nat - F 1%nat 1%nat * F 2%nat 0%nat).
Proof. unfold jac. rewrite (det_det3 Rops_ring). unfold det3. cbn [add mul sub opp Rops]. req; ring. Qed.
Lemma gram F : jac F ^ 2 = col F 0 0 * col F 1 1 * col F 2 2 + 2 * col F 0 1 * col F 1 2 * col F 0 2 - col F 0 0 * col F 1 2 ^ 2 - col F 1 1 * col F 0 2 ^ 2 - col F 2 2 * col F 0 1 ^ 2.
Proof. rewrite jac_form. unfold col. rewrite !rsum3. req; ring. Qed.
Lemma hadamard F : jac F ^ 2 <= col F 0 0 * col F 1 1 * col F 2 2.
Proof.
  set (n0 := F 1%nat 0%nat * F 2%nat 1%nat - F 2%nat 0%nat * F 1%nat 1%nat). set (n1 := F 2%nat 0%nat * F 0%nat 1%nat - F 0%nat 0%nat * F 2%nat 1%nat). set (n2 := F 0%nat 0%nat * F 1%nat 1%nat - F 1%nat 0%nat * F 0%nat 1%nat).
  assert (EQ : col F 0 0 * col F 1 1 * col F 2 2 - jac F ^ 2 = col F 2 2 * col F 0 1 ^ 2 +
    ((F 1%nat 2%nat * n2 - F 2%nat 2%nat * n1) ^ 2 + (F 2%nat 2%nat * n0 - F 0%nat 2%nat * n2) ^ 2 + (F 0%nat 2%nat * n1 - F 1%nat 2%nat * n0) ^ 2)).
  { rewrite jac_form. unfold col, n0, n1, n2. rewrite !rsum3. req; ring. }
  assert (0 <= col F 2 2) by (unfold col; rewrite !rsum3; nra). pose proof (pow2_ge_0 (col F 0 1)).
  assert (0 <= col F 2 2 * col F 0 1 ^ 2) by (now apply Rmult_le_pos).
  pose proof (pow2_ge_0 (F 1%nat 2%nat * n2 - F 2%nat 2%nat * n1)). pose proof (pow2_ge_0 (F 2%nat 2%nat * n0 - F 0%nat 2%nat * n2)). pose proof (pow2_ge_0 (F 0%nat 2%nat * n1 - F 1%nat 2%nat * n0)). lra.
Qed.
Lemma col_nonneg F j : 0 <= col F j j. Proof. unfold col. rewrite !rsum3. nra. Qed.
Lemma col_sum F : ten_dot 3 F F = col F 0 0 + col F 1 1 + col F 2 2.
Proof. unfold ten_dot, col. rewrite !rsum3. req; ring. Qed.
Lemma det_trace3 F : 27 * jac F ^ 2 <= ten_dot 3 F F ^ 3.
Proof.
  rewrite col_sum. pose proof (hadamard F). pose proof (col_nonneg F 0). pose proof (col_nonneg F 1). pose proof (col_nonneg F 2).
  pose proof (amgm3 (col F 0 0) (col F 1 1) (col F 2 2)). set (x := col F 0 0) in *. set (y := col F 1 1) in *. set (z := col F 2 2) in *.
  assert (0 <= (x + y + z) / 2 * ((x - y) ^ 2 + (y - z) ^ 2 + (z - x) ^ 2)) by (apply Rmult_le_pos; [lra|pose proof (pow2_ge_0 (x - y)); pose proof (pow2_ge_0 (y - z)); pose proof (pow2_ge_0 (z - x)); lra]).
  assert (0 <= x * (y - z) ^ 2) by (apply Rmult_le_pos; auto using pow2_ge_0). assert (0 <= y * (z - x) ^ 2) by (apply Rmult_le_pos; auto using pow2_ge_0).
  assert (0 <= z * (x - y) ^ 2) by (apply Rmult_le_pos; auto using pow2_ge_0). lra.
Qed.
Lemma sq0 a : a ^ 2 <= 0 -> a = 0. Proof. intros H. nra. Qed.
Lemma unit_cols F : jac F = 1 -> ten_dot 3 F F = 3 -> same 3 (product 3 (transposed F) F) identity.
Proof.
  intros J T. rewrite col_sum in T. pose proof (gram F) as G. pose proof (hadamard F) as H. rewrite J in G, H. pose proof (col_nonneg F 0) as H0. pose proof (col_nonneg F 1) as H1. pose proof (col_nonneg F 2) as H2.
  pose proof (amgm3 (col F 0 0) (col F 1 1) (col F 2 2) H0 H1 H2) as A.
  assert (S01 : col F 0 1 = col F 1 0) by (unfold col; rewrite !rsum3; req; ring). assert (S12 : col F 1 2 = col F 2 1) by (unfold col; rewrite !rsum3; req; ring). assert (S02 : col F 0 2 = col F 2 0) by (unfold col; rewrite !rsum3; req; ring).
  set (x := col F 0 0) in *. set (y := col F 1 1) in *. set (z := col F 2 2) in *. set (p := col F 0 1) in *. set (q := col F 0 2) in *. set (r := col F 1 2) in *.
  assert (0 <= x * (y - z) ^ 2) by (apply Rmult_le_pos; auto using pow2_ge_0). assert (0 <= y * (z - x) ^ 2) by (apply Rmult_le_pos; auto using pow2_ge_0).
  assert (0 <= z * (x - y) ^ 2) by (apply Rmult_le_pos; auto using pow2_ge_0). rewrite T in A.
  pose proof (pow2_ge_0 (x - y)). pose proof (pow2_ge_0 (y - z)). pose proof (pow2_ge_0 (z - x)).
  assert (x - y = 0) by (apply sq0; lra). assert (y - z = 0) by (apply sq0; lra). assert (X : x = 1) by lra. assert (Y : y = 1) by lra. assert (Z : z = 1) by lra.
  rewrite X, Y, Z in G. assert (K : p ^ 2 + q ^ 2 + r ^ 2 = 2 * p * r * q) by lra.
  assert (Cp : p ^ 2 <= 1). { assert (0 <= x * y - p ^ 2). { replace (x * y - p ^ 2) with ((F 1%nat 0%nat * F 2%nat 1%nat - F 2%nat 0%nat * F 1%nat 1%nat) ^ 2 + (F 2%nat 0%nat * F 0%nat 1%nat - F 0%nat 0%nat * F 2%nat 1%nat) ^ 2 + (F 0%nat 0%nat * F 1%nat 1%nat - F 1%nat 0%nat * F 0%nat 1%nat) ^ 2) by (unfold x, y, p, col; rewrite !rsum3; req; ring). pose proof (pow2_ge_0 (F 1%nat 0%nat * F 2%nat 1%nat - F 2%nat 0%nat * F 1%nat 1%nat)). pose proof (pow2_ge_0 (F 2%nat 0%nat * F 0%nat 1%nat - F 0%nat 0%nat * F 2%nat 1%nat)). pose proof (pow2_ge_0 (F 0%nat 0%nat * F 1%nat 1%nat - F 1%nat 0%nat * F 0%nat 1%nat)). lra. } rewrite X, Y in *. lra. }
  assert (P0 : p = 0).
  { apply sq0. assert (Q2 : (q - p * r) ^ 2 + r ^ 2 * (1 - p ^ 2) = q ^ 2 + r ^ 2 - 2 * p * r * q) by ring. pose proof (pow2_ge_0 (q - p * r)).
    assert (0 <= r ^ 2 * (1 - p ^ 2)) by (apply Rmult_le_pos; [apply pow2_ge_0|lra]). lra. }
  assert (Q0 : q = 0) by (apply sq0; rewrite P0 in K; pose proof (pow2_ge_0 r); lra). assert (R0' : r = 0) by (apply sq0; rewrite P0 in K; pose proof (pow2_ge_0 q); lra).
  intros i j Hi Hj. change (product 3 (transposed F) F i j) with (col F i j). unfold identity.
  destruct i as [|[|[|i]]]; [| | |lia]; (destruct j as [|[|[|j]]]; [| | |lia]); cbn [Nat.eqb]; fold x y z p q r; rewrite <- ?S01, <- ?S12, <- ?S02; assumption.
Qed.
Lemma cube_le a b : 0 <= b -> a ^ 3 <= b ^ 3 -> a <= b.
Proof. intros B H. destruct (Rle_dec a b) as [L|L]; [exact L|]. exfalso. apply Rnot_le_lt in L. assert (0 < (a - b) * (a ^ 2 + a * b + b ^ 2)) by (apply Rmult_lt_0_compat; nra). assert ((a - b) * (a ^ 2 + a * b + b ^ 2) = a ^ 3 - b ^ 3) by ring. lra. Qed.
Lemma det_trace d F : ok_dim d -> 0 < det (K := Rops) d F -> INR d <= Rpower (det (K := Rops) d F) (- (2) / INR d) * ten_dot d F F.
Proof.
  intros D P. set (J := det (K := Rops) d F) in *. assert (P0 : 0 < Rpower J (- (2) / INR d)) by apply exp_pos. destruct D as [-> | ->].
  - replace (Rpower J (- (2) / INR 2)) with (/ J). 2: { replace (- (2) / INR 2) with (- (1)) by (cbn; field). rewrite Rpower_Ropp, Rpower_1 by exact P. reflexivity. }
    replace (INR 2) with 2 by (cbn; lra). apply (Rmult_le_reg_l J); [exact P|]. rewrite <- Rmult_assoc, Rinv_r, Rmult_1_l by lra.
    unfold J. rewrite (det_det2 Rops_ring). unfold det2, ten_dot. rewrite !rsum2. cbn [add mul sub opp Rops].
    pose proof (pow2_ge_0 (F 0%nat 0%nat - F 1%nat 1%nat)). pose proof (pow2_ge_0 (F 0%nat 1%nat + F 1%nat 0%nat)). unfold car, Rops in *. nra.
  - set (p := Rpower J (- (2) / INR 3)) in *. replace (INR 3) with 3 by (cbn; lra).
    assert (C : p ^ 3 * J ^ 2 = 1).
    { unfold p. rewrite <- (Rpower_pow 3) by exact P0. rewrite <- (Rpower_pow 2 J P). rewrite Rpower_mult, <- Rpower_plus.
      replace (- (2) / INR 3 * INR 3 + INR 2) with 0 by (cbn; field). apply Rpower_O. exact P. }
    assert (T0 : 0 <= ten_dot 3 F F) by (rewrite col_sum; pose proof (col_nonneg F 0); pose proof (col_nonneg F 1); pose proof (col_nonneg F 2); lra).
    apply cube_le; [apply Rmult_le_pos; lra|]. rewrite Rpow_mult_distr. pose proof (det_trace3 F) as H. fold J in H. change (jac F) with J in H.
    apply (Rmult_le_compat_l (p ^ 3)) in H; [|apply pow_le; lra]. nra.
Qed.
Lemma det_trace_eq d F : ok_dim d -> det (K := Rops) d F = 1 -> ten_dot d F F = INR d -> same d (product d (transposed F) F) identity.
Proof.
  intros [-> | ->] J T.
  - rewrite (det_det2 Rops_ring) in J. unfold det2 in J. unfold ten_dot in T. rewrite !rsum2 in T. cbn [add mul sub opp Rops INR] in J, T.
    assert (A : F 0%nat 0%nat - F 1%nat 1%nat = 0) by (apply sq0; unfold car, Rops in *; pose proof (pow2_ge_0 (F 0%nat 1%nat + F 1%nat 0%nat)); nra).
    assert (B : F 0%nat 1%nat + F 1%nat 0%nat = 0) by (apply sq0; unfold car, Rops in *; nra).
    intros i j Hi Hj. unfold product, transposed, identity. rewrite rsum2.
    destruct i as [|[|i]]; [| |lia]; (destruct j as [|[|j]]; [| |lia]); cbn [Nat.eqb]; unfold car, Rops in *; nra.
  - apply unit_cols; [exact J|]. rewrite T. cbn; lra.
Qed.
Section Energy.
  Variables (d : nat) (E nu : R).
  Hypothesis D : ok_dim d.
  Hypothesis HE : 0 < E.
  Hypothesis Hnu : -1 < nu < 1 / 2.
  Lemma mu_pos : 0 < shear_modulus E nu. Proof. unfold shear_modulus. apply Rdiv_lt_0_compat; lra. Qed.
  Lemma kappa_pos : 0 < bulk_modulus E nu. Proof. unfold bulk_modulus. apply Rdiv_lt_0_compat; lra. Qed.
  Lemma psi_nonneg F : 0 < det (K := Rops) d F -> 0 <= psi d E nu F.
  Proof.
    intros P. rewrite psi_form. pose proof (det_trace d F D P) as H. pose proof mu_pos. pose proof kappa_pos.
    apply Rplus_le_le_0_compat; apply Rmult_le_pos; try lra. apply pow2_ge_0.
  Qed.
  Lemma psi_zero F : 0 < det (K := Rops) d F -> (psi d E nu F = 0 <-> is_rotation d F).
  Proof.
    intros P. split.
    - intros Z. rewrite psi_form in Z. pose proof (det_trace d F D P) as H. pose proof mu_pos as M. pose proof kappa_pos as K. set (J := det (K := Rops) d F) in *.
      set (p := Rpower J (- (2) / INR d)) in *. assert (A : 0 <= shear_modulus E nu / 2 * (p * ten_dot d F F - INR d)) by (apply Rmult_le_pos; lra).
      assert (B : 0 <= bulk_modulus E nu / 2 * (J - 1) ^ 2) by (apply Rmult_le_pos; [lra|apply pow2_ge_0]).
      assert (J1 : J = 1). { assert (B0 : (J - 1) ^ 2 = 0) by (apply (Rmult_eq_reg_l (bulk_modulus E nu / 2)); lra). assert (J - 1 = 0) by (apply sq0; lra). lra. }
      assert (T : p * ten_dot d F F - INR d = 0) by (apply (Rmult_eq_reg_l (shear_modulus E nu / 2)); lra).
      unfold p in T. rewrite J1 in T. rewrite one_power in T. split; [exact J1|]. apply det_trace_eq; [exact D|exact J1|lra].
    - intros H. rewrite <- (psi_ext d E nu (product d F identity) F (product_1_r d F)). rewrite psi_rot_l by assumption. now apply psi_1.
  Qed.
End Energy.

(** ** small strains *)
Lemma cof_line d H i j : ok_dim d -> (i < d)%nat -> (j < d)%nat -> exists c, forall t, cofT d (line identity H t) i j = identity i j + ((identity i j * sum_n (K := Rops) d (fun k => H k k) - H j i) * t + c * (t * t)).
Proof.
  intros [-> | ->] Hi Hj.
  - exists 0. intros s. destruct i as [|[|i]]; [| |lia]; (destruct j as [|[|j]]; [| |lia]); unfold cofT, cof, line, identity; rewrite rsum2;
    cbv [det minor skip sgn sum_n sum_over sumK seq map fold_right Nat.even Nat.ltb Nat.leb Nat.add Nat.sub Nat.eqb add mul sub opp zero one Rops]; req; ring.
  - exists (cofT 3 H i j). intros s. destruct i as [|[|[|i]]]; [| | |lia]; (destruct j as [|[|[|j]]]; [| | |lia]); unfold cofT, cof, line, identity; rewrite rsum3;
    cbv [det minor skip sgn sum_n sum_over sumK seq map fold_right Nat.even Nat.ltb Nat.leb Nat.add Nat.sub Nat.eqb add mul sub opp zero one Rops]; req; ring.
Qed.

Definition tr (d : nat) (H : tensor) : R := sum_n (K := Rops) d (fun k => H k k).
Lemma dot_id d H : ten_dot d identity H = tr d H.
Proof.
  unfold ten_dot, tr. apply Rsum_ext. intros i Hi. exact (Rsum_delta d i (fun j => H i j) Hi).
Qed.
Lemma linear_law d E nu H i j : ok_dim d -> (i < d)%nat -> (j < d)%nat ->
  derivable_pt_lim (fun t => neo_stress d E nu (line identity H t) i j) 0 (hooke d (bulk_modulus E nu - 2 * shear_modulus E nu / INR d) (shear_modulus E nu) H i j).
Proof.
  intros D Hi Hj. set (mu := shear_modulus E nu). set (kappa := bulk_modulus E nu). set (del := identity i j). set (tau := tr d H). pose proof (dim_pos d D) as DP.
  set (Jt := fun t => det (K := Rops) d (line identity H t)). set (y := - (2) / INR d).
  assert (N1 : det (K := Rops) d identity <> 0) by (rewrite (det_1 d D); exact R1_neq_R0).
  assert (DJ : derivable_pt_lim Jt 0 tau).
  { pose proof (det_deriv d identity H D) as G. rewrite (cof_invT d identity H N1), (det_1 d D) in G.
    rewrite (ten_dot_ext d (invT d identity) identity H H) in G; [|intros a b Ha Hb; unfold invT; rewrite <- (inv_unique d identity identity D N1 (product_1_l d identity) b a Hb Ha); unfold identity; now rewrite Nat.eqb_sym|apply same_refl].
    rewrite dot_id, Rmult_1_l in G. exact G. }
  assert (J0 : Jt 0 = 1) by (unfold Jt; rewrite (det_same d _ identity); [apply det_1; exact D|intros a b _ _; unfold line; req; ring]).
  destruct (cof_line d H i j D Hi Hj) as (c & EC). fold del in EC. change (sum_n (K := Rops) d (fun k => H k k)) with tau in EC.
  set (Ct := fun t => del + ((del * tau - H j i) * t + c * (t * t))).
  set (pt := fun t => exp (y * ln (Jt t))). set (It := fun t => INR d + (2 * tau * t + ten_dot d H H * (t * t))).
  assert (DC : derivable_pt_lim Ct 0 (del * tau - H j i)) by apply dlim_quad. assert (DI : derivable_pt_lim It 0 (2 * tau)) by apply dlim_quad.
  assert (DPt : derivable_pt_lim pt 0 (y * tau)).
  { replace (y * tau) with (exp (y * ln (Jt 0)) * (y * (/ Jt 0 * tau))) by (rewrite J0, ln_1, Rmult_0_r, exp_0, Rinv_1; ring).
    apply (derivable_pt_lim_comp (fun t => y * ln (Jt t)) exp); [|apply derivable_pt_lim_exp]. apply (derivable_pt_lim_scal (fun t => ln (Jt t))).
    apply (derivable_pt_lim_comp Jt ln); [exact DJ|]. apply derivable_pt_lim_ln. lra. }
  assert (P0 : pt 0 = 1) by (unfold pt; rewrite J0, ln_1, Rmult_0_r; apply exp_0).
  assert (C0 : Ct 0 = del) by (unfold Ct; ring). assert (I0 : It 0 = INR d) by (unfold It; ring).
  set (Qt := fun t => Ct t / Jt t).
  assert (DQ : derivable_pt_lim Qt 0 (- H j i)).
  { replace (- H j i) with (((del * tau - H j i) * Jt 0 - tau * Ct 0) / (Jt 0 * Jt 0)) by (rewrite J0, C0; field). apply dlim_div; [exact DC|exact DJ|lra]. }
  assert (Q0 : Qt 0 = del) by (unfold Qt; rewrite J0, C0; field).
  set (Bt := fun t => kappa * ((Jt t - 1) * Jt t) - mu * (pt t * (It t * / INR d))).
  assert (DB : derivable_pt_lim Bt 0 (kappa * tau)).
  { replace (kappa * tau) with (kappa * ((tau - 0) * Jt 0 + (Jt 0 - 1) * tau) - mu * (y * tau * (It 0 * / INR d) + pt 0 * (2 * tau * / INR d))) by (rewrite J0, I0, P0; unfold y; field; lra).
    apply (derivable_pt_lim_minus (fun t => kappa * ((Jt t - 1) * Jt t)) (fun t => mu * (pt t * (It t * / INR d)))).
    - apply (derivable_pt_lim_scal (fun t => (Jt t - 1) * Jt t)). apply (derivable_pt_lim_mult (fun t => Jt t - 1) Jt); [|exact DJ].
      apply (derivable_pt_lim_minus Jt (fun _ => 1)); [exact DJ|apply derivable_pt_lim_const].
    - apply (derivable_pt_lim_scal (fun t => pt t * (It t * / INR d))). apply (derivable_pt_lim_mult pt (fun t => It t * / INR d)); [exact DPt|].
      apply EnergyFacts.dlim_scale. exact DI. }
  assert (B0 : Bt 0 = - mu) by (unfold Bt; rewrite J0, I0, P0; field; lra).
  set (Lt := fun t => del + t * H i j). assert (DL : derivable_pt_lim Lt 0 (H i j)) by apply dlim_line. assert (L0 : Lt 0 = del) by (unfold Lt; ring).
  apply (dlim_ext _ (fun t => mu * (pt t * Lt t) + Bt t * Qt t)).
  { intros t. rewrite neo_form. fold mu kappa. cbv zeta. change (det (K := Rops) d (line identity H t)) with (Jt t). fold y. rewrite dot_line, (dot_1 d D), dot_id. fold tau.
    unfold invT. rewrite (inv_mat_cof Rops_field). change (cof (K := Rops) d (line identity H t) j i) with (cofT d (line identity H t) i j). rewrite EC.
    change (det (K := Rops) d (line identity H t)) with (Jt t). unfold Bt, Qt, Lt, pt, Ct, It, Rpower. unfold line. fold del. unfold Rdiv. cbn [mul inv Rops]. req; ring. }
  replace (hooke d (kappa - 2 * mu / INR d) mu H i j) with (mu * (y * tau * Lt 0 + pt 0 * H i j) + (kappa * tau * Qt 0 + Bt 0 * - H j i)).
  - apply (derivable_pt_lim_plus (fun t => mu * (pt t * Lt t)) (fun t => Bt t * Qt t)).
    + apply (derivable_pt_lim_scal (fun t => pt t * Lt t)). apply (derivable_pt_lim_mult pt Lt); assumption.
    + apply (derivable_pt_lim_mult Bt Qt); assumption.
  - rewrite L0, P0, Q0, B0. unfold hooke. change (sum_n (K := Rops) d (fun k => H k k)) with tau. unfold del, identity, y. destruct (i =? j)%nat; field; lra.
Qed.

(** ** plane strain *)
Lemma embed_line F H t : same 3 (embed (line F H t)) (line (embed F) (fun i j => if ((i <? 2) && (j <? 2))%nat then H i j else 0) t).
Proof. intros i j _ _. unfold embed, line. destruct ((i <? 2) && (j <? 2))%nat; [reflexivity|]. destruct ((i =? 2) && (j =? 2))%nat; req; ring. Qed.
Lemma embed_det F : det (K := Rops) 3 (embed F) = det (K := Rops) 2 F.
Proof. rewrite (det_det3 Rops_ring), (det_det2 Rops_ring). unfold det3, det2, embed. cbn [Nat.ltb Nat.leb Nat.eqb andb add mul sub opp Rops]. req; ring. Qed.
Lemma embed_dot A H : ten_dot 3 A (fun i j => if ((i <? 2) && (j <? 2))%nat then H i j else 0) = ten_dot 2 A H.
Proof. unfold ten_dot. rewrite !rsum3, !rsum2. cbn [Nat.ltb Nat.leb andb]. req; ring. Qed.
Lemma plane_gradient E nu F : 0 < det (K := Rops) 2 F -> gradient2 2 2 (psi_plane E nu) F (neo_stress 3 E nu (embed F)).
Proof.
  intros P H. rewrite <- embed_det in P. pose proof (psi_gradient 3 E nu (or_intror eq_refl) (embed F) P (fun i j => if ((i <? 2) && (j <? 2))%nat then H i j else 0)) as G.
  change (dot2 (K := Rops) 2 2 (neo_stress 3 E nu (embed F)) H) with (ten_dot 2 (neo_stress 3 E nu (embed F)) H). rewrite <- embed_dot.
  refine (dlim_ext _ _ _ _ _ G). intros t. unfold psi_plane. apply psi_ext. exact (embed_line F H t).
Qed.
Lemma plane_linear E nu H i j : (i < 2)%nat -> (j < 2)%nat -> derivable_pt_lim (fun t => neo_stress 3 E nu (embed (line identity H t)) i j) 0
  (hooke 2 (bulk_modulus E nu - 2 * shear_modulus E nu / 3) (shear_modulus E nu) H i j).
Proof.
  intros Hi Hj. pose proof (linear_law 3 E nu (fun i j => if ((i <? 2) && (j <? 2))%nat then H i j else 0) i j (or_intror eq_refl) ltac:(lia) ltac:(lia)) as G.
  replace (INR 3) with 3 in G by (cbn; lra).
  assert (EH : hooke 3 (bulk_modulus E nu - 2 * shear_modulus E nu / 3) (shear_modulus E nu) (fun i j => if ((i <? 2) && (j <? 2))%nat then H i j else 0) i j =
    hooke 2 (bulk_modulus E nu - 2 * shear_modulus E nu / 3) (shear_modulus E nu) H i j).
  { unfold hooke. rewrite rsum3, rsum2. destruct i as [|[|i]]; [| |lia]; (destruct j as [|[|j]]; [| |lia]); cbn [Nat.ltb Nat.leb Nat.eqb andb]; req; ring. }
  rewrite EH in G. refine (dlim_ext _ _ _ _ _ G). intros t. apply neo_ext; [|lia|lia]. apply same_trans with (line (embed identity) (fun i j => if ((i <? 2) && (j <? 2))%nat then H i j else 0) t); [apply embed_line|].
  intros a b Ha Hb. unfold line. f_equal. unfold embed, identity. destruct a as [|[|[|a]]]; [| | |lia]; (destruct b as [|[|[|b]]]; [| | |lia]); reflexivity.
Qed.

(** ** the energy weighted with a density *)
Lemma rho_gradient E nu rho F : / 10 ^ 14 < det (K := Rops) 3 F -> gradient2 3 3 (psi_rho E nu rho) F (fun i j => rho * neo_stress 3 E nu F i j).
Proof.
  intros P H. assert (T : 0 < / 10 ^ 14) by (apply Rinv_0_lt_compat, pow_lt; lra).
  pose proof (psi_gradient 3 E nu (or_intror eq_refl) F ltac:(lra) H) as G. pose proof (det_deriv 3 F H (or_intror eq_refl)) as DJ.
  assert (CJ : continuity_pt (fun t => det (K := Rops) 3 (line F H t)) 0) by (apply derivable_continuous_pt; exists (ten_dot 3 (cofT 3 F) H); exact DJ).
  assert (J0 : det (K := Rops) 3 (line F H 0) = det (K := Rops) 3 F) by (apply det_same; intros i j _ _; unfold line; req; ring).
  destruct (CJ (det (K := Rops) 3 F - / 10 ^ 14) ltac:(lra)) as (r & Hr & HC).
  assert (G2 : derivable_pt_lim (fun t => rho * psi 3 E nu (line F H t)) 0 (rho * dot2 (K := Rops) 3 3 (neo_stress 3 E nu F) H)) by (apply (derivable_pt_lim_scal (fun t => psi 3 E nu (line F H t))); exact G).
  replace (dot2 (K := Rops) 3 3 (fun i j => rho * neo_stress 3 E nu F i j) H) with (rho * dot2 (K := Rops) 3 3 (neo_stress 3 E nu F) H).
  - refine (dlim_local _ _ _ r Hr _ G2). intros t Ht. change (fun k j => F k j + t * H k j) with (line F H t).
    assert (L : / 10 ^ 14 < det (K := Rops) 3 (line F H t)).
    { destruct (Req_dec t 0) as [->|NZ]; [now rewrite J0|]. specialize (HC t). cbn [dist R_met D_x no_cond] in HC. unfold D_x, no_cond, R_dist in HC. rewrite J0 in HC.
      specialize (HC ltac:(split; [split; [exact I|now apply not_eq_sym]|now rewrite Rminus_0_r])). apply Rabs_def2 in HC. lra. }
    unfold psi_rho, psi. rewrite Rmax_left by lra. replace (INR 3) with 3 by (cbn; lra). unfold Rdiv. req; ring.
  - change (rho * ten_dot 3 (neo_stress 3 E nu F) H = ten_dot 3 (fun i j => rho * neo_stress 3 E nu F i j) H).
    transitivity (ten_dot 3 (fun i j => rho * neo_stress 3 E nu F i j + 0 * F i j) H); [rewrite ten_dot_comb; exact (eq_sym (algz _ _ _))|].
    apply ten_dot_ext; [intros i j _ _; exact (algz _ _ _)|apply same_refl].
Qed.
