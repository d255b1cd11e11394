(** Lemmas for C102: the energy, its gradient, rotations, the linear law. *)
From Coq Require Import String Reals List Arith Lia Lra Bool.
From Verif Require Import Num Arr Fe SpecFe FeFacts Problem SpecAssembly SpecWeak SpecEnergy Elastic ElasticFacts ProblemFacts Plasticity LagrangianMain MmaMain MmaKkt HyperElastic SpecHyper.
Import ListNotations.
Local Open Scope R_scope.

Definition ok_dim (d : nat) : Prop := d = 2%nat \/ d = 3%nat.
Lemma dim_pos d : ok_dim d -> 0 < INR d. Proof. intros H. apply lt_0_INR. destruct H; lia. Qed.
Lemma rsum2 (g : nat -> R) : sum_n (K := Rops) 2 g = g 0%nat + (g 1%nat + 0). Proof. reflexivity. Qed.
Lemma rsum3 (g : nat -> R) : sum_n (K := Rops) 3 g = g 0%nat + (g 1%nat + (g 2%nat + 0)). Proof. reflexivity. Qed.

(** ** matrices *)
Lemma same_refl d A : same d A A. Proof. intros i j _ _. reflexivity. Qed.
Lemma same_sym d A B : same d A B -> same d B A. Proof. intros H i j Hi Hj. symmetry. now apply H. Qed.
Lemma same_trans d A B C : same d A B -> same d B C -> same d A C. Proof. intros H1 H2 i j Hi Hj. rewrite H1 by auto. now apply H2. Qed.
Lemma product_ext d A A' B B' : same d A A' -> same d B B' -> same d (product d A B) (product d A' B').
Proof. intros HA HB i j Hi Hj. apply Rsum_ext. intros k Hk. rewrite HA, HB by auto. reflexivity. Qed.
Lemma product_assoc d A B C : same d (product d (product d A B) C) (product d A (product d B C)).
Proof.
  intros i j Hi Hj. unfold product. transitivity (sum_n (K := Rops) d (fun k => sum_n (K := Rops) d (fun l => A i l * B l k * C k j))).
  - apply Rsum_ext. intros k Hk. rewrite Rmult_comm, <- Rsum_mul. apply Rsum_ext. intros l Hl. req; ring.
  - rewrite Rsum_swap. apply Rsum_ext. intros l Hl. rewrite <- Rsum_mul. apply Rsum_ext. intros k Hk. req; ring.
Qed.
Lemma product_1_l d A : same d (product d identity A) A.
Proof. intros i j Hi Hj. exact (Rsum_delta d i (fun k => A k j) Hi). Qed.
Lemma product_1_r d A : same d (product d A identity) A.
Proof.
  intros i j Hi Hj. rewrite <- (Rsum_delta d j (fun k => A i k) Hj). apply Rsum_ext. intros k Hk. unfold identity. rewrite (Nat.eqb_sym k j). apply Rmult_comm.
Qed.
Lemma product_t d A B : same d (transposed (product d A B)) (product d (transposed B) (transposed A)).
Proof. intros i j Hi Hj. unfold transposed, product. apply Rsum_ext. intros k Hk. req; ring. Qed.
Lemma inv_l d A : ok_dim d -> det (K := Rops) d A <> 0 -> same d (product d (inv_mat (K := Rops) d A) A) identity.
Proof. intros D N i j Hi Hj. exact (inv_mat_left Rops_field d A i j D Hi Hj N). Qed.
Lemma inv_r d A : ok_dim d -> det (K := Rops) d A <> 0 -> same d (product d A (inv_mat (K := Rops) d A)) identity.
Proof. intros D N i j Hi Hj. exact (inv_mat_right Rops_field d A i j D Hi Hj N). Qed.
Lemma inv_unique d A B : ok_dim d -> det (K := Rops) d A <> 0 -> same d (product d B A) identity -> same d B (inv_mat (K := Rops) d A).
Proof.
  intros D N H. apply same_trans with (product d B (product d A (inv_mat (K := Rops) d A))).
  - apply same_trans with (product d B identity); [apply same_sym, product_1_r|]. apply product_ext; [apply same_refl|apply same_sym; now apply inv_r].
  - apply same_trans with (product d (product d B A) (inv_mat (K := Rops) d A)); [apply same_sym, product_assoc|].
    apply same_trans with (product d identity (inv_mat (K := Rops) d A)); [apply product_ext; [exact H|apply same_refl]|apply product_1_l].
Qed.
Lemma det_product d A B : ok_dim d -> det (K := Rops) d (product d A B) = det (K := Rops) d A * det (K := Rops) d B.
Proof. intros D. exact (det_mul Rops_ring d A B D). Qed.
Lemma det_same d A B : same d A B -> det (K := Rops) d A = det (K := Rops) d B. Proof. intros H. apply det_ext. exact H. Qed.
Lemma det_1 d : ok_dim d -> det (K := Rops) d identity = 1.
Proof. intros [-> | ->]; [rewrite (det_det2 Rops_ring)|rewrite (det_det3 Rops_ring)]; unfold det2, det3, identity; cbn [Nat.eqb add mul sub opp zero one Rops]; req; ring. Qed.
Lemma det_t d A : ok_dim d -> det (K := Rops) d (transposed A) = det (K := Rops) d A.
Proof. intros [-> | ->]; [rewrite !(det_det2 Rops_ring)|rewrite !(det_det3 Rops_ring)]; unfold det2, det3, transposed; cbn [add mul sub opp zero one Rops]; req; ring. Qed.

(** ** the derivative of the determinant *)
Definition ten_dot (d : nat) (A B : tensor) : R := sum_n (K := Rops) d (fun i => sum_n (K := Rops) d (fun j => A i j * B i j)).
Lemma ten_dot_comb d a b A B C : ten_dot d (fun i j => a * A i j + b * B i j) C = a * ten_dot d A C + b * ten_dot d B C.
Proof.
  unfold ten_dot. rewrite <- !Rsum_mul, <- Rsum_plus. apply Rsum_ext. intros i Hi. rewrite <- !Rsum_mul, <- Rsum_plus. apply Rsum_ext. intros j Hj. req; ring.
Qed.
Lemma ten_dot_sym d A B : ten_dot d A B = ten_dot d B A.
Proof. unfold ten_dot. apply Rsum_ext. intros i Hi. apply Rsum_ext. intros j Hj. req; ring. Qed.
Lemma ten_dot_ext d A A' B B' : same d A A' -> same d B B' -> ten_dot d A B = ten_dot d A' B'.
Proof. intros HA HB. unfold ten_dot. apply Rsum_ext. intros i Hi. apply Rsum_ext. intros j Hj. rewrite HA, HB by auto. reflexivity. Qed.
Lemma trace_dot d F : trace_FtF d F = ten_dot d F F.
Proof. unfold trace_FtF, ten_dot. rewrite Rsum_swap. reflexivity. Qed.
Definition line (F H : tensor) (t : R) : tensor := fun i j => F i j + t * H i j.
Lemma dot_line d F H t : ten_dot d (line F H t) (line F H t) = ten_dot d F F + ((2 * ten_dot d F H) * t + ten_dot d H H * (t * t)).
Proof.
  transitivity (ten_dot d (fun i j => 1 * F i j + t * H i j) (line F H t)); [apply ten_dot_ext; [intros i j _ _; unfold line; req; ring|apply same_refl]|].
  rewrite ten_dot_comb, !(ten_dot_sym d _ (line F H t)).
  assert (E : forall A, ten_dot d (line F H t) A = ten_dot d F A + t * ten_dot d H A).
  { intros A. transitivity (ten_dot d (fun i j => 1 * F i j + t * H i j) A); [apply ten_dot_ext; [intros i j _ _; unfold line; req; ring|apply same_refl]|]. rewrite ten_dot_comb. req; ring. }
  rewrite !E, (ten_dot_sym d H F). req; ring.
Qed.
Definition cofT (d : nat) (F : tensor) : tensor := fun i j => cof (K := Rops) d F j i.
Lemma det_deriv d F H : ok_dim d -> derivable_pt_lim (fun t => det (K := Rops) d (line F H t)) 0 (ten_dot d (cofT d F) H).
Proof.
  intros [-> | ->].
  - apply (dlim_ext _ (fun t => det (K := Rops) 2 F + (ten_dot 2 (cofT 2 F) H * t + det (K := Rops) 2 H * (t * t)))); [|apply dlim_quad].
    intros t. rewrite !(det_det2 Rops_ring). unfold det2, ten_dot, cofT, cof, line. rewrite !rsum2.
    cbv [det minor skip sgn sum_n sum_over sumK seq map fold_right Nat.even Nat.ltb Nat.leb Nat.add Nat.sub add mul sub opp zero one Rops]. req; ring.
  - eapply dlim_ext; [intros t; apply det_line|]. apply dlim_cubic.
Qed.
Lemma inv_cof d F i j : det (K := Rops) d F <> 0 -> inv_mat (K := Rops) d F i j * det (K := Rops) d F = cof (K := Rops) d F i j.
Proof. intros N. rewrite (inv_mat_cof Rops_field). cbn [mul inv Rops]. req. field. exact N. Qed.
(** F^-T *)
Definition invT (d : nat) (F : tensor) : tensor := fun i j => inv_mat (K := Rops) d F j i.
Lemma cof_invT d F H : det (K := Rops) d F <> 0 -> ten_dot d (cofT d F) H = det (K := Rops) d F * ten_dot d (invT d F) H.
Proof.
  intros N. unfold ten_dot. rewrite <- Rsum_mul. apply Rsum_ext. intros i Hi. rewrite <- Rsum_mul. apply Rsum_ext. intros j Hj.
  unfold cofT, invT. rewrite <- (inv_cof d F j i N). req; ring.
Qed.

(** ** the gradient of the energy *)
Section Law.
  Variables (d : nat) (E nu : R).
  Hypothesis D : ok_dim d.
  Let mu := shear_modulus E nu.
  Let kappa := bulk_modulus E nu.
  Lemma psi_form F : psi d E nu F = mu / 2 * (Rpower (det (K := Rops) d F) (- (2) / INR d) * ten_dot d F F - INR d) + kappa / 2 * (det (K := Rops) d F - 1) ^ 2.
  Proof. unfold psi. rewrite trace_dot. reflexivity. Qed.
  Lemma psi_ext F F' : same d F F' -> psi d E nu F = psi d E nu F'.
  Proof. intros H. rewrite !psi_form, (det_same d F F' H), (ten_dot_ext d F F' F F' H H). reflexivity. Qed.
  Lemma neo_form F i j : let J := det (K := Rops) d F in let p := Rpower J (- (2) / INR d) in
    neo_stress d E nu F i j = mu * p * F i j + (kappa * (J - 1) * J - mu * p * (ten_dot d F F / INR d)) * invT d F i j.
  Proof. intros J p. unfold neo_stress. fold mu kappa J p. unfold ten_dot, invT. req; ring. Qed.
  Lemma neo_ext F F' : same d F F' -> same d (neo_stress d E nu F) (neo_stress d E nu F').
  Proof.
    intros H i j Hi Hj. rewrite !neo_form. unfold invT. rewrite (det_same d F F' H), (ten_dot_ext d F F' F F' H H), (H i j Hi Hj), (inv_mat_ext d F F' j i Hj Hi H). reflexivity.
  Qed.
  Theorem psi_gradient F : 0 < det (K := Rops) d F -> gradient2 d d (psi d E nu) F (neo_stress d E nu F).
  Proof.
    intros P H. set (J := det (K := Rops) d F) in *. set (q := ten_dot d (invT d F) H). set (Jt := fun t => det (K := Rops) d (line F H t)).
    assert (N : J <> 0) by lra. pose proof (det_deriv d F H D) as DJ. rewrite (cof_invT d F H N) in DJ. fold J q in DJ. change (derivable_pt_lim Jt 0 (J * q)) in DJ.
    assert (J0 : Jt 0 = J) by (apply det_same; intros i j _ _; unfold line; req; ring).
    set (y := - (2) / INR d). set (I0 := ten_dot d F F). set (I1 := 2 * ten_dot d F H). set (I2 := ten_dot d H H).
    assert (DP : derivable_pt_lim (fun t => exp (y * ln (Jt t))) 0 (exp (y * ln J) * (y * (/ J * (J * q))))).
    { apply (derivable_pt_lim_comp (fun t => y * ln (Jt t)) exp).
      - apply (derivable_pt_lim_scal (fun t => ln (Jt t))). apply (derivable_pt_lim_comp Jt ln); [exact DJ|]. rewrite J0. now apply derivable_pt_lim_ln.
      - rewrite J0. apply derivable_pt_lim_exp. }
    pose proof (dlim_quad I0 I1 I2) as DI.
    apply (dlim_ext _ (fun t => mu / 2 * (exp (y * ln (Jt t)) * (I0 + (I1 * t + I2 * (t * t))) - INR d) + kappa / 2 * ((Jt t - 1) * (Jt t - 1)))).
    { intros t. change (fun k j => F k j + t * H k j) with (line F H t). rewrite psi_form, dot_line. fold I0 I1 I2. change (det (K := Rops) d (line F H t)) with (Jt t).
      unfold Rpower. fold y. req; ring. }
    assert (G : derivable_pt_lim (fun t => mu / 2 * (exp (y * ln (Jt t)) * (I0 + (I1 * t + I2 * (t * t))) - INR d) + kappa / 2 * ((Jt t - 1) * (Jt t - 1))) 0
      (mu / 2 * (exp (y * ln J) * (y * (/ J * (J * q))) * (I0 + (I1 * 0 + I2 * (0 * 0))) + exp (y * ln (Jt 0)) * I1 - 0) + kappa / 2 * ((J * q - 0) * (Jt 0 - 1) + (Jt 0 - 1) * (J * q - 0)))).
    { apply (derivable_pt_lim_plus (fun t => mu / 2 * (exp (y * ln (Jt t)) * (I0 + (I1 * t + I2 * (t * t))) - INR d)) (fun t => kappa / 2 * ((Jt t - 1) * (Jt t - 1)))).
      - apply (derivable_pt_lim_scal (fun t => exp (y * ln (Jt t)) * (I0 + (I1 * t + I2 * (t * t))) - INR d)).
        apply (derivable_pt_lim_minus (fun t => exp (y * ln (Jt t)) * (I0 + (I1 * t + I2 * (t * t)))) (fun _ => INR d)); [|apply derivable_pt_lim_const].
        apply (derivable_pt_lim_mult (fun t => exp (y * ln (Jt t))) (fun t => I0 + (I1 * t + I2 * (t * t)))); assumption.
      - apply (derivable_pt_lim_scal (fun t => (Jt t - 1) * (Jt t - 1))).
        assert (DM : derivable_pt_lim (fun t => Jt t - 1) 0 (J * q - 0)) by (apply (derivable_pt_lim_minus Jt (fun _ => 1)); [exact DJ|apply derivable_pt_lim_const]).
        apply (derivable_pt_lim_mult (fun t => Jt t - 1) (fun t => Jt t - 1)); exact DM. }
    rewrite J0 in G. change (dot2 (K := Rops) d d (neo_stress d E nu F) H) with (ten_dot d (neo_stress d E nu F) H).
    rewrite (ten_dot_ext d _ (fun i j => mu * Rpower J y * F i j + (kappa * (J - 1) * J - mu * Rpower J y * (ten_dot d F F / INR d)) * invT d F i j) H H); [|intros i j _ _; apply neo_form|apply same_refl].
    rewrite ten_dot_comb. fold q I0. unfold Rpower. unfold I1 in G. pose proof (dim_pos d D) as DP0.
    match goal with |- derivable_pt_lim _ _ ?v => match type of G with derivable_pt_lim _ _ ?w => replace v with w; [exact G|] end end.
    unfold y. field. split; lra.
  Qed.
End Law.
Lemma dot_unit d S i j : (i < d)%nat -> (j < d)%nat -> ten_dot d S (fun a b => (if (i =? a)%nat then 1 else 0) * (if (j =? b)%nat then 1 else 0)) = S i j.
Proof.
  intros Hi Hj. unfold ten_dot. rewrite <- (Rsum_delta d i (fun a => S a j) Hi). apply Rsum_ext. intros a Ha.
  rewrite <- (Rsum_delta d j (fun b => S a b) Hj), <- Rsum_mul. apply Rsum_ext. intros b Hb. req; ring.
Qed.
Lemma gradient_unique d g F A B : gradient2 d d g F A -> gradient2 d d g F B -> same d A B.
Proof.
  intros HA HB i j Hi Hj. pose proof (uniqueness_limite _ _ _ _ (HA (fun a b => (if (i =? a)%nat then 1 else 0) * (if (j =? b)%nat then 1 else 0))) (HB _)) as U.
  change (ten_dot d A (fun a b => (if (i =? a)%nat then 1 else 0) * (if (j =? b)%nat then 1 else 0)) = ten_dot d B (fun a b => (if (i =? a)%nat then 1 else 0) * (if (j =? b)%nat then 1 else 0))) in U.
  rewrite !dot_unit in U by assumption. exact U.
Qed.
