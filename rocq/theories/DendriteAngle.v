(** Proofs for C98 and C99: the angle of a vector, the anisotropy and the energy of the interface. *)
From Coq Require Import Reals List Arith Lia Lra Bool ZArith.
From Verif Require Import Num Arr Dendrite SpecDendrite.
Import ListNotations.
Local Open Scope R_scope.

Lemma sqrt_sq_scale (x t : R) : 0 < x -> sqrt (x ^ 2 + (x * t) ^ 2) = x * sqrt (1 + t ^ 2).
Proof.
  intros X. replace (x ^ 2 + (x * t) ^ 2) with (x ^ 2 * (1 + t ^ 2)) by ring. rewrite sqrt_mult_alt by nra. f_equal. replace (x ^ 2) with (x * x) by ring. apply sqrt_square. lra.
Qed.
Lemma cos_atan_eq t : cos (atan t) * sqrt (1 + t ^ 2) = 1.
Proof. rewrite cos_atan. unfold Rsqr. replace (1 + t * t) with (1 + t ^ 2) by ring. assert (0 < sqrt (1 + t ^ 2)) by (apply sqrt_lt_R0; pose proof (pow2_ge_0 t); lra). field. lra. Qed.
Lemma sin_atan_eq t : sin (atan t) * sqrt (1 + t ^ 2) = t.
Proof. rewrite sin_atan. unfold Rsqr. replace (1 + t * t) with (1 + t ^ 2) by ring. assert (0 < sqrt (1 + t ^ 2)) by (apply sqrt_lt_R0; pose proof (pow2_ge_0 t); lra). field. lra. Qed.
Lemma polar_right x y : 0 < x -> let r := sqrt (x ^ 2 + y ^ 2) in x = r * cos (atan (y / x)) /\ y = r * sin (atan (y / x)).
Proof.
  intros X r. assert (E : r = x * sqrt (1 + (y / x) ^ 2)).
  { unfold r. rewrite <- sqrt_sq_scale by exact X. do 3 f_equal. field. lra. }
  rewrite E. split.
  - replace (x * sqrt (1 + (y / x) ^ 2) * cos (atan (y / x))) with (x * (cos (atan (y / x)) * sqrt (1 + (y / x) ^ 2))) by ring. rewrite cos_atan_eq. ring.
  - replace (x * sqrt (1 + (y / x) ^ 2) * sin (atan (y / x))) with (x * (sin (atan (y / x)) * sqrt (1 + (y / x) ^ 2))) by ring. rewrite sin_atan_eq. field. lra.
Qed.
Lemma norm_y y : sqrt (0 ^ 2 + y ^ 2) = Rabs y.
Proof. replace (0 ^ 2 + y ^ 2) with (Rsqr y) by (unfold Rsqr; ring). apply sqrt_Rsqr_abs. Qed.
Theorem arctan2_polar x y : let r := sqrt (x ^ 2 + y ^ 2) in x = r * cos (arctan2 y x) /\ y = r * sin (arctan2 y x).
Proof.
  intros r. unfold arctan2. destruct (Rlt_dec 0 x) as [X|X]; [now apply polar_right|]. destruct (Rlt_dec x 0) as [X'|X'].
  - assert (L : let r := sqrt (x ^ 2 + y ^ 2) in - x = r * cos (atan (y / x)) /\ - y = r * sin (atan (y / x))).
    { pose proof (polar_right (- x) (- y) ltac:(lra)) as [A B]. replace (- y / - x) with (y / x) in A, B by (field; lra).
      replace ((- x) ^ 2 + (- y) ^ 2) with (x ^ 2 + y ^ 2) in A, B by ring. split; assumption. }
    destruct L as [A B]. fold r in A, B. destruct (Rle_dec 0 y); unfold Rminus; rewrite cos_plus, sin_plus, ?cos_neg, ?sin_neg, cos_PI, sin_PI; split; nra.
  - assert (x = 0) as -> by lra. unfold r. rewrite norm_y. destruct (Rlt_dec 0 y) as [Y|Y].
    + rewrite cos_PI2, sin_PI2, Rabs_pos_eq by lra. split; ring.
    + destruct (Rlt_dec y 0) as [Y'|Y'].
      * replace (- PI / 2) with (- (PI / 2)) by lra. rewrite cos_neg, sin_neg, cos_PI2, sin_PI2, Rabs_left by lra. split; ring.
      * assert (y = 0) as -> by lra. rewrite Rabs_R0. split; ring.
Qed.
Theorem arctan2_range x y : - PI < arctan2 y x <= PI.
Proof.
  pose proof PI_RGT_0 as P0. unfold arctan2. destruct (Rlt_dec 0 x); [pose proof (atan_bound (y / x)); lra|]. destruct (Rlt_dec x 0) as [X|X].
  - pose proof (atan_bound (y / x)) as B. destruct (Rle_dec 0 y) as [Y|Y].
    + assert (y / x <= 0) by (unfold Rdiv; pose proof (Rinv_lt_0_compat _ X); nra). assert (atan (y / x) <= 0).
      { destruct (Rle_lt_or_eq_dec _ _ H) as [H0|H0]; [|rewrite H0, atan_0; lra]. pose proof (atan_increasing _ _ H0). rewrite atan_0 in *. lra. } lra.
    + assert (0 < y / x) by (unfold Rdiv; pose proof (Rinv_lt_0_compat _ X); nra). pose proof (atan_increasing _ _ H). rewrite atan_0 in *. lra.
  - destruct (Rlt_dec 0 y); [lra|]. destruct (Rlt_dec y 0); lra.
Qed.

(** equal sine and cosine: the same angle up to whole turns *)
Lemma same_angle a b : cos a = cos b -> sin a = sin b -> exists k : Z, a = b + 2 * IZR k * PI.
Proof.
  intros C S. assert (E : cos (a - b) = 1) by (rewrite cos_minus, C, S; pose proof (sin2_cos2 b) as Q; unfold Rsqr in Q; lra).
  assert (Z : sin ((a - b) / 2) = 0).
  { assert (H : cos (a - b) = 1 - 2 * sin ((a - b) / 2) * sin ((a - b) / 2)) by (rewrite <- cos_2a_sin; f_equal; lra).
    apply Rsqr_0_uniq. unfold Rsqr. lra. }
  apply sin_eq_0_0 in Z as (k & Hk). exists k. lra.
Qed.
Lemma cos_period_Z x (k : Z) : cos (x + 2 * IZR k * PI) = cos x.
Proof.
  destruct (Z_le_gt_dec 0 k) as [K|K].
  - rewrite <- (Z2Nat.id k K), <- INR_IZR_INZ. apply cos_period.
  - rewrite <- (cos_period (x + 2 * IZR k * PI) (Z.to_nat (- k))). f_equal. rewrite INR_IZR_INZ, Z2Nat.id by lia. rewrite opp_IZR. ring.
Qed.
Lemma sin_period_Z x (k : Z) : sin (x + 2 * IZR k * PI) = sin x.
Proof.
  destruct (Z_le_gt_dec 0 k) as [K|K].
  - rewrite <- (Z2Nat.id k K), <- INR_IZR_INZ. apply sin_period.
  - rewrite <- (sin_period (x + 2 * IZR k * PI) (Z.to_nat (- k))). f_equal. rewrite INR_IZR_INZ, Z2Nat.id by lia. rewrite opp_IZR. ring.
Qed.

Section Eps.
  Variable P : dn_params.
  Lemma eps_derivative th : derivable_pt_lim (eps_fn P) th (eps_grad P th).
  Proof.
    unfold eps_fn, eps_grad.
    assert (D1 : derivable_pt_lim (fun th => J_mode P * (th - PI / 2)) th (J_mode P)).
    { pose proof (derivable_pt_lim_scal _ (J_mode P) _ _ (derivable_pt_lim_minus _ _ th _ _ (derivable_pt_lim_id th) (derivable_pt_lim_const (PI / 2) th))) as D. unfold mult_real_fct, minus_fct, id, fct_cte in D.
      eapply (eq_ind _ (fun l => derivable_pt_lim _ th l) D). ring. }
    pose proof (derivable_pt_lim_comp _ cos th _ _ D1 (derivable_pt_lim_cos _)) as D2.
    pose proof (derivable_pt_lim_scal _ (delta P) _ _ D2) as D3. pose proof (derivable_pt_lim_plus _ _ _ _ _ (derivable_pt_lim_const 1 th) D3) as D4.
    pose proof (derivable_pt_lim_scal _ (eps_bar P) _ _ D4) as D5. unfold mult_real_fct, plus_fct, fct_cte, comp in D5.
    eapply (eq_ind _ (fun l => derivable_pt_lim _ th l) D5). ring.
  Qed.
  Lemma eps_turn th : J_mode P <> 0 -> eps_fn P (th + 2 * PI / J_mode P) = eps_fn P th.
  Proof. intros J. unfold eps_fn. do 3 f_equal. rewrite <- (cos_period (J_mode P * (th - PI / 2)) 1). f_equal. cbn. field. exact J. Qed.
  Lemma eps_mirror th : eps_fn P (PI - th) = eps_fn P th.
  Proof. unfold eps_fn. do 3 f_equal. rewrite <- cos_neg. f_equal. ring_simplify. lra. Qed.
  Lemma eps_whole (j : Z) th k : J_mode P = IZR j -> eps_fn P (th + 2 * IZR k * PI) = eps_fn P th.
  Proof. intros J. unfold eps_fn. do 3 f_equal. rewrite J. rewrite <- (cos_period_Z (IZR j * (th - PI / 2)) (j * k)). f_equal. rewrite mult_IZR. ring. Qed.
  Lemma eps_grad_whole (j : Z) th k : J_mode P = IZR j -> eps_grad P (th + 2 * IZR k * PI) = eps_grad P th.
  Proof. intros J. unfold eps_grad. rewrite J. rewrite <- (sin_period_Z (IZR j * (th - PI / 2)) (j * k)). rewrite mult_IZR. replace (IZR j * (th - PI / 2) + 2 * (IZR j * IZR k) * PI) with (IZR j * (th + 2 * IZR k * PI - PI / 2)) by ring. reflexivity. Qed.
End Eps.

(** ** The flux is the derivative of the energy of the interface *)
Lemma dlim_local (f g : R -> R) x l (d : posreal) : (forall t, Rabs (t - x) < d -> f t = g t) -> derivable_pt_lim g x l -> derivable_pt_lim f x l.
Proof.
  intros E D e He. destruct (D e He) as (d' & Hd). assert (M : 0 < Rmin d d') by (apply Rmin_pos; apply cond_pos). exists (mkposreal _ M). intros h H0 Hh. cbn in Hh.
  rewrite !E; [apply Hd; auto; eapply Rlt_le_trans; [exact Hh|apply Rmin_r]| |].
  - rewrite Rminus_eq_0, Rabs_R0. apply cond_pos.
  - replace (x + h - x) with h by ring. eapply Rlt_le_trans; [exact Hh|apply Rmin_l].
Qed.
Section Flux.
  Variables (P : dn_params) (j : Z) (gx gy hx hy : R).
  Hypothesis JI : J_mode P = IZR j.
  Hypothesis NZ : gx <> 0 \/ gy <> 0.
  Let G2 := gx ^ 2 + gy ^ 2.
  Lemma g2_pos : 0 < G2.
  Proof. unfold G2. destruct NZ as [H|H]; pose proof (Rsqr_pos_lt _ H) as Q; unfold Rsqr in Q; pose proof (pow2_ge_0 gx); pose proof (pow2_ge_0 gy); lra. Qed.
  Let th0 := arctan2 gy gx.
  Let den t := G2 + t * (gx * hx + gy * hy).
  Let cross t := t * (gx * hy - gy * hx).
  (** a branch of the angle of g + t h that is continuous at t = 0 *)
  Let phi t := th0 + atan (cross t / den t).
  Lemma den_pos : exists d : posreal, forall t, Rabs (t - 0) < d -> 0 < den t.
  Proof.
    pose proof g2_pos as GP. set (m := Rabs (gx * hx + gy * hy) + 1). assert (MP : 0 < m) by (unfold m; pose proof (Rabs_pos (gx * hx + gy * hy)); lra).
    assert (DP : 0 < G2 / m) by (now apply Rdiv_lt_0_compat). exists (mkposreal _ DP). cbn. intros t Ht. rewrite Rminus_0_r in Ht. unfold den.
    assert (Rabs (t * (gx * hx + gy * hy)) < G2).
    { rewrite Rabs_mult. apply Rle_lt_trans with (Rabs t * m); [apply Rmult_le_compat_l; [apply Rabs_pos|unfold m; lra]|].
      replace G2 with (G2 / m * m) by (field; lra). now apply Rmult_lt_compat_r. }
    apply Rabs_def2 in H. lra.
  Qed.
  Lemma phi_angle t : 0 < den t -> exists k : Z, arctan2 (gy + t * hy) (gx + t * hx) = phi t + 2 * IZR k * PI.
  Proof.
    intros DT. pose proof g2_pos as GP. set (x := gx + t * hx). set (y := gy + t * hy). set (r := sqrt (x ^ 2 + y ^ 2)). set (r0 := sqrt G2).
    destruct (arctan2_polar x y) as [X Y]. fold r in X, Y. destruct (arctan2_polar gx gy) as [X0 Y0]. fold G2 r0 in X0, Y0. fold th0 in X0, Y0.
    assert (R0 : 0 < r0) by (now apply sqrt_lt_R0). assert (R0S : r0 * r0 = G2) by (apply sqrt_sqrt; lra).
    (* rotate by - th0 *)
    assert (EA : gx * x + gy * y = den t) by (unfold x, y, den, G2; ring). assert (EB : gx * y - gy * x = cross t) by (unfold x, y, cross; ring).
    destruct (polar_right (den t) (cross t) DT) as [A B]. set (s := sqrt (den t ^ 2 + cross t ^ 2)) in A, B.
    assert (ES : s = r0 * r). { unfold s, r0, r. rewrite <- sqrt_mult_alt by lra. f_equal. rewrite <- EA, <- EB. unfold G2. ring. }
    assert (SP : s <> 0). { intros Z. rewrite Z in A. lra. } assert (RP : r <> 0) by (intros Z; apply SP; rewrite ES, Z; ring).
    set (th := arctan2 y x) in *. set (al := atan (cross t / den t)) in *.
    assert (C1 : cos (th - th0) = cos al).
    { assert (r0 * r * cos (th - th0) = r0 * r * cos al); [|eapply Rmult_eq_reg_l; [eassumption|rewrite <- ES; exact SP]].
      rewrite <- ES at 2. rewrite <- A, <- EA, cos_minus. transitivity ((r0 * cos th0) * (r * cos th) + (r0 * sin th0) * (r * sin th)); [ring|]. now rewrite <- X, <- Y, <- X0, <- Y0. }
    assert (S1 : sin (th - th0) = sin al).
    { assert (r0 * r * sin (th - th0) = r0 * r * sin al); [|eapply Rmult_eq_reg_l; [eassumption|rewrite <- ES; exact SP]].
      rewrite <- ES at 2. rewrite <- B, <- EB, sin_minus. transitivity ((r0 * cos th0) * (r * sin th) - (r0 * sin th0) * (r * cos th)); [ring|]. now rewrite <- X, <- Y, <- X0, <- Y0. }
    destruct (same_angle _ _ C1 S1) as (k & Hk). exists k. unfold phi. fold al. lra.
  Qed.
  Lemma phi_derivative : derivable_pt_lim phi 0 ((gx * hy - gy * hx) / G2).
  Proof.
    pose proof g2_pos as GP. unfold phi.
    assert (DC : derivable_pt_lim cross 0 (gx * hy - gy * hx)).
    { unfold cross. pose proof (derivable_pt_lim_mult _ _ 0 _ _ (derivable_pt_lim_id 0) (derivable_pt_lim_const (gx * hy - gy * hx) 0)) as D. unfold mult_fct, id, fct_cte in D.
      eapply (eq_ind _ (fun l => derivable_pt_lim _ 0 l) D). ring. }
    assert (DD : derivable_pt_lim den 0 (gx * hx + gy * hy)).
    { unfold den. pose proof (derivable_pt_lim_plus _ _ 0 _ _ (derivable_pt_lim_const G2 0) (derivable_pt_lim_mult _ _ 0 _ _ (derivable_pt_lim_id 0) (derivable_pt_lim_const (gx * hx + gy * hy) 0))) as D.
      unfold mult_fct, plus_fct, id, fct_cte in D. eapply (eq_ind _ (fun l => derivable_pt_lim _ 0 l) D). ring. }
    assert (D0 : den 0 = G2) by (unfold den; ring). assert (C0 : cross 0 = 0) by (unfold cross; ring).
    pose proof (derivable_pt_lim_div cross den 0 _ _ DC DD ltac:(rewrite D0; lra)) as DQ.
    pose proof (derivable_pt_lim_comp _ atan 0 _ _ DQ (derivable_pt_lim_atan _)) as DA.
    pose proof (derivable_pt_lim_plus _ _ 0 _ _ (derivable_pt_lim_const th0 0) DA) as DP. unfold plus_fct, fct_cte, comp, div_fct in DP.
    eapply (eq_ind _ (fun l => derivable_pt_lim _ 0 l) DP). rewrite D0, C0. unfold Rsqr. field. lra.
  Qed.
  Theorem flux_derivative : derivable_pt_lim (fun t => let x := gx + t * hx in let y := gy + t * hy in / 2 * (eps_fn P (arctan2 y x)) ^ 2 * (x ^ 2 + y ^ 2)) 0
    (fst (interface_flux (eps_fn P th0) (eps_grad P th0) gx gy) * hx + snd (interface_flux (eps_fn P th0) (eps_grad P th0) gx gy) * hy).
  Proof.
    pose proof g2_pos as GP. destruct den_pos as (d & Hd).
    apply (dlim_local _ (fun t => / 2 * (eps_fn P (phi t)) ^ 2 * ((gx + t * hx) ^ 2 + (gy + t * hy) ^ 2)) _ _ d).
    - intros t Ht. cbv zeta. destruct (phi_angle t (Hd t Ht)) as (k & ->). now rewrite (eps_whole P j).
    - assert (P0 : phi 0 = th0) by (unfold phi, cross; rewrite Rmult_0_l; unfold Rdiv; rewrite Rmult_0_l, atan_0; ring).
      pose proof (derivable_pt_lim_comp _ (eps_fn P) 0 _ _ phi_derivative (eps_derivative P _)) as DE.
      pose proof (derivable_pt_lim_mult _ _ 0 _ _ DE DE) as DE2.
      assert (LX : forall a b, derivable_pt_lim (fun t => a + t * b) 0 b).
      { intros a b. pose proof (derivable_pt_lim_plus _ _ 0 _ _ (derivable_pt_lim_const a 0) (derivable_pt_lim_mult _ _ 0 _ _ (derivable_pt_lim_id 0) (derivable_pt_lim_const b 0))) as D. unfold mult_fct, plus_fct, id, fct_cte in D.
        eapply (eq_ind _ (fun l => derivable_pt_lim _ 0 l) D). ring. }
      pose proof (derivable_pt_lim_plus _ _ 0 _ _ (derivable_pt_lim_mult _ _ 0 _ _ (LX gx hx) (LX gx hx)) (derivable_pt_lim_mult _ _ 0 _ _ (LX gy hy) (LX gy hy))) as DN.
      pose proof (derivable_pt_lim_mult _ _ 0 _ _ (derivable_pt_lim_scal _ (/ 2) 0 _ DE2) DN) as D. unfold mult_fct, plus_fct, mult_real_fct, comp in D. rewrite P0 in D.
      match type of D with derivable_pt_lim ?F 0 ?L => apply (dlim_local _ F _ _ (mkposreal 1 Rlt_0_1)); [intros t _; ring|]; eapply (eq_ind L (fun l => derivable_pt_lim F 0 l) D) end.
      unfold interface_flux. cbn [fst snd]. unfold G2 in *. field. lra.
  Qed.
End Flux.
