(** Lemmas for C103: energy and stress. *)
From Coq Require Import String Reals List Arith Lia Lra Psatz Bool.
From Coq Require Import FunctionalExtensionality.
From Coquelicot Require Derive.
From Verif Require Import Num Arr ArrFacts Fe SpecFe FeFacts Problem ProblemFacts DerivFacts AdjointFacts SpecEnergy Elastic ElasticFacts Plasticity SpecEigen HyperElastic SpecHyper HyperFacts HyperMain HyperUse FractureUse Contact SpecContact ContactRot.
Import ListNotations.
Local Open Scope R_scope.
Local Notation sum := (sum_n (K := Rops)).

Lemma reg_form (Rm R_old : tensor) c s r0 r1 : same 3 Rm (spin c s) -> same 3 R_old (spin r0 r1) -> c * c + s * s = 1 ->
  sum 3 (fun i => dot_of 3 (fun i j => eye_of i j - dot_of 3 Rm (tr_of R_old) i j) (tr_of (fun i j => eye_of i j - dot_of 3 Rm (tr_of R_old) i j)) i i) = 2 * ((c - r0) ^ 2 + (s - r1) ^ 2).
Proof.
  intros H1 H2 U. unfold dot_of, tr_of, eye_of. rewrite !rsum3. cbn [Nat.eqb].
  repeat match goal with |- context [Rm ?i ?j] => rewrite (H1 i j) by lia end. repeat match goal with |- context [R_old ?i ?j] => rewrite (H2 i j) by lia end.
  cbn [spin]. req.
  transitivity (2 * ((1 - (c * r0 + s * r1)) ^ 2 + (s * r0 - c * r1) ^ 2)); [ring|].
  transitivity (2 * (1 - 2 * (c * r0 + s * r1) + (c * c + s * s) * (r0 * r0 + r1 * r1))); [ring|]. rewrite U.
  transitivity (2 * ((c * c + s * s) - 2 * (c * r0 + s * r1) + 1 * (r0 * r0 + r1 * r1))); [rewrite U; ring|ring].
Qed.
Lemma trace_embed F : trace_FtF 3 (embed F) = norm_sq F + 1.
Proof. unfold trace_FtF, norm_sq. rewrite !rsum3. unfold embed. cbn [Nat.ltb Nat.leb Nat.eqb andb]. req; ring. Qed.
Lemma solid_same theta : (if Rlt_dec (5 / 10) theta then true else false) = is_solid theta.
Proof. unfold is_solid. destruct (Rlt_dec (5 / 10) theta), (Rlt_dec (1 / 2) theta); auto; lra. Qed.
Section Energy.
  Variable eigh : tensor -> (nat -> R) * tensor.
  Hypothesis EO : eigh_ok 3 eigh.
  Lemma energy_form theta R_old r0 r1 F : same 3 R_old (spin r0 r1) -> 0 < det (K := Rops) 2 F -> contact_psi eigh theta R_old F = contact_energy (is_solid theta) r0 r1 F.
  Proof.
    intros HR P. unfold contact_psi. cbv zeta. rewrite (reg_form _ _ _ _ r0 r1 (plane_rotation eigh EO F P) HR (swing_unit F P)). rewrite solid_same, trace_embed, embed_det.
    unfold contact_energy, volume_energy, shape_energy, turning_energy, bulk_K, shear_G, stiff_R, faint. destruct (is_solid theta); field.
  Qed.
End Energy.

(** along a line *)
Lemma positive_near d F H : ok_dim d -> 0 < det (K := Rops) d F -> exists r, 0 < r /\ forall t, Rabs t < r -> 0 < det (K := Rops) d (line F H t).
Proof.
  intros D P. set (g := fun t => det (K := Rops) d (line F H t)). assert (G0 : g 0 = det (K := Rops) d F) by (apply det_same; intros i j _ _; unfold line; req; ring).
  assert (C : continuity_pt g 0) by (apply derivable_continuous_pt; exists (ten_dot d (cofT d F) H); exact (det_deriv d F H D)).
  destruct (C (g 0) ltac:(rewrite G0; exact P)) as (r & Hr & CL). exists r. split; [exact Hr|]. intros t Ht. destruct (Req_EM_T t 0) as [->|N]; [change (0 < g 0); now rewrite G0|].
  specialize (CL t). cbn in CL. unfold R_dist in CL. assert (K : Rabs (g t - g 0) < g 0).
  { apply CL. split; [split; [exact I|auto]|]. now rewrite Rminus_0_r. }
  apply Rabs_def2 in K. change (0 < g t). lra.
Qed.
Lemma grad_local d (g h : tensor -> R) F S : ok_dim d -> 0 < det (K := Rops) d F -> (forall F', 0 < det (K := Rops) d F' -> g F' = h F') -> gradient2 d d g F S -> gradient2 d d h F S.
Proof.
  intros D P E G H. destruct (positive_near d F H D P) as (r & Hr & PR). apply (dlim_local (fun t => g (line F H t)) _ _ r Hr); [|exact (G H)]. intros t Ht. apply E. now apply PR.
Qed.
Lemma inv_embed F i j : 0 < det (K := Rops) 2 F -> (i < 2)%nat -> (j < 2)%nat -> inv_mat (K := Rops) 3 (embed F) i j = inv_mat (K := Rops) 2 F i j.
Proof.
  intros P Hi Hj. assert (N : det (K := Rops) 3 (embed F) <> 0) by (rewrite embed_det; lra). assert (L : same 3 (product 3 (embed (inv_mat (K := Rops) 2 F)) (embed F)) identity).
  { assert (N2 : det (K := Rops) 2 F <> 0) by lra. pose proof (inv_l 2 F (or_introl eq_refl) N2) as IL. intros a b Ha Hb. pose proof (IL 0 0 ltac:(lia) ltac:(lia))%nat as I0. pose proof (IL 0 1 ltac:(lia) ltac:(lia))%nat as I1.
    pose proof (IL 1 0 ltac:(lia) ltac:(lia))%nat as I2. pose proof (IL 1 1 ltac:(lia) ltac:(lia))%nat as I3. unfold product in *. rewrite rsum2 in I0, I1, I2, I3. rewrite rsum3. unfold identity in *. cbn [Nat.eqb] in *. unfold embed.
    revert I0 I1 I2 I3. generalize (inv_mat (K := Rops) 2 F). intros V I0 I1 I2 I3.
    destruct a as [|[|[|a]]]; [| | |lia]; (destruct b as [|[|[|b]]]; [| | |lia]); cbn [Nat.ltb Nat.leb Nat.eqb andb]; req; lra. }
  rewrite <- (inv_unique 3 (embed F) _ (or_intror eq_refl) N L i j ltac:(lia) ltac:(lia)). unfold embed. destruct (Nat.ltb_spec i 2), (Nat.ltb_spec j 2); try lia. reflexivity.
Qed.

Lemma volume_gradient F : 0 < det (K := Rops) 2 F -> gradient2 2 2 volume_energy F (volume_stress F).
Proof.
  intros P H. set (J := det (K := Rops) 2 F) in *. assert (N : det (K := Rops) 2 F <> 0) by (fold J; lra). set (Jt := fun t => det (K := Rops) 2 (line F H t)).
  pose proof (det_deriv 2 F H (or_introl eq_refl)) as DJ. rewrite (cof_invT 2 F H N) in DJ. fold J in DJ. set (q := ten_dot 2 (invT 2 F) H) in *. change (derivable_pt_lim Jt 0 (J * q)) in DJ.
  assert (J0 : Jt 0 = J) by (apply det_same; intros i j _ _; unfold line; req; ring).
  assert (DL : derivable_pt_lim (fun t => ln (Jt t)) 0 (/ J * (J * q))) by (apply (derivable_pt_lim_comp Jt ln); [exact DJ|rewrite J0; now apply derivable_pt_lim_ln]).
  pose proof (derivable_pt_lim_mult (fun t => ln (Jt t)) (fun t => ln (Jt t)) 0 _ _ DL DL) as DM. pose proof (derivable_pt_lim_scal _ (bulk_K / 2) _ _ DM) as DS.
  apply (dlim_ext (fun t => bulk_K / 2 * (ln (Jt t) * ln (Jt t)))); [intros t; unfold volume_energy; change (fun k j => F k j + t * H k j) with (line F H t); fold (Jt t); ring|].
  match goal with |- derivable_pt_lim _ _ ?v => match type of DS with derivable_pt_lim _ _ ?w => replace v with w; [exact DS|] end end.
  rewrite J0. change (dot2 (K := Rops) 2 2 (volume_stress F) H) with (ten_dot 2 (volume_stress F) H).
  rewrite (ten_dot_ext 2 _ (fun i j => bulk_K * ln J * invT 2 F i j + 0 * invT 2 F i j) H H); [|intros i j _ _; unfold volume_stress, invT; fold J; req; ring|apply same_refl]. rewrite ten_dot_comb. fold q. field. lra.
Qed.
Lemma shape_gradient F : 0 < det (K := Rops) 2 F -> gradient2 2 2 shape_energy F (shape_stress F).
Proof.
  intros P H. set (J := det (K := Rops) 2 F) in *. assert (N : det (K := Rops) 2 F <> 0) by (fold J; lra). set (Jt := fun t => det (K := Rops) 2 (line F H t)).
  pose proof (det_deriv 2 F H (or_introl eq_refl)) as DJ. rewrite (cof_invT 2 F H N) in DJ. fold J in DJ. set (q := ten_dot 2 (invT 2 F) H) in *. change (derivable_pt_lim Jt 0 (J * q)) in DJ.
  assert (J0 : Jt 0 = J) by (apply det_same; intros i j _ _; unfold line; req; ring).
  set (y := - (2) / 3).
  assert (DP : derivable_pt_lim (fun t => exp (y * ln (Jt t))) 0 (exp (y * ln J) * (y * (/ J * (J * q))))).
  { apply (derivable_pt_lim_comp (fun t => y * ln (Jt t)) exp).
    - apply (derivable_pt_lim_scal (fun t => ln (Jt t))). apply (derivable_pt_lim_comp Jt ln); [exact DJ|]. rewrite J0. now apply derivable_pt_lim_ln.
    - rewrite J0. apply derivable_pt_lim_exp. }
  set (I0 := ten_dot 2 F F + 1). set (I1 := 2 * ten_dot 2 F H). set (I2 := ten_dot 2 H H). pose proof (dlim_quad I0 I1 I2) as DI.
  assert (NS : forall A, norm_sq A = ten_dot 2 A A) by (intros A; unfold norm_sq, ten_dot; rewrite !rsum2; req; ring).
  pose proof (derivable_pt_lim_mult _ _ 0 _ _ DP DI) as DM. pose proof (derivable_pt_lim_minus _ _ 0 _ _ DM (derivable_pt_lim_const 3 0)) as DN. pose proof (derivable_pt_lim_scal _ (shear_G / 2) _ _ DN) as DS.
  match type of DS with derivable_pt_lim ?g0 _ ?w => apply (dlim_ext g0); [|match goal with |- derivable_pt_lim _ _ ?v => replace v with w; [exact DS|] end] end.
  - intros t. unfold shape_energy, mult_real_fct, minus_fct, mult_fct, fct_cte. change (fun k j => F k j + t * H k j) with (line F H t). rewrite NS, dot_line. change (det (K := Rops) 2 (line F H t)) with (Jt t). unfold Rpower. fold y. unfold I0, I1, I2. req; ring.
  - cbv beta. rewrite J0. change (dot2 (K := Rops) 2 2 (shape_stress F) H) with (ten_dot 2 (shape_stress F) H).
    rewrite (ten_dot_ext 2 _ (fun i j => shear_G * exp (y * ln J) * F i j + (- (shear_G * exp (y * ln J) * (norm_sq F + 1) / 3)) * invT 2 F i j) H H); [|intros i j _ _; unfold shape_stress, invT, Rpower; fold J; fold y; req; field|apply same_refl].
    rewrite ten_dot_comb. fold q. unfold I0, I1. rewrite NS. unfold y at 2. req; field. lra.
Qed.

Lemma turn_alg (a b da db r0 r1 n k : R) : 0 < n -> n * n = a ^ 2 + b ^ 2 ->
  k * ((-2) * (((da * r0 + db * r1) * n - (2 * a * da + 2 * b * db) / (2 * n) * (a * r0 + b * r1)) / (n * n))) = 2 * k * (b / n * r0 - a / n * r1) / n * (a / n * db - b / n * da).
Proof.
  intros P E. transitivity (k * (-2) * (((da * r0 + db * r1) * (n * n) - (a * da + b * db) * (a * r0 + b * r1)) / (n * n * n))); [field; lra|]. rewrite E at 1. field. lra.
Qed.
Lemma swing_line F H t : swing (line F H t) = sqrt ((F 0%nat 0%nat + F 1%nat 1%nat + t * (H 0%nat 0%nat + H 1%nat 1%nat)) ^ 2 + (F 1%nat 0%nat - F 0%nat 1%nat + t * (H 1%nat 0%nat - H 0%nat 1%nat)) ^ 2).
Proof. unfold swing, line. apply (f_equal sqrt). req; ring. Qed.
Lemma turning_gradient r0 r1 F : 0 < det (K := Rops) 2 F -> gradient2 2 2 (turning_energy r0 r1) F (turning_stress r0 r1 F).
Proof.
  intros P. apply (grad_local 2 (fun F' => stiff_R * (1 + (r0 * r0 + r1 * r1) + (-2) * (swing_cos F' * r0 + swing_sin F' * r1)))); [now left|exact P| |].
  { intros F' P'. unfold turning_energy. pose proof (swing_unit F' P') as U. revert U. generalize (swing_cos F') (swing_sin F'). intros c s U. apply Rmult_eq_compat_l. transitivity (c * c + s * s + (r0 * r0 + r1 * r1) + (-2) * (c * r0 + s * r1)); [rewrite U; ring|ring]. }
  intros H. set (a := F 0%nat 0%nat + F 1%nat 1%nat). set (b := F 1%nat 0%nat - F 0%nat 1%nat). set (da := H 0%nat 0%nat + H 1%nat 1%nat). set (db := H 1%nat 0%nat - H 0%nat 1%nat).
  pose proof (swing_pos F P) as NP. pose proof (swing_sq F) as NS. fold a b in NS. assert (SF : swing F = sqrt (a ^ 2 + b ^ 2)) by reflexivity.
  assert (S2 : 0 < a ^ 2 + b ^ 2) by (rewrite <- NS; nra).
  assert (DQ : derivable_pt_lim (fun t => (a ^ 2 + b ^ 2) + ((2 * a * da + 2 * b * db) * t + (da ^ 2 + db ^ 2) * (t * t))) 0 (2 * a * da + 2 * b * db)) by apply dlim_quad.
  assert (DN : derivable_pt_lim (fun t => sqrt ((a ^ 2 + b ^ 2) + ((2 * a * da + 2 * b * db) * t + (da ^ 2 + db ^ 2) * (t * t)))) 0 (/ (2 * sqrt (a ^ 2 + b ^ 2)) * (2 * a * da + 2 * b * db))).
  { apply (derivable_pt_lim_comp (fun t => (a ^ 2 + b ^ 2) + ((2 * a * da + 2 * b * db) * t + (da ^ 2 + db ^ 2) * (t * t))) sqrt); [exact DQ|]. replace (a ^ 2 + b ^ 2 + ((2 * a * da + 2 * b * db) * 0 + (da ^ 2 + db ^ 2) * (0 * 0))) with (a ^ 2 + b ^ 2) by ring. now apply derivable_pt_lim_sqrt. }
  assert (DU : derivable_pt_lim (fun t => (a * r0 + b * r1) + ((da * r0 + db * r1) * t + 0 * (t * t))) 0 (da * r0 + db * r1)) by apply dlim_quad.
  assert (E0 : sqrt (a ^ 2 + b ^ 2 + ((2 * a * da + 2 * b * db) * 0 + (da ^ 2 + db ^ 2) * (0 * 0))) = swing F) by (rewrite SF; apply (f_equal sqrt); ring).
  pose proof (derivable_pt_lim_div _ _ 0 _ _ DU DN ltac:(cbv beta; rewrite E0; lra)) as DV.
  pose proof (derivable_pt_lim_plus _ _ 0 _ _ (derivable_pt_lim_const (1 + (r0 * r0 + r1 * r1)) 0) (derivable_pt_lim_scal _ (-2) _ _ DV)) as DW. pose proof (derivable_pt_lim_scal _ stiff_R _ _ DW) as DS.
  match type of DS with derivable_pt_lim ?g0 _ ?w => apply (dlim_ext g0); [|match goal with |- derivable_pt_lim _ _ ?v => replace v with w; [exact DS|] end] end.
  - intros t. unfold mult_real_fct, plus_fct, div_fct, fct_cte. change (fun k j => F k j + t * H k j) with (line F H t). unfold swing_cos, swing_sin. rewrite swing_line.
    replace (sqrt (a ^ 2 + b ^ 2 + ((2 * a * da + 2 * b * db) * t + (da ^ 2 + db ^ 2) * (t * t)))) with (sqrt ((F 0%nat 0%nat + F 1%nat 1%nat + t * (H 0%nat 0%nat + H 1%nat 1%nat)) ^ 2 + (F 1%nat 0%nat - F 0%nat 1%nat + t * (H 1%nat 0%nat - H 0%nat 1%nat)) ^ 2)) by (apply (f_equal sqrt); fold a b da db; ring).
    generalize (sqrt ((F 0%nat 0%nat + F 1%nat 1%nat + t * (H 0%nat 0%nat + H 1%nat 1%nat)) ^ 2 + (F 1%nat 0%nat - F 0%nat 1%nat + t * (H 1%nat 0%nat - H 0%nat 1%nat)) ^ 2)). intros n.
    unfold a, b, da, db, line, Rdiv. req; ring.
  - cbv beta. rewrite E0. rewrite <- SF. replace (a * r0 + b * r1 + ((da * r0 + db * r1) * 0 + 0 * (0 * 0))) with (a * r0 + b * r1) by ring.
    change (dot2 (K := Rops) 2 2 (turning_stress r0 r1 F) H) with (ten_dot 2 (turning_stress r0 r1 F) H). unfold ten_dot, turning_stress, swing_cos, swing_sin. fold a b. rewrite !rsum2.
    transitivity (2 * stiff_R * (b / swing F * r0 - a / swing F * r1) / swing F * (a / swing F * db - b / swing F * da)); [|unfold da, db; req; ring].
    rewrite <- (turn_alg a b da db r0 r1 (swing F) stiff_R NP NS). unfold Rsqr. field. lra.
Qed.
Lemma grad_comb (d : nat) (g h : tensor -> R) F A B x y : gradient2 d d g F A -> gradient2 d d h F B -> gradient2 d d (fun F => x * g F + y * h F) F (fun i j => x * A i j + y * B i j).
Proof.
  intros GA GB H. specialize (GA H). specialize (GB H). pose proof (derivable_pt_lim_plus _ _ 0 _ _ (derivable_pt_lim_scal _ x _ _ GA) (derivable_pt_lim_scal _ y _ _ GB)) as D.
  change (dot2 (K := Rops) d d (fun i j => x * A i j + y * B i j) H) with (ten_dot d (fun i j => x * A i j + y * B i j) H). rewrite ten_dot_comb. exact D.
Qed.
Lemma grad_ext2 (d : nat) (g h : tensor -> R) F A B : (forall F, g F = h F) -> same d A B -> gradient2 d d g F A -> gradient2 d d h F B.
Proof.
  intros E S G H. specialize (G H). apply (dlim_ext (fun t => g (fun k j => F k j + t * H k j))); [intros t; apply E|].
  change (derivable_pt_lim (fun t => g (fun k j => F k j + t * H k j)) 0 (ten_dot d A H)) in G. change (derivable_pt_lim (fun t => g (fun k j => F k j + t * H k j)) 0 (ten_dot d B H)).
  now rewrite <- (ten_dot_ext d A B H H S (same_refl d H)).
Qed.
Lemma law_gradient solid r0 r1 F : 0 < det (K := Rops) 2 F -> gradient2 2 2 (contact_energy solid r0 r1) F (contact_law solid r0 r1 F).
Proof.
  intros P. destruct solid.
  - refine (grad_ext2 2 _ _ F _ _ _ _ (grad_comb 2 _ _ F _ _ 1 1 (volume_gradient F P) (shape_gradient F P))); [intros F'; unfold contact_energy; ring|intros i j _ _; unfold contact_law; req; ring].
  - refine (grad_ext2 2 _ _ F _ _ _ _ (grad_comb 2 _ _ F _ _ faint 1 (shape_gradient F P) (turning_gradient r0 r1 F P))); [intros F'; unfold contact_energy; ring|intros i j _ _; unfold contact_law; req; ring].
Qed.
Section Stress.
  Variable eigh : tensor -> (nat -> R) * tensor.
  Hypothesis EO : eigh_ok 3 eigh.
  Lemma psi_gradient theta R_old r0 r1 F : same 3 R_old (spin r0 r1) -> 0 < det (K := Rops) 2 F -> gradient2 2 2 (contact_psi eigh theta R_old) F (contact_law (is_solid theta) r0 r1 F).
  Proof. intros HR P. apply (grad_local 2 (contact_energy (is_solid theta) r0 r1)); [now left|exact P| |now apply law_gradient]. intros F' P'. symmetry. now apply energy_form. Qed.
  Lemma embed_same F F' : same 2 F F' -> embed F = embed F'.
  Proof. intros H. apply functional_extensionality. intros i. apply functional_extensionality. intros j. unfold embed. destruct (Nat.ltb_spec i 2), (Nat.ltb_spec j 2); cbn [andb]; auto. Qed.
  Lemma psi_same theta R_old F F' : same 2 F F' -> contact_psi eigh theta R_old F = contact_psi eigh theta R_old F'.
  Proof. intros H. unfold contact_psi. now rewrite (embed_same F F' H). Qed.
  Lemma grad_exists : contact_grad_correct eigh FractureUse.partials.
  Proof.
    split.
    - intros theta r0 r1 R_old F HR P _. pose proof (psi_gradient theta R_old r0 r1 F HR P) as G. refine (grad_ext2 2 _ _ F _ _ (fun _ => eq_refl) _ G). intros i j Hi Hj. unfold FractureUse.partials. symmetry.
      apply Derive.is_derive_unique. apply Derive.is_derive_Reals. pose proof (G (fun a b => (if (i =? a)%nat then 1 else 0) * (if (j =? b)%nat then 1 else 0))) as D.
      change (dot2 (K := Rops) 2 2 ?A ?B) with (ten_dot 2 A B) in D. rewrite (dot_unit 2 _ i j Hi Hj) in D. exact D.
    - intros theta R_old F F' H i j Hi Hj. unfold FractureUse.partials. apply Derive.Derive_ext. intros t. apply psi_same. intros a b Ha Hb. now rewrite (H a b Ha Hb).
  Qed.
  Variable grad : (tensor -> R) -> tensor -> tensor.
  Hypothesis GC : contact_grad_correct eigh grad.
  Variable noise : tensor.
  Lemma stress_form u_grad theta R_old r0 r1 : let F := fun i j => u_grad i j + noise i j + eye_of i j in same 3 R_old (spin r0 r1) -> 0 < det (K := Rops) 2 F -> simple_spectrum F ->
    same 2 (contact_stress eigh grad noise u_grad [CNum theta; CTen R_old]) (contact_law (is_solid theta) r0 r1 F).
  Proof. intros F HR P SS. unfold contact_stress. cbv zeta. fold F. apply (gradient_unique 2 (contact_psi eigh theta R_old) F); [now apply (proj1 GC theta r0 r1)|now apply psi_gradient]. Qed.
End Stress.
