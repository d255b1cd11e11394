(** Proofs for C100: what the code does not do. *)
From Coq Require Import List Arith Bool Reals Lia Lra.
From Verif Require Import Num Fe Problem ProblemFacts DerivFacts ElasticFacts Dendrite SpecDendrite DendriteAngle DendriteFd SpecDendriteFd DendriteFdFacts DendriteFdMain.
Import ListNotations.
Local Open Scope R_scope.

Definition three_spots : grid := fun i j => if ((i =? 5) && (j =? 3) || (i =? 4) && (j =? 3) || (i =? 2) && (j =? 4))%nat then 1 else 0.
Section Frozen.
  Variables (nx ny : nat).
  Hypothesis HX : (7 <= nx)%nat. Hypothesis HY : (7 <= ny)%nat.
  Local Notation P := fd_example.
  Local Notation h := (3 / 100).
  Local Notation half := (fun _ _ : nat => / 2 : R).
  Local Notation warm := (fun _ _ : nat => 1 : R).
  Let r1 := fd_pass nx ny P h h three_spots None half warm.
  Let p1 := fst (snd r1).
  Lemma p1_at i j : inner nx ny i j -> p1 i j = / 2 + / 1200 * three_spots i j.
  Proof.
    intros I. refine (eq_trans (bc_inner nx ny _ i j I) _). pose proof (const_pass nx ny P h h three_spots None half warm (/ 2) (fun _ _ => eq_refl) i j) as C. cbv zeta in C. refine (eq_trans C _).
    unfold driving, fd_example. cbn [dt tau a_noise alpha gamma T_eq]. replace (10 * (1 - 1)) with 0 by ring. rewrite atan_0. field. exact PI_neq0.
  Qed.
  Lemma at_diff i j : inner nx ny i j -> inner nx ny (i + 1) j -> inner nx ny (i - 1) j -> inner nx ny i (j + 1) -> inner nx ny i (j - 1) ->
    diff_x p1 h i j = / 72 * (three_spots (i + 1)%nat j - three_spots (i - 1)%nat j) /\ diff_y p1 h i j = / 72 * (three_spots i (j + 1)%nat - three_spots i (j - 1)%nat).
  Proof. intros I A B C D. unfold diff_x, diff_y. rewrite !p1_at by assumption. split; field. Qed.
  Ltac inn := (unfold inner; lia).
  Lemma w_4 : wid2 nx ny P h h p1 4%nat 3%nat = (1 / 100 * (1 + 4 / 100)) ^ 2.
  Proof.
    destruct (at_diff 4%nat 3%nat) as [A B]; try inn. pose proof (grad_inner nx ny p1 h h 4%nat 3%nat ltac:(inn)) as [GA GB]. unfold wid2, wid, dir, gx, gy. rewrite GA, GB, A, B. unfold three_spots. cbn [Nat.add Nat.sub Nat.eqb andb orb].
    unfold get_theta. repeat match goal with |- context [Rlt_dec ?a ?b] => destruct (Rlt_dec a b); try lra | |- context [Req_EM_T ?a ?b] => destruct (Req_EM_T a b); try lra end.
    unfold get_eps, fd_example. cbn [fst eps_bar delta J_mode]. rewrite Rmult_0_r, cos_0. f_equal. lra.
  Qed.
  Lemma cos_3PI : cos (6 * (5 / 10 * PI)) = -1.
  Proof. replace (6 * (5 / 10 * PI)) with (PI + 2 * IZR 1 * PI) by lra. rewrite cos_period_Z. apply cos_PI. Qed.
  Lemma w_2 : wid2 nx ny P h h p1 2%nat 3%nat = (1 / 100 * (1 - 4 / 100)) ^ 2.
  Proof.
    destruct (at_diff 2%nat 3%nat) as [A B]; try inn. pose proof (grad_inner nx ny p1 h h 2%nat 3%nat ltac:(inn)) as [GA GB]. unfold wid2, wid, dir, gx, gy. rewrite GA, GB, A, B. unfold three_spots. cbn [Nat.add Nat.sub Nat.eqb andb orb].
    unfold get_theta. repeat match goal with |- context [Rlt_dec ?a ?b] => destruct (Rlt_dec a b); try lra | |- context [Req_EM_T ?a ?b] => destruct (Req_EM_T a b); try lra end.
    unfold get_eps, fd_example. cbn [fst eps_bar delta J_mode]. rewrite cos_3PI. f_equal. lra.
  Qed.
  Theorem frozen_differs : ~ kobayashi nx ny P h h three_spots p1 (snd (snd r1)) (fst (snd (fd_pass nx ny P h h three_spots (fst r1) p1 (snd (snd r1))))) (snd (snd (fd_pass nx ny P h h three_spots (fst r1) p1 (snd (snd r1))))).
  Proof.
    intros (_ & _ & K & _). set (T1 := snd (snd r1)) in *.
    pose proof (pass_step nx ny P h h three_spots ltac:(lia) ltac:(lia) (fst r1) half p1 T1 eq_refl) as (_ & _ & F & _).
    specialize (K 3%nat 3%nat ltac:(inn)). specialize (F 3%nat 3%nat ltac:(inn)). rewrite K in F. clear K.
    destruct (at_diff 3%nat 3%nat) as [A B]; try inn.
    assert (H0 : diff_x (wid2 nx ny P h h half) h 3%nat 3%nat = 0 /\ diff_y (wid2 nx ny P h h half) h 3%nat 3%nat = 0).
    { assert (W : forall i j, wid2 nx ny P h h half i j = wid2 nx ny P h h half 0%nat 0%nat).
      { intros i j. unfold wid2, wid, dir, gx, gy. destruct (const_grad nx ny h h half (/ 2) (fun _ _ => eq_refl) i j) as [-> ->]. destruct (const_grad nx ny h h half (/ 2) (fun _ _ => eq_refl) 0%nat 0%nat) as [-> ->]. reflexivity. }
      unfold diff_x, diff_y. rewrite (W (3 + 1)%nat 3%nat), (W (3 - 1)%nat 3%nat), (W 3%nat (3 + 1)%nat), (W 3%nat (3 - 1)%nat). unfold Rdiv. split; ring. }
    destruct H0 as [H0 H1]. unfold rhs in F. rewrite H0, H1 in F. rewrite A, B in F.
    assert (DW : diff_x (wid2 nx ny P h h p1) h 3%nat 3%nat = ((1 / 100 * (1 + 4 / 100)) ^ 2 - (1 / 100 * (1 - 4 / 100)) ^ 2) / (2 * h)) by (unfold diff_x; cbn [Nat.add Nat.sub]; now rewrite w_4, w_2).
    rewrite DW in F. unfold three_spots in F. cbn [Nat.add Nat.sub Nat.eqb andb orb] in F. unfold fd_example in F. cbn [dt tau] in F.
    repeat match type of F with context [diff_x ?g ?a 3%nat 3%nat] => generalize dependent (diff_x g a 3%nat 3%nat); intros | context [diff_y ?g ?a 3%nat 3%nat] => generalize dependent (diff_y g a 3%nat 3%nat); intros end.
    lra.
  Qed.
End Frozen.

Definition front : grid := fun i _ => if (i <=? 1)%nat then 0 else 1.
Section Edges.
  Variables (ny : nat) (P : dn_params) (hx hy : R) (chi : grid).
  Hypothesis HY : (3 <= ny)%nat.
  Hypothesis DT : 0 < dt P.
  Hypothesis X0 : hx <> 0.
  Local Notation none := (fun _ _ : nat => 0 : R).
  Let r := fd_pass 5 ny P hx hy chi None none front.
  Lemma front_mirrored : mirrored 5 ny front.
  Proof. split; intros; split; reflexivity. Qed.
  Lemma front_p i j : fst (snd r) i j = 0.
  Proof.
    refine (const_bc 5 ny _ 0 _ i j). intros a b. pose proof (const_pass 5 ny P hx hy chi None none front 0 (fun _ _ => eq_refl) a b) as C. cbv zeta in C. refine (eq_trans C _). ring.
  Qed.
  Lemma front_T i j : on_grid 5 ny i j -> snd (snd r) i j = nth i [dt P / hx ^ 2; dt P / hx ^ 2; 1 - dt P / hx ^ 2; 1; 1] 0.
  Proof.
    intros O. refine (eq_trans (bc_clamp 5 ny _ i j ltac:(lia) HY O) _).
    transitivity (front (Nat.max 1 (Nat.min i (5 - 2))) (Nat.max 1 (Nat.min j (ny - 2))) + dt P * fd_laplace 5 ny front hx hy (Nat.max 1 (Nat.min i (5 - 2))) (Nat.max 1 (Nat.min j (ny - 2)))
      + K_lat P * (fst (snd r) (Nat.max 1 (Nat.min i (5 - 2))) (Nat.max 1 (Nat.min j (ny - 2))) - 0)); [reflexivity|].
    rewrite front_p. generalize (Nat.max 1 (Nat.min j (ny - 2))). intros b. unfold fd_laplace.
    assert (Y1 : neg_y front (Nat.max 1 (Nat.min i (5 - 2))) b = front (Nat.max 1 (Nat.min i (5 - 2))) b) by (unfold neg_y, front; destruct b; reflexivity).
    assert (Y2 : pos_y ny front (Nat.max 1 (Nat.min i (5 - 2))) b = front (Nat.max 1 (Nat.min i (5 - 2))) b) by (unfold pos_y, front; destruct (b =? ny - 1)%nat; reflexivity).
    rewrite Y1, Y2. destruct O as [Hi _]. do 5 (destruct i as [|i]; [unfold neg_x, pos_x, front; cbn [Nat.max Nat.min Nat.sub Nat.eqb Nat.leb nth]; unfold Rdiv; ring|]). lia.
  Qed.
  Theorem edges_heat : grid_sum 5 ny (fun i j => snd (snd r) i j - K_lat P * fst (snd r) i j) = grid_sum 5 ny (fun i j => front i j - K_lat P * 0) + INR ny * (dt P / hx ^ 2).
  Proof.
    assert (E : forall j, (j < ny)%nat -> True) by auto. unfold grid_sum.
    rewrite (Rsum_ext 5 _ (fun i => sum_n (K := Rops) ny (fun _ => nth i [dt P / hx ^ 2; dt P / hx ^ 2; 1 - dt P / hx ^ 2; 1; 1] 0))).
    2: { intros i Hi. apply Rsum_ext. intros j Hj. rewrite front_p, (front_T i j (conj Hi Hj)). ring. }
    rewrite (Rsum_ext 5 (fun i => sum_n ny (fun j => front i j - K_lat P * 0)) (fun i => sum_n (K := Rops) ny (fun _ => front i 0%nat))).
    2: { intros i Hi. apply Rsum_ext. intros j Hj. unfold front. ring. }
    assert (C : forall c, sum_n (K := Rops) ny (fun _ => c) = INR ny * c).
    { intros c. clear. induction ny as [|n IH]; [cbn; req; ring|]. rewrite (sum_n_S Rops_ring), IH, S_INR. cbn [add Rops]. req; ring. }
    rewrite (Rsum_ext 5 _ (fun i => INR ny * nth i [dt P / hx ^ 2; dt P / hx ^ 2; 1 - dt P / hx ^ 2; 1; 1] 0)) by (intros; apply C).
    rewrite (Rsum_ext 5 (fun i => sum_n ny (fun _ => front i 0%nat)) (fun i => INR ny * front i 0%nat)) by (intros; apply C).
    unfold sum_n, sum_over. cbn. req. unfold front. cbn. ring.
  Qed.
End Edges.
