(** Differentiation along curves; the derivative of the constraint; the adjoint identity. *)
From Coq Require Import List Arith Lia Bool Reals Lra.
From Verif Require Import Num Arr ArrFacts Fe Problem SpecAssembly AssemblyFacts ProblemFacts ResidualFacts DerivFacts SolverBc SpecBc BcMain
  XNum LinSolve Newton NewtonFacts Adjoint SpecAdjoint.
Import ListNotations.
Local Open Scope R_scope.

Lemma helper_same {V} jvp (p : problem Xops V) pts P dofs :
  g_update_helper jvp xsqrt p pts P dofs = newton_update_helper jvp p pts P dofs.
Proof. reflexivity. Qed.

(** ** Sums *)
Lemma rsum_eq n f : rsum n f = sum_n (K := Rops) n f.
Proof. reflexivity. Qed.
Lemma rsum_last n f : rsum (S n) f = rsum n f + f n.
Proof. exact (sum_n_S (K := Rops) Rops_ring n f). Qed.
Lemma rsum_app a b f : rsum (a + b) f = rsum a f + rsum b (fun i => f (a + i)%nat).
Proof. exact (ProblemFacts.sum_n_add (K := Rops) Rops_ring a b f). Qed.
Lemma rsum_ext n f g : (forall i, (i < n)%nat -> f i = g i) -> rsum n f = rsum n g.
Proof. exact (sum_n_ext (K := Rops) n f g). Qed.
Lemma rsum_swap n m f : rsum n (fun i => rsum m (fun j => f i j)) = rsum m (fun j => rsum n (fun i => f i j)).
Proof. exact (sum_n_swap (K := Rops) Rops_ring n m f). Qed.
Lemma rsum_plus n f g : rsum n (fun i => f i + g i) = rsum n f + rsum n g.
Proof. exact (sum_n_plus (K := Rops) Rops_ring n f g). Qed.
Lemma rsum_mul_l n c f : rsum n (fun i => c * f i) = c * rsum n f.
Proof. exact (ProblemFacts.sum_n_mul_l (K := Rops) Rops_ring n c f). Qed.
Lemma rsum_mul_r n c f : rsum n (fun i => f i * c) = rsum n f * c.
Proof. exact (ProblemFacts.sum_n_mul_r (K := Rops) Rops_ring n c f). Qed.
Lemma rsum_zero n f : (forall i, (i < n)%nat -> f i = 0) -> rsum n f = 0.
Proof. exact (sum_n_zero_ext (K := Rops) Rops_ring n f). Qed.
Lemma rsum_single n a f : (a < n)%nat -> (forall i, (i < n)%nat -> i <> a -> f i = 0) -> rsum n f = f a.
Proof.
  revert a. induction n as [|n IH]; intros a Ha H; [lia|]. rewrite rsum_last. destruct (Nat.eq_dec a n) as [->|N].
  - rewrite rsum_zero; [lra|]. intros i Hi. apply H; lia.
  - rewrite (IH a) by (try lia; intros; apply H; lia). rewrite (H n) by lia. lra.
Qed.
Lemma norm1_rsum d : norm1 d = rsum (length d) (fun i => Rabs (nth i d 0)).
Proof.
  induction d as [|a d IH]; [reflexivity|]. change (norm1 (a :: d)) with (Rabs a + norm1 d). rewrite IH. cbn [length].
  symmetry. exact (sum_n_Sl (K := Rops) (length d) (fun i => Rabs (nth i (a :: d) 0))).
Qed.
Lemma norm1_ge d : 0 <= norm1 d.
Proof. induction d as [|a d IH]; [cbn; lra|]. change (norm1 (a :: d)) with (Rabs a + norm1 d). pose proof (Rabs_pos a). lra. Qed.
Lemma norm1_app a b : norm1 (a ++ b) = norm1 a + norm1 b.
Proof. induction a as [|x a IH]; [change (norm1 []) with 0; cbn [app]; lra|]. change (norm1 ((x :: a) ++ b)) with (Rabs x + norm1 (a ++ b)). rewrite IH. change (norm1 (x :: a)) with (Rabs x + norm1 a). lra. Qed.
Lemma norm1_zeros n : norm1 (repeat 0 n) = 0.
Proof. induction n as [|n IH]; [reflexivity|]. change (norm1 (repeat 0 (S n))) with (Rabs 0 + norm1 (repeat 0 n)). rewrite Rabs_R0, IH. lra. Qed.
Lemma plus_length x d : length d = length x -> length (plus x d) = length x.
Proof. intros H. unfold plus. rewrite length_map2. lia. Qed.
Lemma plus_app x1 x2 d1 d2 : length d1 = length x1 -> plus (x1 ++ x2) (d1 ++ d2) = (plus x1 d1 ++ plus x2 d2)%list.
Proof.
  revert d1. induction x1 as [|a x1 IH]; intros [|b d1] H; try discriminate; [reflexivity|]. cbn [app]. unfold plus in *. rewrite !map2_cons. cbn [app].
  f_equal. apply IH. now injection H.
Qed.
Lemma plus_zeros x : plus x (repeat 0 (length x)) = x.
Proof. induction x as [|a x IH]; [reflexivity|]. cbn [length repeat]. unfold plus in *. rewrite map2_cons. f_equal; [lra|exact IH]. Qed.
Lemma nth_plus i x d : length d = length x -> nth i (plus x d) 0 = nth i x 0 + nth i d 0.
Proof.
  intros H. unfold plus. destruct (Nat.lt_ge_cases i (length x)) as [L|L].
  - apply (nth_map2 Rplus); lia.
  - rewrite !nth_overflow; try lia; [lra|]. rewrite length_map2. lia.
Qed.

(** ** The chain rule *)
Lemma dlim_local (f g : R -> R) l r : 0 < r -> (forall t, Rabs t < r -> f t = g t) -> derivable_pt_lim f 0 l -> derivable_pt_lim g 0 l.
Proof.
  intros Hr H D eps He. destruct (D eps He) as (d & Hd). assert (Hm : 0 < Rmin d r) by (apply Rmin_pos; [apply cond_pos|exact Hr]).
  exists (mkposreal _ Hm). cbn. intros h Hh Hh2. rewrite <- !H.
  - apply Hd; [exact Hh|]. apply Rlt_le_trans with (1 := Hh2). apply Rmin_l.
  - rewrite Rabs_R0. exact Hr.
  - rewrite Rplus_0_l. apply Rlt_le_trans with (1 := Hh2). apply Rmin_r.
Qed.
(** near 0 a differentiable curve stays within C |h| of its start *)
Lemma curve_bound n (x : R -> list R) dx : (forall i, (i < n)%nat -> derivable_pt_lim (fun t => nth i (x t) 0) 0 (nth i dx 0)) ->
  exists C r, 0 <= C /\ 0 < r /\ forall h, Rabs h < r -> rsum n (fun i => Rabs (nth i (x h) 0 - nth i (x 0) 0)) <= C * Rabs h.
Proof.
  induction n as [|n IH]; intros H.
  - exists 0, 1. split; [lra|]. split; [lra|]. intros h _. unfold rsum. cbn. lra.
  - destruct IH as (C & r & HC & Hr & B); [intros i Hi; apply H; lia|].
    destruct (H n ltac:(lia) 1 ltac:(lra)) as (d & Hd). set (a := nth n dx 0) in *.
    exists (C + (Rabs a + 1)), (Rmin d r). split; [pose proof (Rabs_pos a); lra|]. split; [apply Rmin_pos; [apply cond_pos|exact Hr]|].
    intros h Hh. rewrite rsum_last. pose proof (Rmin_l d r). pose proof (Rmin_r d r). specialize (B h ltac:(lra)).
    assert (E : Rabs (nth n (x h) 0 - nth n (x 0) 0) <= (Rabs a + 1) * Rabs h).
    { destruct (Req_dec h 0) as [->|Nz]; [rewrite Rminus_eq_0, Rabs_R0; lra|].
      specialize (Hd h Nz ltac:(lra)). rewrite Rplus_0_l in Hd. set (q := (nth n (x h) 0 - nth n (x 0) 0) / h) in *.
      replace (nth n (x h) 0 - nth n (x 0) 0) with (q * h) by (unfold q; field; exact Nz). rewrite Rabs_mult.
      apply Rmult_le_compat_r; [apply Rabs_pos|]. pose proof (Rabs_triang (q - a) a). replace (q - a + a) with q in * by lra. lra. }
    rewrite Rmult_plus_distr_r. lra.
Qed.

Lemma chain_rule f x0 J (x : R -> list R) dx : has_derivative f x0 J -> x 0 = x0 -> (forall t, length (x t) = length x0) ->
  length dx = length x0 -> velocity x dx ->
  forall k, (k < length (f x0))%nat ->
    derivable_pt_lim (fun t => nth k (f (x t)) 0) 0 (rsum (length x0) (fun j => J k j * nth j dx 0)).
Proof.
  intros D E0 L Ld Vx k Hk. set (n := length x0) in *. unfold velocity in Vx. rewrite Ld in Vx.
  destruct (curve_bound n x dx Vx) as (C & r & HC & Hr & Bd).
  set (lin := fun t => rsum n (fun j => J k j * nth j (x t) 0)).
  assert (DL : derivable_pt_lim lin 0 (rsum n (fun j => J k j * nth j dx 0))).
  { apply (dlim_sum_n n (fun j t => J k j * nth j (x t) 0)). intros j Hj. apply (derivable_pt_lim_scal (fun t => nth j (x t) 0)). now apply Vx. }
  assert (DR : derivable_pt_lim (fun t => nth k (f (x t)) 0 - lin t) 0 0).
  { intros eps He. set (e := eps / (C + 1) / 2). assert (He' : 0 < e) by (unfold e; apply Rdiv_lt_0_compat; [apply Rdiv_lt_0_compat; lra|lra]).
    destruct (D e He') as (delta & Hdelta & HD). set (rho := Rmin r (delta / (C + 1))).
    assert (Hrho : 0 < rho) by (apply Rmin_pos; [exact Hr|apply Rdiv_lt_0_compat; lra]).
    exists (mkposreal _ Hrho). cbn. intros h Nz Hh. rewrite Rplus_0_l.
    assert (h1 : Rabs h < r) by (apply Rlt_le_trans with (1 := Hh); apply Rmin_l).
    assert (h2 : Rabs h < delta / (C + 1)) by (apply Rlt_le_trans with (1 := Hh); apply Rmin_r).
    set (d := map2 Rminus (x h) x0). assert (Hdl : length d = length x0) by (unfold d; rewrite length_map2, L; fold n; lia).
    assert (Ed : forall i, (i < n)%nat -> nth i d 0 = nth i (x h) 0 - nth i x0 0).
    { intros i Hi. unfold d. apply (nth_map2 Rminus); [rewrite L|]; exact Hi. }
    assert (Ep : plus x0 d = x h).
    { apply (list_ext 0); [rewrite plus_length, L by exact Hdl; reflexivity|]. rewrite plus_length by exact Hdl. intros i Hi.
      rewrite nth_plus by exact Hdl. rewrite Ed by exact Hi. lra. }
    assert (Nd : norm1 d <= C * Rabs h).
    { rewrite norm1_rsum, Hdl. fold n. rewrite (rsum_ext _ _ (fun i => Rabs (nth i (x h) 0 - nth i (x 0) 0))); [now apply Bd|].
      intros i Hi. now rewrite Ed, E0 by exact Hi. }
    assert (Nd2 : norm1 d < delta).
    { apply Rle_lt_trans with (1 := Nd). apply Rle_lt_trans with ((C + 1) * Rabs h).
      - pose proof (Rabs_pos h). nra.
      - apply (Rmult_lt_compat_l (C + 1)) in h2; [|lra]. replace ((C + 1) * (delta / (C + 1))) with delta in h2 by (field; lra). exact h2. }
    destruct (HD d Hdl Nd2) as [_ HD2]. specialize (HD2 k Hk). rewrite Ep in HD2.
    replace (((nth k (f (x h)) 0 - lin h - (nth k (f (x 0)) 0 - lin 0)) / h) - 0)
      with ((nth k (f (x h)) 0 - nth k (f x0) 0 - rsum (length x0) (fun j => J k j * nth j d 0)) / h).
    2:{ rewrite E0. fold n. rewrite Rminus_0_r. f_equal.
        assert (rsum n (fun j => J k j * nth j d 0) + lin 0 = lin h); [|unfold lin in *; rewrite E0 in *; lra].
        unfold lin. rewrite E0. rewrite <- rsum_plus. apply rsum_ext. intros j Hj. rewrite Ed by exact Hj. lra. }
    unfold Rdiv. rewrite Rabs_mult, Rabs_inv.
    pose proof (Rabs_pos_lt h Nz). apply Rle_lt_trans with (e * (C * Rabs h) * / Rabs h).
    - apply Rmult_le_compat_r; [left; now apply Rinv_0_lt_compat|]. apply Rle_trans with (1 := HD2). apply Rmult_le_compat_l; lra.
    - replace (e * (C * Rabs h) * / Rabs h) with (e * C) by (field; lra). unfold e.
      apply Rle_lt_trans with (eps / (C + 1) / 2 * (C + 1)); [apply Rmult_le_compat_l; [left; exact He'|lra]|].
      replace (eps / (C + 1) / 2 * (C + 1)) with (eps / 2) by (field; lra). lra. }
  pose proof (derivable_pt_lim_plus _ _ 0 _ _ DR DL) as DS. rewrite Rplus_0_l in DS.
  apply (dlim_ext (fun t => nth k (f (x t)) 0 - lin t + lin t)); [intros; lra|exact DS].
Qed.
(** derivative with respect to a part of the variables *)
Lemma partial_derivative f u th J : has_derivative f (u ++ th) J ->
  has_derivative (fun th => f (u ++ th)) th (fun k j => J k (length u + j)%nat).
Proof.
  intros D eps He. destruct (D eps He) as (delta & Hd & H). exists delta. split; [exact Hd|]. intros d Ld Nd.
  destruct (H (repeat 0 (length u) ++ d)%list) as [H1 H2].
  { now rewrite !app_length, repeat_length, Ld. }
  { rewrite norm1_app, norm1_zeros. lra. }
  rewrite plus_app, plus_zeros in H1, H2 by (apply repeat_length). split; [exact H1|]. intros k Hk. specialize (H2 k Hk).
  rewrite norm1_app, norm1_zeros, Rplus_0_l in H2. rewrite app_length, rsum_app in H2.
  rewrite (rsum_zero (length u)), Rplus_0_l in H2.
  - replace (rsum (length th) (fun j => J k (length u + j)%nat * nth j d 0))
      with (rsum (length th) (fun i => J k (length u + i)%nat * nth (length u + i) (repeat 0 (length u) ++ d) 0)); [exact H2|].
    apply rsum_ext. intros i Hi. f_equal. rewrite app_nth2; rewrite repeat_length; [f_equal; lia|lia].
  - intros i Hi. rewrite app_nth1 by (now rewrite repeat_length). rewrite nth_repeat. lra.
Qed.
