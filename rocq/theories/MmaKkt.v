(** The direction of subsolv is a Newton step (C60); the point it returns is nearly optimal (C61). *)
From Coq Require Import List Arith Lia Reals Lra.
From Verif Require Import Num Arr Fe Problem ProblemFacts XNum DerivFacts Newton Mma SpecMma MmaFacts MmaMain.
Import ListNotations.
Local Open Scope R_scope.
Ltac rring := match goal with |- ?a = ?b => change (@eq R a b) end; ops; ring.
Ltac rfield := match goal with |- ?a = ?b => change (@eq R a b) end; ops; field.

Lemma rsum_ext n f g : (forall i, (i < n)%nat -> f i = g i) -> rsum n f = rsum n g.
Proof. exact (sum_n_ext (K := Rops) n f g). Qed.
Lemma rsum_S n f : rsum (S n) f = rsum n f + f n.
Proof. exact (sum_n_S Rops_ring n f). Qed.
Lemma rsum_plus n f g : rsum n (fun i => f i + g i) = rsum n f + rsum n g.
Proof. exact (sum_n_plus Rops_ring n f g). Qed.
Lemma rsum_mul n c f : rsum n (fun i => c * f i) = c * rsum n f.
Proof. exact (sum_n_mul_l Rops_ring n c f). Qed.
Lemma rsum_minus n f g : rsum n (fun i => f i - g i) = rsum n f - rsum n g.
Proof. rewrite (rsum_ext n _ (fun i => 1 * f i + (- 1) * g i)); [rewrite rsum_lin; rring|intros; rring]. Qed.
Lemma rsum_swap n m (f : nat -> nat -> R) : rsum n (fun i => rsum m (f i)) = rsum m (fun j => rsum n (fun i => f i j)).
Proof. exact (sum_n_swap Rops_ring n m f). Qed.

Section Direction.
  Variables m n : nat.
  Variable T : subproblem RF.
  Variable rt : state RF.
  Hypothesis OK : okT m n T.
  Hypothesis IN : inT m n T rt.
  Variable e : R.
  Variable solve : nat -> (nat -> nat -> RF) -> (nat -> RF) -> result (nat -> RF).
  Hypothesis EX : solves_exactly solve.

  Lemma lastrow k (A : nat -> nat -> R) x b : rsum (k + 1) (fun j => A k j * x j) = b -> rsum k (fun j => A k j * x j) + A k k * x k = b.
  Proof. rewrite Nat.add_1_r, rsum_S. auto. Qed.
  Lemma row k (A : nat -> nat -> R) x b i : rsum (k + 1) (fun j => A i j * x j) = b -> rsum k (fun j => A i j * x j) + A i k * x k = b.
  Proof. rewrite Nat.add_1_r, rsum_S. auto. Qed.

  (** the eliminated system *)
  Record system (d : state RF) : Prop := {
    n_x : forall i, (i < n)%nat -> diagx m T rt i * vx d i + rsum m (fun k => GG T rt k i * vlam d k) = - delx m T (e : RF) rt i;
    n_y : forall k, (k < m)%nat -> diagy T rt k * vy d k - vlam d k = - dely T (e : RF) rt k;
    n_z : vzet rt / vz rt * vz d - rsum m (fun k => aa T k * vlam d k) = - delz m T (e : RF) rt;
    n_lam : forall k, (k < m)%nat -> rsum n (fun i => GG T rt k i * vx d i) - aa T k * vz d - vy d k - vs rt k / vlam rt k * vlam d k = - dellam n T (e : RF) rt k;
    n_xsi : forall i, (i < n)%nat -> vxsi d i = - vxsi rt i + e * 1 / (vx rt i - alfa T i) - vxsi rt i * vx d i / (vx rt i - alfa T i);
    n_eta : forall i, (i < n)%nat -> veta d i = - veta rt i + e * 1 / (beta T i - vx rt i) + veta rt i * vx d i / (beta T i - vx rt i);
    n_mu : forall k, (k < m)%nat -> vmu d k = - vmu rt k + e * 1 / vy rt k - vmu rt k * vy d k / vy rt k;
    n_zet : vzet d = - vzet rt + e / vz rt - vzet rt * vz d / vz rt;
    n_s : forall k, (k < m)%nat -> vs d k = - vs rt k + e * 1 / vlam rt k - vs rt k * vlam d k / vlam rt k
  }.
  Let dxp := diagx_pos m n T OK rt IN. Let dyp := diagy_pos m n T OK rt IN. Let dlp := diaglamyi_pos m n T OK rt IN.

  Lemma few_rows x : solve (m + 1) (AA_few m n T rt) (bb_few m n T (e : RF) rt) = Ok x ->
    (forall k, (k < m)%nat -> diaglamyi T rt k * x k + rsum n (fun i => GG T rt k i * (rsum m (fun l => GG T rt l i * x l) / diagx m T rt i)) + aa T k * x m =
       dellam n T (e : RF) rt k + dely T (e : RF) rt k / diagy T rt k - rsum n (fun i => GG T rt k i * (delx m T (e : RF) rt i / diagx m T rt i))) /\
    rsum m (fun k => aa T k * x k) - vzet rt / vz rt * x m = delz m T (e : RF) rt.
  Proof.
    intros E. pose proof (EX _ _ _ _ E) as R. split.
    - intros k Hk. pose proof (row _ _ _ _ _ (R k ltac:(lia))) as Rk. unfold AA_few at 2, bb_few in Rk. rewrite (proj2 (Nat.ltb_lt k m) Hk), Nat.ltb_irrefl in Rk.
      unfold dot in Rk. ops.
      rewrite (rsum_ext m _ (fun j => (if (j =? k)%nat then diaglamyi T rt k * x k else 0) + rsum n (fun i => GG T rt k i * (1 / diagx m T rt i) * (GG T rt j i * x j)))) in Rk.
      + rewrite rsum_plus, rsum_single in Rk by exact Hk. rewrite rsum_swap in Rk.
        rewrite (rsum_ext n (fun i => rsum m _) (fun i => GG T rt k i * (rsum m (fun l => GG T rt l i * x l) / diagx m T rt i))) in Rk; [exact Rk|].
        intros i Hi. rewrite rsum_mul. rfield. pose proof (dxp i Hi). lra.
      + intros j Hj. unfold AA_few. rewrite (proj2 (Nat.ltb_lt k m) Hk), (proj2 (Nat.ltb_lt j m) Hj). unfold Alam, diagxinv. ops.
        rewrite (rsum_ext n (fun i => GG T rt k i * (1 / diagx m T rt i) * (GG T rt j i * x j)) (fun i => x j * (1 / diagx m T rt i * GG T rt k i * GG T rt j i))) by (intros; rring).
        rewrite rsum_mul. rewrite (Nat.eqb_sym k j). destruct (Nat.eqb_spec j k) as [->|]; rring.
    - pose proof (lastrow _ _ _ _ (R m ltac:(lia))) as Rm. unfold AA_few at 2, bb_few in Rm. rewrite Nat.ltb_irrefl in Rm. rewrite <- Rm. ops.
      rewrite (rsum_ext m (fun j => AA_few m n T rt m j * x j) (fun k => aa T k * x k)); [unfold Rdiv; rring|].
      intros j Hj. unfold AA_few. rewrite Nat.ltb_irrefl, (proj2 (Nat.ltb_lt j m) Hj). reflexivity.
  Qed.
  Lemma many_rows x : solve (n + 1) (AA_many m n T rt) (bb_many m n T (e : RF) rt) = Ok x ->
    (forall i, (i < n)%nat -> diagx m T rt i * x i + rsum m (fun k => GG T rt k i * (rsum n (fun l => GG T rt k l * x l) / diaglamyi T rt k))
       - rsum m (fun k => GG T rt k i * (aa T k / diaglamyi T rt k)) * x n =
       - (delx m T (e : RF) rt i + rsum m (fun k => GG T rt k i * (dellamyi n T (e : RF) rt k / diaglamyi T rt k)))) /\
    - rsum m (fun k => aa T k / diaglamyi T rt k * rsum n (fun i => GG T rt k i * x i)) + (vzet rt / vz rt + rsum m (fun k => aa T k * (aa T k / diaglamyi T rt k))) * x n =
      - (delz m T (e : RF) rt - rsum m (fun k => aa T k * (dellamyi n T (e : RF) rt k / diaglamyi T rt k))).
  Proof.
    intros E. pose proof (EX _ _ _ _ E) as R. split.
    - intros i Hi. pose proof (row _ _ _ _ _ (R i ltac:(lia))) as Rk. unfold AA_many at 2, bb_many in Rk. rewrite (proj2 (Nat.ltb_lt i n) Hi), Nat.ltb_irrefl in Rk.
      unfold axz, bx, dot in Rk. ops.
      rewrite (rsum_ext n _ (fun j => (if (j =? i)%nat then diagx m T rt i * x i else 0) + rsum m (fun k => GG T rt k i * (1 / diaglamyi T rt k) * (GG T rt k j * x j)))) in Rk.
      + rewrite rsum_plus, rsum_single in Rk by exact Hi. rewrite rsum_swap in Rk.
        rewrite (rsum_ext m (fun k => rsum n _) (fun k => GG T rt k i * (rsum n (fun l => GG T rt k l * x l) / diaglamyi T rt k))) in Rk.
        2:{ intros k Hk. rewrite rsum_mul. rfield. pose proof (dlp k Hk). lra. }
        rewrite (rsum_ext m (fun k => - GG T rt k i * (aa T k / diaglamyi T rt k)) (fun k => (- 1) * (GG T rt k i * (aa T k / diaglamyi T rt k)))) in Rk by (intros; rring).
        rewrite rsum_mul in Rk. rewrite <- Rk. rring.
      + intros j Hj. unfold AA_many. rewrite (proj2 (Nat.ltb_lt i n) Hi), (proj2 (Nat.ltb_lt j n) Hj). unfold Axx, diaglamyiinv. ops.
        rewrite (rsum_ext m (fun k => GG T rt k i * (1 / diaglamyi T rt k) * (GG T rt k j * x j)) (fun k => x j * (1 / diaglamyi T rt k * GG T rt k i * GG T rt k j))) by (intros; rring).
        rewrite rsum_mul. rewrite (Nat.eqb_sym i j). destruct (Nat.eqb_spec j i) as [->|]; rring.
    - pose proof (lastrow _ _ _ _ (R n ltac:(lia))) as Rm. unfold AA_many at 2, bb_many in Rm. rewrite Nat.ltb_irrefl in Rm. unfold azz, bz, dot in Rm. ops. rewrite <- Rm.
      f_equal. rewrite (rsum_ext n (fun j => AA_many m n T rt n j * x j) (fun i => rsum m (fun k => (- 1) * (aa T k / diaglamyi T rt k) * (GG T rt k i * x i)))).
      + rewrite rsum_swap. rewrite (rsum_ext m (fun j => rsum n _) (fun k => (- 1) * (aa T k / diaglamyi T rt k * rsum n (fun i => GG T rt k i * x i)))).
        * rewrite rsum_mul. rring.
        * intros k Hk. rewrite rsum_mul. rring.
      + intros j Hj. unfold AA_many. rewrite Nat.ltb_irrefl, (proj2 (Nat.ltb_lt j n) Hj). unfold axz, dot. ops. rewrite Rmult_comm, <- rsum_mul. apply rsum_ext. intros; rring.
  Qed.

  Lemma direction_system d : direction m n T (e : RF) rt solve = Ok d -> system d.
  Proof.
    unfold direction. destruct (Nat.ltb_spec m n) as [L|L].
    - unfold few. destruct (solve (m + 1) _ _) as [x|] eqn:E; [|discriminate]. unfold bind; cbv beta iota zeta. intros H. apply Ok_inj in H. subst d.
      destruct (few_rows x E) as (Rk & Rm). constructor; cbn [vx vy vz vlam vxsi veta vmu vzet vs]; try (intros; reflexivity); unfold dot; ops.
      + intros i Hi. rfield. pose proof (dxp i Hi). lra.
      + intros k Hk. rfield. pose proof (dyp k Hk). lra.
      + lra.
      + intros k Hk. specialize (Rk k Hk). unfold diaglamyi, diaglam, diagyinv in Rk. ops.
        rewrite (rsum_ext n (fun i => GG T rt k i * (- delx m T e rt i / diagx m T rt i - rsum m (fun l => GG T rt l i * x l) / diagx m T rt i))
          (fun i => (- 1) * (GG T rt k i * (delx m T e rt i / diagx m T rt i)) + (- 1) * (GG T rt k i * (rsum m (fun l => GG T rt l i * x l) / diagx m T rt i)))) by (intros; unfold Rdiv; rring).
        rewrite rsum_lin. assert (Q : vs rt k / vlam rt k * x k + 1 / diagy T rt k * x k = (vs rt k / vlam rt k + 1 / diagy T rt k) * x k) by rring.
        unfold Rdiv in *. ops. lra.
    - unfold many. destruct (solve (n + 1) _ _) as [x|] eqn:E; [|discriminate]. unfold bind; cbv beta iota zeta. intros H. apply Ok_inj in H. subst d.
      destruct (many_rows x E) as (Ri & Rn). constructor; cbn [vx vy vz vlam vxsi veta vmu vzet vs]; try (intros; reflexivity); unfold dot; ops.
      + intros i Hi. specialize (Ri i Hi).
        rewrite (rsum_ext m (fun k => GG T rt k i * (rsum n (fun j => GG T rt k j * x j) / diaglamyi T rt k - x n * (aa T k / diaglamyi T rt k) + dellamyi n T e rt k / diaglamyi T rt k))
          (fun k => 1 * (1 * (GG T rt k i * (rsum n (fun l => GG T rt k l * x l) / diaglamyi T rt k)) + (- x n) * (GG T rt k i * (aa T k / diaglamyi T rt k))) +
             1 * (GG T rt k i * (dellamyi n T e rt k / diaglamyi T rt k)))) by (intros; rring).
        rewrite rsum_lin, rsum_lin. lra.
      + intros k Hk. rfield. pose proof (dyp k Hk). pose proof (dlp k Hk). lra.
      + rewrite (rsum_ext m (fun k => aa T k * (rsum n (fun j => GG T rt k j * x j) / diaglamyi T rt k - x n * (aa T k / diaglamyi T rt k) + dellamyi n T e rt k / diaglamyi T rt k))
          (fun k => 1 * (1 * (aa T k / diaglamyi T rt k * rsum n (fun i => GG T rt k i * x i)) + (- x n) * (aa T k * (aa T k / diaglamyi T rt k))) +
             1 * (aa T k * (dellamyi n T e rt k / diaglamyi T rt k)))) by (intros; unfold Rdiv; rring).
        rewrite rsum_lin, rsum_lin. lra.
      + intros k Hk. pose proof (dyp k Hk) as Y. pose proof (dlp k Hk) as D. pose proof (i_lam _ _ _ _ IN k Hk) as LP.
        set (w := rsum n (fun i => GG T rt k i * x i)) in *.
        assert (Q : diaglamyi T rt k = vs rt k / vlam rt k + 1 / diagy T rt k) by reflexivity.
        set (dl := w / diaglamyi T rt k - x n * (aa T k / diaglamyi T rt k) + dellamyi n T e rt k / diaglamyi T rt k).
        assert (Z : diaglamyi T rt k * dl = w - aa T k * x n + (dellam n T e rt k + dely T e rt k / diagy T rt k)).
        { subst dl. unfold dellamyi. rfield. ops. split; lra. }
        rewrite Q in Z. clearbody dl. ops. unfold Rdiv in *. lra.
  Qed.
End Direction.

(** ** Derivatives along the direction *)
Lemma dlim_line (v d : R) : derivable_pt_lim (fun t => v + t * d) 0 d.
Proof. eapply dlim_val; [|apply dlim_plus; [apply dlim_const|apply dlim_mult; [apply dlim_id|apply dlim_const]]]. cbv beta. ring. Qed.
Lemma dlim_div (f g : R -> R) t f' g' : derivable_pt_lim f t f' -> derivable_pt_lim g t g' -> g t <> 0 -> derivable_pt_lim (fun t => f t / g t) t ((f' * g t - g' * f t) / (g t * g t)).
Proof. intros F G N. exact (derivable_pt_lim_div f g t f' g' F G N). Qed.

Definition drel (f : R -> list R) (g : list R) : Prop := (forall t, length (f t) = length g) /\
  forall i, (i < length g)%nat -> derivable_pt_lim (fun t => nth i (f t) 0) 0 (- nth i g 0).
Lemma drel_app f1 g1 f2 g2 : drel f1 g1 -> drel f2 g2 -> drel (fun t => f1 t ++ f2 t)%list (g1 ++ g2)%list.
Proof.
  intros (L1 & D1) (L2 & D2). split; [intros t; now rewrite !app_length, L1, L2|]. intros i Hi. rewrite app_length in Hi.
  destruct (Nat.lt_ge_cases i (length g1)) as [A|A].
  - rewrite app_nth1 by exact A. apply dlim_ext with (fun t => nth i (f1 t) 0); [|now apply D1]. intros t. rewrite app_nth1 by (rewrite L1; exact A). reflexivity.
  - rewrite app_nth2 by exact A. apply dlim_ext with (fun t => nth (i - length g1) (f2 t) 0); [|apply D2; lia]. intros t. rewrite app_nth2 by (rewrite L1; exact A). now rewrite L1.
Qed.
Lemma drel_one f (g : R) : derivable_pt_lim f 0 (- g) -> drel (fun t => [f t]) [g].
Proof. intros D. split; [reflexivity|]. intros [|i] H; [exact D|cbn in H; lia]. Qed.
Lemma drel_entries k (f : R -> nat -> R) (g : nat -> R) : (forall i, (i < k)%nat -> derivable_pt_lim (fun t => f t i) 0 (- g i)) ->
  drel (fun t => entries (F := RF) k (f t)) (entries (F := RF) k g).
Proof.
  intros D. assert (L : forall u : nat -> RF, length (entries k u) = k) by (intros u; unfold entries; now rewrite map_length, seq_length).
  split; [intros t; now rewrite !L|]. intros i Hi. rewrite L in Hi.
  assert (N : forall u : nat -> R, nth i (entries (F := RF) k u) 0 = u i).
  { intros u. etransitivity; [apply (nth_indep (A := R) _ 0 (u 0%nat)); change (@length R) with (@length (car RF)); rewrite L; exact Hi|].
    etransitivity; [exact (map_nth u (seq 0 k) 0%nat i)|]. now rewrite seq_nth. }
  rewrite N. apply dlim_ext with (fun t => f t i); [intros t; now rewrite N|now apply D].
Qed.

Section Derivatives.
  Variables m n : nat.
  Variable T : subproblem RF.
  Variable rt : state RF.
  Hypothesis OK : okT m n T.
  Hypothesis IN : inT m n T rt.
  Variable e : R.
  Variable d : state RF.
  Hypothesis SY : system m n T rt e d.
  Let at_ (t : R) : state RF := move_by (F := RF) rt d t.
  Ltac line := first [exact (dlim_line _ _) | apply dlim_const].

  Lemma d_ux1 i : derivable_pt_lim (fun t => ux1 T (at_ t) i) 0 (- vx d i).
  Proof. eapply dlim_val; cycle 1. - apply (dlim_minus (fun _ => upp T i) (fun t => vx rt i + t * vx d i)); line. - ring. Qed.
  Lemma d_xl1 i : derivable_pt_lim (fun t => xl1 T (at_ t) i) 0 (vx d i).
  Proof. eapply dlim_val; cycle 1. - apply (dlim_minus (fun t => vx rt i + t * vx d i) (fun _ => low T i)); line. - ring. Qed.
  Lemma at_0 (v w : R) : v + 0 * w = v.
  Proof. ring. Qed.
  Lemma ux1_0 i : ux1 T (at_ 0) i = ux1 T rt i.
  Proof. unfold ux1, at_, move_by. cbn [vx]. rring. Qed.
  Lemma xl1_0 i : xl1 T (at_ 0) i = xl1 T rt i.
  Proof. unfold xl1, at_, move_by. cbn [vx]. rring. Qed.
  Lemma d_dot k (p : nat -> R) (v w : nat -> R) : derivable_pt_lim (fun t => dot (F := RF) k p (fun i => v i + t * w i)) 0 (rsum k (fun i => p i * w i)).
  Proof.
    unfold dot. apply (dlim_sum_n k). intros i Hi. eapply dlim_val; cycle 1. - apply (dlim_mult (fun _ => p i) (fun t => v i + t * w i)); line. - cbv beta. ring.
  Qed.
  Lemma dot_0 k (p v w : nat -> R) : dot (F := RF) k p (fun i => v i + 0 * w i) = dot (F := RF) k p v.
  Proof. unfold dot. apply rsum_ext. intros i Hi. rring. Qed.
  Lemma d_plam i : derivable_pt_lim (fun t => plam m T (at_ t) i) 0 (rsum m (fun k => PP T k i * vlam d k)).
  Proof. eapply dlim_val; cycle 1. - apply (dlim_plus (fun _ => p0 T i)); [apply dlim_const|]. apply d_dot. - apply Rplus_0_l. Qed.
  Lemma d_qlam i : derivable_pt_lim (fun t => qlam m T (at_ t) i) 0 (rsum m (fun k => QQ T k i * vlam d k)).
  Proof. eapply dlim_val; cycle 1. - apply (dlim_plus (fun _ => q0 T i)); [apply dlim_const|]. apply d_dot. - apply Rplus_0_l. Qed.
  Lemma plam_0 i : plam m T (at_ 0) i = plam m T rt i.
  Proof. unfold plam. f_equal. apply (dot_0 m (fun k => PP T k i)). Qed.
  Lemma qlam_0 i : qlam m T (at_ 0) i = qlam m T rt i.
  Proof. unfold qlam. f_equal. apply (dot_0 m (fun k => QQ T k i)). Qed.
  Lemma d_rex i : (i < n)%nat -> derivable_pt_lim (fun t => rex m T (at_ t) i) 0 (- rex m T rt i).
  Proof.
    intros Hi. pose proof (ux1_pos m n T OK rt IN i Hi) as U. pose proof (xl1_pos m n T OK rt IN i Hi) as L. eapply dlim_val; cycle 1.
    - apply (dlim_plus (fun t => (plam m T (at_ t) i / (ux1 T (at_ t) i * ux1 T (at_ t) i) - qlam m T (at_ t) i / (xl1 T (at_ t) i * xl1 T (at_ t) i)) - (vxsi rt i + t * vxsi d i)) (fun t => veta rt i + t * veta d i)); [|line].
      apply dlim_minus; [|line]. apply dlim_minus; apply dlim_div.
      + apply d_plam.
      + apply (dlim_mult (fun t => ux1 T (at_ t) i) (fun t => ux1 T (at_ t) i)); apply d_ux1.
      + rewrite ux1_0. apply Rgt_not_eq, Rmult_lt_0_compat; exact U.
      + apply d_qlam.
      + apply (dlim_mult (fun t => xl1 T (at_ t) i) (fun t => xl1 T (at_ t) i)); apply d_xl1.
      + rewrite xl1_0. apply Rgt_not_eq, Rmult_lt_0_compat; exact L.
    - cbv beta. rewrite ux1_0, xl1_0, plam_0, qlam_0. pose proof (n_x _ _ _ _ _ _ SY i Hi) as N. pose proof (n_xsi _ _ _ _ _ _ SY i Hi) as NX. pose proof (n_eta _ _ _ _ _ _ SY i Hi) as NE.
      assert (GS : rsum m (fun k => GG T rt k i * vlam d k) = rsum m (fun k => PP T k i * vlam d k) / (ux1 T rt i * ux1 T rt i) - rsum m (fun k => QQ T k i * vlam d k) / (xl1 T rt i * xl1 T rt i)).
      { rewrite (rsum_ext m _ (fun k => 1 / (ux1 T rt i * ux1 T rt i) * (PP T k i * vlam d k) + (- (1 / (xl1 T rt i * xl1 T rt i))) * (QQ T k i * vlam d k))).
        - rewrite rsum_lin. rfield. split; lra.
        - intros k Hk. unfold GG, ux2, xl2. rring. }
      rewrite GS in N. clear GS. unfold rex, dpsidx, ux2, xl2. unfold diagx, delx, dpsidx, ux3, xl3, ux2, xl2 in N.
      pose proof (i_ax _ _ _ _ IN i Hi). pose proof (i_xb _ _ _ _ IN i Hi). ops.
      generalize dependent (ux1 T rt i). generalize dependent (xl1 T rt i). intros xl Pl ux Pu N.
      set (SP := rsum m (fun k => PP T k i * vlam d k)) in *. set (SQ := rsum m (fun k => QQ T k i * vlam d k)) in *.
      set (pl := plam m T rt i) in *. set (ql := qlam m T rt i) in *. rewrite NX, NE.
      apply Rminus_diag_uniq. apply Rminus_diag_eq in N. etransitivity; [|exact N]. field. repeat split; lra.
  Qed.
  Lemma d_rey k : (k < m)%nat -> derivable_pt_lim (fun t => rey T (at_ t) k) 0 (- rey T rt k).
  Proof.
    intros Hk. eapply dlim_val; cycle 1.
    - apply (dlim_minus (fun t => cc T k + dd T k * (vy rt k + t * vy d k) - (vmu rt k + t * vmu d k)) (fun t => vlam rt k + t * vlam d k)); [|line].
      apply dlim_minus; [|line]. apply (dlim_plus (fun _ => cc T k)); [line|]. apply (dlim_mult (fun _ => dd T k)); line.
    - cbv beta. pose proof (n_y _ _ _ _ _ _ SY k Hk) as N. pose proof (n_mu _ _ _ _ _ _ SY k Hk) as NM. pose proof (i_y _ _ _ _ IN k Hk). unfold diagy, dely in N. unfold rey. ops. rewrite NM.
      apply Rminus_diag_uniq. apply Rminus_diag_eq in N. etransitivity; [|exact N]. field. lra.
  Qed.
  Lemma d_rez : derivable_pt_lim (fun t => rez m T (at_ t)) 0 (- rez m T rt).
  Proof.
    eapply dlim_val; cycle 1.
    - apply (dlim_minus (fun t => a0 T - (vzet rt + t * vzet d)) (fun t => dot (F := RF) m (aa T) (fun i => vlam rt i + t * vlam d i))); [|apply d_dot].
      apply (dlim_minus (fun _ => a0 T)); line.
    - cbv beta. pose proof (n_z _ _ _ _ _ _ SY) as N. pose proof (n_zet _ _ _ _ _ _ SY) as NM. pose proof (i_z _ _ _ _ IN). unfold delz in N. unfold rez. ops. rewrite NM.
      apply Rminus_diag_uniq. apply Rminus_diag_eq in N. etransitivity; [|exact N]. field. lra.
  Qed.
  Lemma d_gvec k : (k < m)%nat -> derivable_pt_lim (fun t => gvec n T (at_ t) k) 0 (rsum n (fun i => GG T rt k i * vx d i)).
  Proof.
    intros Hk. eapply dlim_val; cycle 1.
    - apply (dlim_plus (fun t => rsum n (fun i => PP T k i * (1 / ux1 T (at_ t) i))) (fun t => rsum n (fun i => QQ T k i * (1 / xl1 T (at_ t) i))));
        [apply (dlim_sum_n n) with (f' := fun i => PP T k i * (vx d i / (ux1 T rt i * ux1 T rt i)))|apply (dlim_sum_n n) with (f' := fun i => QQ T k i * (- vx d i / (xl1 T rt i * xl1 T rt i)))]; intros i Hi.
      + pose proof (ux1_pos m n T OK rt IN i Hi) as U. eapply dlim_val; cycle 1.
        * apply (dlim_mult (fun _ => PP T k i)); [line|]. apply dlim_inv; [|apply d_ux1]. rewrite ux1_0. lra.
        * cbv beta. rewrite ux1_0. rfield. lra.
      + pose proof (xl1_pos m n T OK rt IN i Hi) as U. eapply dlim_val; cycle 1.
        * apply (dlim_mult (fun _ => QQ T k i)); [line|]. apply dlim_inv; [|apply d_xl1]. rewrite xl1_0. lra.
        * cbv beta. rewrite xl1_0. rfield. lra.
    - rewrite <- rsum_plus. apply rsum_ext. intros i Hi. unfold GG, ux2, xl2. pose proof (ux1_pos m n T OK rt IN i Hi). pose proof (xl1_pos m n T OK rt IN i Hi). rfield. split; lra.
  Qed.
  Lemma d_relam k : (k < m)%nat -> derivable_pt_lim (fun t => relam n T (at_ t) k) 0 (- relam n T rt k).
  Proof.
    intros Hk. eapply dlim_val; cycle 1.
    - apply (dlim_minus (fun t => gvec n T (at_ t) k - aa T k * (vz rt + t * vz d) - (vy rt k + t * vy d k) + (vs rt k + t * vs d k)) (fun _ => bb T k)); [|line].
      apply dlim_plus; [|line]. apply dlim_minus; [|line]. apply dlim_minus; [now apply d_gvec|]. apply (dlim_mult (fun _ => aa T k)); line.
    - cbv beta. pose proof (n_lam _ _ _ _ _ _ SY k Hk) as N. pose proof (n_s _ _ _ _ _ _ SY k Hk) as NM. pose proof (i_lam _ _ _ _ IN k Hk). unfold dellam in N. unfold relam. ops. rewrite NM.
      apply Rminus_diag_uniq. apply Rminus_diag_eq in N. etransitivity; [|exact N]. field. lra.
  Qed.
  Lemma d_prod (v w a b dv dw : R) : w <> 0 -> dv = - v + e / w - v * dw / w -> derivable_pt_lim (fun t => (v + t * dv) * (w + t * dw) - e) 0 (- (v * w - e)).
  Proof.
    intros N E. eapply dlim_val; cycle 1.
    - apply (dlim_minus (fun t => (v + t * dv) * (w + t * dw)) (fun _ => e)); [|line]. apply dlim_mult; line.
    - cbv beta. rewrite E. field. exact N.
  Qed.
  Lemma newton : newton_step m n T e rt d.
  Proof.
    enough (Q : drel (fun t => residu m n T (e : RF) (at_ t)) (residu m n T (e : RF) rt)) by exact (proj2 Q).
    apply (drel_app (fun t => entries (F := RF) n (rex m T (at_ t)))); [apply drel_entries; exact d_rex|].
    apply (drel_app (fun t => entries (F := RF) m (rey T (at_ t)))); [apply drel_entries; exact d_rey|].
    apply (drel_app (fun t => [rez m T (at_ t)])); [apply drel_one; exact d_rez|].
    apply (drel_app (fun t => entries (F := RF) m (relam n T (at_ t)))); [apply drel_entries; exact d_relam|].
    apply (drel_app (fun t => entries (F := RF) n (rexsi T (e : RF) (at_ t)))); [apply drel_entries; intros i Hi|].
    { apply dlim_ext with (fun t => (vxsi rt i + t * vxsi d i) * ((vx rt i - alfa T i) + t * vx d i) - e).
      - intros t. unfold rexsi, at_, move_by. cbn [vx vxsi]. rring.
      - pose proof (i_ax _ _ _ _ IN i Hi). eapply dlim_val; [|apply d_prod; try exact 0]; [unfold rexsi; rring|ops; lra|]. rewrite (n_xsi _ _ _ _ _ _ SY i Hi). rfield. ops. lra. }
    apply (drel_app (fun t => entries (F := RF) n (reeta T (e : RF) (at_ t)))); [apply drel_entries; intros i Hi|].
    { apply dlim_ext with (fun t => (veta rt i + t * veta d i) * ((beta T i - vx rt i) + t * - vx d i) - e).
      - intros t. unfold reeta, at_, move_by. cbn [vx veta]. rring.
      - pose proof (i_xb _ _ _ _ IN i Hi). eapply dlim_val; [|apply d_prod; try exact 0]; [unfold reeta; rring|ops; lra|]. rewrite (n_eta _ _ _ _ _ _ SY i Hi). rfield. ops. lra. }
    apply (drel_app (fun t => entries (F := RF) m (remu (e : RF) (at_ t)))); [apply drel_entries; intros i Hi|].
    { apply dlim_ext with (fun t => (vmu rt i + t * vmu d i) * (vy rt i + t * vy d i) - e).
      - intros t. unfold remu, at_, move_by. cbn [vy vmu]. rring.
      - pose proof (i_y _ _ _ _ IN i Hi). eapply dlim_val; [|apply d_prod; try exact 0]; [unfold remu; rring|ops; lra|]. rewrite (n_mu _ _ _ _ _ _ SY i Hi). rfield. ops. lra. }
    apply (drel_app (fun t => [rezet (e : RF) (at_ t)])); [apply drel_one|].
    { apply dlim_ext with (fun t => (vzet rt + t * vzet d) * (vz rt + t * vz d) - e).
      - intros t. unfold rezet, at_, move_by. cbn [vz vzet]. rring.
      - pose proof (i_z _ _ _ _ IN). eapply dlim_val; [|apply d_prod; try exact 0]; [unfold rezet; rring|ops; lra|]. rewrite (n_zet _ _ _ _ _ _ SY). rfield. ops. lra. }
    apply drel_entries; intros i Hi.
    apply dlim_ext with (fun t => (vs rt i + t * vs d i) * (vlam rt i + t * vlam d i) - e).
    - intros t. unfold res, at_, move_by. cbn [vs vlam]. rring.
    - pose proof (i_lam _ _ _ _ IN i Hi). eapply dlim_val; [|apply d_prod; try exact 0]; [unfold res; rring|ops; lra|]. rewrite (n_s _ _ _ _ _ _ SY i Hi). rfield. ops. lra.
  Qed.
End Derivatives.

Lemma real_interior_ok m n T st : real_interior m n T st -> okT m n T /\ inT m n T st.
Proof.
  intros (A & B & C & D & E & F & G & H). split; constructor; intros; try assumption;
    try (destruct (A i ltac:(assumption)) as (A1 & A2 & A3 & A4); ops; lra); try (destruct (B i ltac:(assumption)); assumption);
    try (destruct (C k i ltac:(assumption) ltac:(assumption)); assumption); try (now apply D); try (destruct (E k ltac:(assumption)) as (E1 & E2 & E3 & E4); assumption);
    try (destruct (H i ltac:(assumption)); assumption).
Qed.
Theorem direction_newton m n T e st solve d : real_interior m n T st -> solves_exactly solve ->
  direction m n T (e : RF) st solve = Ok d -> newton_step m n T e st d.
Proof.
  intros I X D. apply real_interior_ok in I as (OK & IN). apply newton; [exact OK|exact IN|]. exact (direction_system m n T st OK IN e solve X d D).
Qed.

(** ** Small residual: nearly optimal *)
Section Kkt.
  Variables m n : nat.
  Variable T : subproblem RF.
  Variable st : state RF.
  Hypothesis OK : okT m n T.
  Hypothesis IN : inT m n T st.
  Variables e tol : R.
  Hypothesis SMALL : forall r, In r (residu m n T (e : RF) st) -> Rabs r <= tol.

  Lemma d_lin k (c x : nat -> R) (f : nat -> R) j g : (j < k)%nat -> g = c j -> derivable_pt_lim (fun t => rsum k (fun i => c i * (set_at x j t i - f i))) (x j) g.
  Proof.
    intros Hj ->. apply dlim_val with (rsum k (fun i => if (i =? j)%nat then c j else 0)); [now apply rsum_single|]. apply (dlim_sum_n k). intros i Hi. unfold set_at.
    destruct (Nat.eqb_spec i j) as [->|]; [|apply dlim_const]. eapply dlim_val; cycle 1.
    - apply (dlim_mult (fun _ => c j)); [apply dlim_const|]. apply dlim_minus; [apply dlim_id|apply dlim_const].
    - cbv beta. ring.
  Qed.
  Lemma lag_x j : (j < n)%nat -> derivable_pt_lim (fun t => lagrangian m n T (with_x st (set_at (vx st) j t))) (vx st j) (rex m T st j).
  Proof.
    intros Hj. assert (B : low T j < vx st j < upp T j). { pose proof (o_la _ _ _ OK j Hj). pose proof (o_bu _ _ _ OK j Hj). pose proof (i_ax _ _ _ _ IN j Hj). pose proof (i_xb _ _ _ _ IN j Hj). ops. lra. }
    eapply dlim_val; cycle 1.
    - unfold lagrangian, with_x. cbn [vx vy vz vlam vxsi veta vmu vzet vs].
      apply dlim_minus; [|apply dlim_const]. apply dlim_minus; [|apply dlim_const]. apply dlim_minus; [apply dlim_minus; [apply dlim_plus; [apply dlim_plus; [apply dlim_plus; [|apply dlim_const]|apply dlim_const]|]|]|].
      + apply separable_gradient; [exact Hj|exact B].
      + apply (dlim_sum_n m) with (f' := fun k => vlam st k * (PP T k j / ((upp T j - vx st j) * (upp T j - vx st j)) - QQ T k j / ((vx st j - low T j) * (vx st j - low T j)))).
        intros k Hk. eapply dlim_val; cycle 1.
        * apply (dlim_mult (fun _ => vlam st k)); [apply dlim_const|]. apply dlim_minus; [|apply dlim_const]. apply dlim_minus; [|apply dlim_const]. apply dlim_minus; [|apply dlim_const].
          apply separable_gradient; [exact Hj|exact B].
        * cbv beta. rring.
      + apply d_lin; [exact Hj|reflexivity].
      + apply (dlim_ext (fun t => rsum n (fun i => (- veta st i) * (set_at (vx st) j t i - beta T i)))); [intros t; apply rsum_ext; intros; rring|]. apply d_lin; [exact Hj|reflexivity].
    - unfold rex, dpsidx, plam, qlam, dot, ux2, xl2, ux1, xl1. ops.
      rewrite (rsum_ext m (fun k => vlam st k * (PP T k j / ((upp T j - vx st j) * (upp T j - vx st j)) - QQ T k j / ((vx st j - low T j) * (vx st j - low T j))))
        (fun k => 1 / ((upp T j - vx st j) * (upp T j - vx st j)) * (PP T k j * vlam st k) + (- (1 / ((vx st j - low T j) * (vx st j - low T j)))) * (QQ T k j * vlam st k))).
      + rewrite rsum_lin. rfield. ops. split; lra.
      + intros k Hk. rfield. ops. split; lra.
  Qed.
  Lemma lag_y k : (k < m)%nat -> derivable_pt_lim (fun t => lagrangian m n T (with_y st (set_at (vy st) k t))) (vy st k) (rey T st k).
  Proof.
    intros Hk. eapply dlim_val; cycle 1.
    - unfold lagrangian, with_y. cbn [vx vy vz vlam vxsi veta vmu vzet vs].
      apply dlim_minus; [|apply dlim_const]. apply dlim_minus; [apply dlim_minus; [apply dlim_minus; [apply dlim_plus; [apply dlim_plus; [apply dlim_const|]|]|apply dlim_const]|apply dlim_const]|].
      + apply (dlim_sum_n m) with (f' := fun i => if (i =? k)%nat then cc T k + dd T k * vy st k else 0). intros i Hi. unfold set_at. destruct (Nat.eqb_spec i k) as [->|]; [|apply dlim_const].
        eapply dlim_val; cycle 1.
        * apply dlim_plus; [apply (dlim_mult (fun _ => cc T k)); [apply dlim_const|apply dlim_id]|].
          apply (dlim_mult (fun t => dd T k * (t * t)) (fun _ => / 2)); [|apply dlim_const]. apply (dlim_mult (fun _ => dd T k)); [apply dlim_const|]. apply dlim_mult; apply dlim_id.
        * cbv beta. rfield.
      + apply (dlim_ext (fun t => rsum m (fun i => (- vlam st i) * (set_at (vy st) k t i - (separable n (PP T i) (QQ T i) (low T) (upp T) (vx st) - aa T i * vz st - bb T i))))); [intros t; apply rsum_ext; intros; rring|].
        apply d_lin; [exact Hk|reflexivity].
      + apply (dlim_ext (fun t => rsum m (fun i => vmu st i * (set_at (vy st) k t i - 0)))); [intros t; apply rsum_ext; intros; rring|]. apply d_lin; [exact Hk|reflexivity].
    - rewrite rsum_single by exact Hk. unfold rey. rring.
  Qed.
  Lemma lag_z : derivable_pt_lim (fun t => lagrangian m n T (with_z st t)) (vz st) (rez m T st).
  Proof.
    eapply dlim_val; cycle 1.
    - unfold lagrangian, with_z. cbn [vx vy vz vlam vxsi veta vmu vzet vs].
      apply dlim_minus; [apply dlim_minus; [apply dlim_minus; [apply dlim_minus; [apply dlim_plus; [apply dlim_plus; [apply dlim_plus; [apply dlim_const|]|apply dlim_const]|]|apply dlim_const]|apply dlim_const]|apply dlim_const]|].
      + apply (dlim_mult (fun _ => a0 T)); [apply dlim_const|apply dlim_id].
      + apply (dlim_sum_n m) with (f' := fun k => (- 1) * (aa T k * vlam st k)). intros k Hk. eapply dlim_val; cycle 1.
        * apply (dlim_mult (fun _ => vlam st k)); [apply dlim_const|]. apply dlim_minus; [|apply dlim_const]. apply dlim_minus; [|apply dlim_const].
          apply dlim_minus; [apply dlim_const|]. apply (dlim_mult (fun _ => aa T k)); [apply dlim_const|apply dlim_id].
        * cbv beta. rring.
      + apply (dlim_mult (fun _ => vzet st)); [apply dlim_const|apply dlim_id].
    - cbv beta. unfold rez, dot. rewrite rsum_mul. rring.
  Qed.
  Lemma small_kkt : kkt_within m n T e tol st.
  Proof.
    unfold residu in SMALL. assert (S' := SMALL). clear SMALL.
    assert (G : forall j, (j < m)%nat -> gvec n T st j = separable n (PP T j) (QQ T j) (low T) (upp T) (vx st)).
    { intros j Hj. unfold gvec, separable, dot. etransitivity; [symmetry; apply (rsum_plus n)|]. apply rsum_ext. intros i Hi. unfold ux1, xl1. ops. unfold Rdiv. rring. }
    split; [|split; [|split; [|split; [|split; [|split]]]]].
    - intros j Hj. exists (rex m T st j). split; [now apply lag_x|]. apply S'. rewrite !in_app_iff. left. exact (in_entries n _ j Hj).
    - intros k Hk. exists (rey T st k). split; [now apply lag_y|]. apply S'. rewrite !in_app_iff. right; left. exact (in_entries m _ k Hk).
    - exists (rez m T st). split; [apply lag_z|]. apply S'. rewrite !in_app_iff. do 2 right; left. now left.
    - intros k Hk. rewrite <- (G k Hk).
      assert (H : Rabs (relam n T st k) <= tol). { apply S'. rewrite !in_app_iff. do 3 right; left. exact (in_entries m _ k Hk). }
      unfold relam in H. ops. eapply Rle_trans; [|exact H]. right. f_equal. rring.
    - intros j Hj. split.
      + assert (H : Rabs (rexsi T (e : RF) st j) <= tol). { apply S'. rewrite !in_app_iff. do 4 right; left. exact (in_entries n _ j Hj). } unfold rexsi in H. ops. now rewrite Rmult_1_r in H.
      + assert (H : Rabs (reeta T (e : RF) st j) <= tol). { apply S'. rewrite !in_app_iff. do 5 right; left. exact (in_entries n _ j Hj). } unfold reeta in H. ops. now rewrite Rmult_1_r in H.
    - intros k Hk. split.
      + assert (H : Rabs (remu (e : RF) st k) <= tol). { apply S'. rewrite !in_app_iff. do 6 right; left. exact (in_entries m _ k Hk). } unfold remu in H. ops. now rewrite Rmult_1_r in H.
      + assert (H : Rabs (res (e : RF) st k) <= tol). { apply S'. rewrite !in_app_iff. do 8 right. exact (in_entries m _ k Hk). } unfold res in H. ops. now rewrite Rmult_1_r in H.
    - assert (H : Rabs (rezet (e : RF) st) <= tol). { apply S'. rewrite !in_app_iff. do 7 right; left. now left. } exact H.
  Qed.
End Kkt.

(** ** What the loops guarantee *)
Section Quality.
  Variables m n : nat.
  Variable S : subproblem XF.
  Variable solve : nat -> (nat -> nat -> XF) -> (nat -> XF) -> result (nat -> XF).
  Hypothesis W : well_posed m n S.
  Hypothesis SF : solves_finite solve.
  Let ES := proj1 (well_posed_real m n S W).
  Let OK := proj2 (well_posed_real m n S W).
  Let vis := visited m n S solve.
  Lemma np_max_xge (l : list R) r : np_max (F := XF) (map Fin l) = Ok r -> exists a, r = Fin a /\ forall x, In x l -> x <= a.
  Proof. rewrite np_max_F. destruct (np_max (F := RF) l) as [a|] eqn:E; [|discriminate]. intros H. apply Ok_inj in H. subst r. exists a. split; [reflexivity|]. exact (np_max_ge l a E). Qed.
  Lemma py_maxl_ge (l : list R) a : py_maxl (F := RF) l = Ok a -> forall x, In x l -> x <= a.
  Proof.
    destruct l as [|b l]; [discriminate|]. cbn [py_maxl]. intros E. apply Ok_inj in E. subst a. revert b.
    assert (G : forall (l : list R) a, a <= fold_left (py_max (F := RF)) l a).
    { clear. induction l as [|b l IH]; intros a; [apply Rle_refl|]. cbn [fold_left]. eapply Rle_trans; [|apply IH]. apply py_max_l. }
    induction l as [|c l IH]; intros b x; [intros [<-|[]]; apply Rle_refl|]. intros [<-|[<-|H]]; cbn [fold_left].
    - eapply Rle_trans; [|apply G]. apply py_max_l.
    - eapply Rle_trans; [|apply G]. apply py_max_r.
    - apply IH. right. exact H.
  Qed.
  Lemma py_maxl_xge (l : list R) r : py_maxl (F := XF) (map Fin l) = Ok r -> exists a, r = Fin a /\ forall x, In x l -> x <= a.
  Proof. rewrite py_maxl_F. destruct (py_maxl (F := RF) l) as [a|] eqn:E; [|discriminate]. intros H. apply Ok_inj in H. subst r. exists a. split; [reflexivity|]. exact (py_maxl_ge l a E). Qed.
  Lemma vis_residu st e : vis st -> residu m n S (Fin e : XF) st = map Fin (residu m n (real_S S) (e : RF) (real_st st)).
  Proof.
    intros V. destruct (interior_real m n S st ES (visited_interior m n S solve W SF st V)) as (ET & IN). exact (residu_F m n S (real_S S) ES OK st (real_st st) ET IN e).
  Qed.
  Lemma abs_map (l : list R) : map (@absn XF) (map Fin l) = map Fin (map Rabs l).
  Proof. rewrite !map_map. apply map_ext. reflexivity. Qed.
  Lemma search_residu k e old d r0 : forall steg r1 cur r, r = residu m n S e cur -> it_residu (search m n S k e old d r0 steg r1 cur r) = residu m n S e (it_st (search m n S k e old d r0 steg r1 cur r)).
  Proof. induction k as [|k IH]; intros steg r1 cur r H; [exact H|]. cbn [search]. destruct (ltb r0 r1); [|exact H]. now apply IH. Qed.
  Lemma inner_step_residu e it it' : it_residu it = residu m n S e (it_st it) -> inner_step m n S solve e it = Ok it' -> it_residu it' = residu m n S e (it_st it').
  Proof.
    intros H. unfold inner_step. destruct (direction _ _ _ _ _ _) as [d|]; [|discriminate]. unfold bind; cbv beta iota. destruct (first_steg _ _ _ _ _) as [s|]; [|discriminate].
    intros E. apply Ok_inj in E. subst it'. now apply search_residu.
  Qed.
  Lemma inner_quality k e : forall rmax it it', vis (it_st it) -> it_residu it = residu m n S (Fin e : XF) (it_st it) ->
    (exists a, rmax = Fin a /\ forall x, In x (map Rabs (residu m n (real_S S) (e : RF) (real_st (it_st it)))) -> x <= a) ->
    inner m n S solve k (Fin e : XF) rmax it = Ok it' ->
    vis (it_st it') /\ ((exists j, (j <= k)%nat /\ rounds m n S solve (Fin e) j it it' /\ (forall r, In r (residu m n (real_S S) (e : RF) (real_st (it_st it'))) -> Rabs r <= 9 / 10 * e)) \/ rounds m n S solve (Fin e) k it it').
  Proof.
    induction k as [|k IH]; intros rmax it it' V HR (a & -> & HM) E.
    - cbn [inner] in E. destruct (ltb _ _); apply Ok_inj in E; subst it'; (split; [exact V|right; constructor]).
    - cbn [inner] in E. destruct (ltb _ _) eqn:L.
      + destruct (inner_step m n S solve (Fin e : XF) it) as [it1|] eqn:E1; [|discriminate]. unfold bind in E; cbv beta iota in E.
        destruct (py_maxl _) as [rm|] eqn:E2; [|discriminate].
        assert (V1 := inner_step_visited m n S solve W SF e it it1 V E1). assert (R1 := inner_step_residu (Fin e : XF) it it1 HR E1).
        rewrite R1, (vis_residu _ e V1), abs_map in E2. apply py_maxl_xge in E2.
        destruct (IH rm it1 it' V1 R1 E2 E) as (V2 & [(j & J & RR & Q)|RR]); (split; [exact V2|]).
        * left. exists (Datatypes.S j). split; [lia|]. split; [|exact Q]. now apply (rounds_S m n S solve _ j it it1).
        * right. now apply (rounds_S m n S solve _ k it it1).
      + apply Ok_inj in E. subst it'. split; [exact V|]. left. exists 0%nat. split; [lia|]. split; [constructor|]. intros r Hr. ops. cbn [xmul xltb] in L. apply Rltb_false in L.
        specialize (HM (Rabs r) (in_map Rabs _ _ Hr)). lra.
  Qed.
  Lemma outer_step_quality e st st' : vis st -> outer_step m n S solve (Fin e : XF) st = Ok st' ->
    vis st' /\ ((forall r, In r (residu m n (real_S S) (e : RF) (real_st st')) -> Rabs r <= 9 / 10 * e) \/
      exists it, rounds m n S solve (Fin e) 200 (mkIt st (residu m n S (Fin e : XF) st) (residunorm m n S (Fin e : XF) st)) it /\ it_st it = st').
  Proof.
    intros V. unfold outer_step. rewrite (vis_residu st e V) at 1. rewrite abs_map. destruct (np_max _) as [rm|] eqn:E1; [|discriminate]. unfold bind; cbv beta iota.
    apply np_max_xge in E1. destruct (inner _ _ _ _ _ _ _ _) as [it|] eqn:E; [|discriminate]. intros H. apply Ok_inj in H. subst st'.
    set (it0 := mkIt _ _ _) in *. destruct (inner_quality 200 e rm it0 it V eq_refl E1 E) as (V2 & [(j & _ & _ & Q)|Q]); (split; [exact V2|]).
    - left. exact Q.
    - right. exists it. split; [exact Q|reflexivity].
  Qed.
  Lemma outer_last fuel (emin : R) : forall e st st', vis st -> emin < e -> outer m n S solve fuel (Fin emin : XF) (Fin e : XF) st = Done (Ok st') ->
    exists e1 st1, emin < e1 <= 10 * emin /\ vis st1 /\ outer_step m n S solve (Fin e1 : XF) st1 = Ok st'.
  Proof.
    induction fuel as [|f IH]; intros e st st' V L E; cbn [outer] in E; ops; cbn [xltb xmul] in E; replace (Rltb emin e) with true in E by (symmetry; now apply Rltb_true); [discriminate|].
    destruct (outer_step m n S solve (Fin e : XF) st) as [st1|] eqn:E1; [|discriminate].
    destruct (Rle_or_lt (1 / 10 * e) emin) as [H|H].
    - exists e, st. split; [lra|]. split; [exact V|]. destruct f; cbn [outer] in E; ops; cbn [xltb xmul] in E; replace (Rltb emin (1 / 10 * e)) with false in E by (symmetry; apply Rltb_false; lra); congruence.
    - apply (IH (1 / 10 * e)%R st1 st'); [|exact H|exact E]. exact (proj1 (outer_step_quality e st st1 V E1)).
  Qed.
  Theorem subsolv_quality fuel emin st : emin < 1 -> subsolv m n S solve fuel (Fin emin : XF) = Done (Ok st) ->
    exists e, emin < e <= 10 * emin /\ (kkt_within m n (real_S S) e (9 / 10 * e) (real_st st) \/
      exists it0 it, rounds m n S solve (Fin e) 200 it0 it /\ it_st it = st).
  Proof.
    intros L E. destruct (outer_last fuel emin 1 (start S) st (visited_start _ _ _ _) L E) as (e & st1 & B & V & Q). exists e. split; [exact B|].
    destruct (outer_step_quality e st1 st V Q) as (V2 & [H|(it & H)]).
    - left. destruct (interior_real m n S st ES (visited_interior m n S solve W SF st V2)) as (ET & IN). exact (small_kkt m n (real_S S) (real_st st) OK IN e _ H).
    - right. eexists; exists it. exact H.
  Qed.
  (** ** The step is accepted when the residual does not grow *)
  Definition consistent (e : R) (it : iterate XF) : Prop :=
    it_residu it = residu m n S (Fin e : XF) (it_st it) /\ it_norm it = residunorm m n S (Fin e : XF) (it_st it).
  Lemma vis_norm st e : vis st -> residunorm m n S (Fin e : XF) st = Fin (residunorm m n (real_S S) (e : RF) (real_st st)).
  Proof.
    intros V. destruct (interior_real m n S st ES (visited_interior m n S solve W SF st V)) as (ET & IN). exact (norm_F m n S (real_S S) ES OK st (real_st st) ET IN e).
  Qed.
  Lemma search_descends k e old d r0 (steg : XF) : (forall j, @div XF (xdiv steg (Fin (2 ^ j))) (@lit XF 2) = xdiv steg (Fin (2 ^ Datatypes.S j))) ->
    forall j r1 cur r, r1 = residunorm m n S (Fin e : XF) cur -> r = residu m n S (Fin e : XF) cur ->
      let it := search m n S k (Fin e : XF) old d r0 (xdiv steg (Fin (2 ^ j))) r1 cur r in
      consistent e it /\ (ltb r0 (it_norm it) = false \/ it_st it = cur /\ k = 0%nat \/ it_st it = move_by old d (xdiv steg (Fin (2 ^ (j + k - 1))) : XF)).
  Proof.
    intros HS. induction k as [|k IH]; intros j r1 cur r E1 E2; cbn [search].
    - split; [split; assumption|]. right; left. auto.
    - destruct (ltb r0 r1) eqn:L; [|split; [split; assumption|left; exact L]]. rewrite HS.
      destruct (IH (Datatypes.S j) _ (move_by old d (xdiv steg (Fin (2 ^ j)) : XF)) _ eq_refl eq_refl) as (C & H). split; [exact C|]. destruct H as [H|[(H & ->)|H]]; [left; exact H| |].
      + right. right. rewrite H. do 4 f_equal. f_equal. lia.
      + right. right. rewrite H. do 4 f_equal. f_equal. lia.
  Qed.
  Lemma search_unfold k epsi old d r0 steg r1 cur r : search m n S (Datatypes.S k) epsi old d r0 steg r1 cur r =
    if ltb r0 r1 then search m n S k epsi old d r0 (@div XF steg (@lit XF 2)) (residunorm m n S epsi (move_by old d steg)) (move_by old d steg) (residu m n S epsi (move_by old d steg))
    else mkIt cur r r1.
  Proof. reflexivity. Qed.
  Theorem inner_step_descends e it it' : vis (it_st it) -> consistent e it -> inner_step m n S solve (Fin e : XF) it = Ok it' ->
    consistent e it' /\ (xle (it_norm it') (it_norm it) \/
      exists d steg, direction m n S (Fin e : XF) (it_st it) solve = Ok d /\ first_steg m n S (it_st it) d = Ok steg /\ it_st it' = move_by (it_st it) d (xdiv steg (Fin (2 ^ 49)) : XF)).
  Proof.
    intros V (C1 & C2) E. assert (V' := inner_step_visited m n S solve W SF e it it' V E).
    unfold inner_step in E. destruct (direction m n S (Fin e : XF) (it_st it) solve) as [d|] eqn:D; [|discriminate]. unfold bind in E; cbv beta iota in E.
    destruct (first_steg m n S (it_st it) d) as [steg|] eqn:G; [|discriminate]. apply Ok_inj in E. 
    destruct (interior_real m n S _ ES (visited_interior m n S solve W SF _ V)) as (ET & IN).
    destruct (trial m n S _ ES OK solve SF _ _ e d steg ET IN D G) as (rd & t & SD & Et & (T1 & T2) & _ & _).
    assert (HS : forall j, @div XF (xdiv steg (Fin (2 ^ j))) (@lit XF 2) = xdiv steg (Fin (2 ^ Datatypes.S j))).
    { intros j. assert (1 <= 2 ^ j) by (apply pow_R1_Rle; lra). subst steg. ops. rewrite (xdivF t (2 ^ j)) by lra. rewrite xdivF by lra. rewrite xdivF by (cbn [pow]; lra). f_equal. cbn [pow]. field. lra. }
    assert (S0 : xdiv steg (Fin (2 ^ 0)) = steg). { subst steg. cbn [pow]. rewrite xdivF by lra. f_equal. field. }
    set (rn := residunorm m n (real_S S) (e : RF) (real_st (it_st it))). assert (NR : it_norm it = Fin rn) by (rewrite C2; now apply vis_norm).
    assert (P : 0 <= rn) by apply sqrt_pos.
    destruct (Rle_or_lt (2 * rn) rn) as [Z|Z].
    - (* the norm is zero: nothing moves *)
      rewrite (search_unfold 49), NR in E. ops. cbn [xmul xltb] in E. replace (Rltb rn (2 * rn)) with false in E by (symmetry; apply Rltb_false; lra). subst it'.
      assert (R0 : rn = 0) by lra. split; [split|]; cbn [it_st it_residu it_norm].
      + exact C1.
      + rewrite <- C2, NR, R0. f_equal. ring.
      + left. rewrite NR, R0. do 2 eexists. split; [reflexivity|]. split; [reflexivity|]. lra.
    - rewrite (search_unfold 49) in E. assert (LT : ltb (it_norm it) (@mul XF (lit 2) (it_norm it)) = true) by (rewrite NR; ops; cbn [xmul xltb]; apply Rltb_true; lra).
      rewrite LT in E. assert (HS0 := HS 0%nat). rewrite S0 in HS0. rewrite HS0 in E.
      pose proof (search_descends 49 e (it_st it) d (it_norm it) steg HS 1 _ (move_by (it_st it) d steg) _ eq_refl eq_refl) as Q. cbv zeta in Q.
      rewrite E in Q. destruct Q as (C & [H|[(_ & H)|H]]); [|discriminate|].
      + split; [exact C|]. left. destruct C as (_ & CN). rewrite CN, (vis_norm _ e V') in *. rewrite NR in H. ops. cbn [xltb] in H. apply Rltb_false in H. rewrite NR. do 2 eexists. split; [reflexivity|]. split; [reflexivity|]. lra.
      + split; [exact C|]. right. exists d, steg. split; [reflexivity|]. split; [exact G|]. rewrite H. reflexivity.
  Qed.
End Quality.
