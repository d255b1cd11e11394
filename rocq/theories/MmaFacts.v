(** Facts about the MMA sub-problem solver: finite arithmetic, step lengths, interior. *)
From Coq Require Import List Arith Lia Bool Reals Lra.
From Verif Require Import Num Arr ArrFacts Fe Problem XNum Newton Mma SpecMma.
Import ListNotations.
Local Open Scope R_scope.

Notation rsum n f := (sum_n (K := Rops) n f).

Lemma xdivF a b : b <> 0 -> xdiv (Fin a) (Fin b) = Fin (a / b).
Proof. intros H. cbn [xdiv]. destruct (Req_EM_T b 0); [contradiction|reflexivity]. Qed.
Lemma xmaxF a b : xmax (Fin a) (Fin b) = Fin (Rmax a b).
Proof.
  unfold xmax. cbn [isnan orb xltb]. destruct (Rltb a b) eqn:E.
  - apply Rltb_true in E. now rewrite Rmax_right by lra.
  - apply Rltb_false in E. now rewrite Rmax_left by lra.
Qed.
Lemma xminF a b : xmin (Fin a) (Fin b) = Fin (Rmin a b).
Proof.
  unfold xmin. cbn [isnan orb xltb]. destruct (Rltb b a) eqn:E.
  - apply Rltb_true in E. now rewrite Rmin_right by lra.
  - apply Rltb_false in E. now rewrite Rmin_left by lra.
Qed.

(** ** Transfer from extended to real numbers *)
Definition sim {A} (x : A -> Prop) (u : A -> xr) (r : A -> R) : Prop := forall i, x i -> u i = Fin (r i).
Lemma sum_F n (u : nat -> XF) (r : nat -> R) : (forall i, (i < n)%nat -> u i = Fin (r i)) -> sum_n (K := XF) n u = Fin (rsum n r).
Proof.
  intros H. change (sum_n (K := Xops) n u = Fin (rsum n r)). rewrite (sum_n_ext (K := Xops) n u (fun i => Fin (r i)) H). unfold sum_n, sum_over.
  rewrite <- (map_map r Fin). exact (sumK_Fin _).
Qed.
Lemma dot_F n (u v : nat -> XF) (r q : nat -> R) : (forall i, (i < n)%nat -> u i = Fin (r i)) -> (forall i, (i < n)%nat -> v i = Fin (q i)) ->
  dot n u v = Fin (dot (F := RF) n r q).
Proof. intros H1 H2. unfold dot. apply sum_F. intros i Hi. rewrite H1, H2 by exact Hi. reflexivity. Qed.
Lemma entries_F n (u : nat -> XF) (r : nat -> R) : (forall i, (i < n)%nat -> u i = Fin (r i)) -> entries n u = map Fin (entries (F := RF) n r).
Proof. intros H. unfold entries. rewrite map_map. apply map_ext_in. intros i Hi. apply in_seq in Hi. apply H. lia. Qed.
Lemma np_max_F (l : list R) : np_max (F := XF) (map Fin l) = match np_max (F := RF) l with Ok r => Ok (Fin r) | Err e => Err e end.
Proof.
  destruct l as [|x l]; [reflexivity|]. cbn [map np_max]. f_equal. revert x. induction l as [|y l IH]; intros x; [reflexivity|].
  cbn [map fold_left]. change (maximum (n := XF) (Fin x) (Fin y)) with (xmax (Fin x) (Fin y)). rewrite xmaxF. apply IH.
Qed.
Lemma py_max_F a b : py_max (F := XF) (Fin a) (Fin b) = Fin (py_max (F := RF) a b).
Proof. unfold py_max. cbn [ltb XF RF xltb]. now destruct (Rltb a b). Qed.
Lemma py_maxl_F (l : list R) : py_maxl (F := XF) (map Fin l) = match py_maxl (F := RF) l with Ok r => Ok (Fin r) | Err e => Err e end.
Proof.
  destruct l as [|x l]; [reflexivity|]. cbn [map py_maxl]. f_equal. revert x. induction l as [|y l IH]; intros x; [reflexivity|].
  cbn [map fold_left]. rewrite py_max_F. apply IH.
Qed.

Section Transfer.
  Variables m n : nat.
  Record simS (S : subproblem XF) (T : subproblem RF) : Prop := {
    s_low : forall i, (i < n)%nat -> low S i = Fin (low T i);
    s_upp : forall i, (i < n)%nat -> upp S i = Fin (upp T i);
    s_alfa : forall i, (i < n)%nat -> alfa S i = Fin (alfa T i);
    s_beta : forall i, (i < n)%nat -> beta S i = Fin (beta T i);
    s_p0 : forall i, (i < n)%nat -> p0 S i = Fin (p0 T i);
    s_q0 : forall i, (i < n)%nat -> q0 S i = Fin (q0 T i);
    s_P : forall k i, (k < m)%nat -> (i < n)%nat -> PP S k i = Fin (PP T k i);
    s_Q : forall k i, (k < m)%nat -> (i < n)%nat -> QQ S k i = Fin (QQ T k i);
    s_a0 : a0 S = Fin (a0 T);
    s_a : forall k, (k < m)%nat -> aa S k = Fin (aa T k);
    s_b : forall k, (k < m)%nat -> bb S k = Fin (bb T k);
    s_c : forall k, (k < m)%nat -> cc S k = Fin (cc T k);
    s_d : forall k, (k < m)%nat -> dd S k = Fin (dd T k)
  }.
  Record simT (st : state XF) (rt : state RF) : Prop := {
    t_x : forall i, (i < n)%nat -> vx st i = Fin (vx rt i);
    t_y : forall k, (k < m)%nat -> vy st k = Fin (vy rt k);
    t_z : vz st = Fin (vz rt);
    t_lam : forall k, (k < m)%nat -> vlam st k = Fin (vlam rt k);
    t_xsi : forall i, (i < n)%nat -> vxsi st i = Fin (vxsi rt i);
    t_eta : forall i, (i < n)%nat -> veta st i = Fin (veta rt i);
    t_mu : forall k, (k < m)%nat -> vmu st k = Fin (vmu rt k);
    t_zet : vzet st = Fin (vzet rt);
    t_s : forall k, (k < m)%nat -> vs st k = Fin (vs rt k)
  }.
  (** the real sub-problem is well posed *)
  Record okT (T : subproblem RF) : Prop := {
    o_la : forall i, (i < n)%nat -> low T i < alfa T i;
    o_ab : forall i, (i < n)%nat -> alfa T i < beta T i;
    o_bu : forall i, (i < n)%nat -> beta T i < upp T i;
    o_p0 : forall i, (i < n)%nat -> 0 <= p0 T i;
    o_q0 : forall i, (i < n)%nat -> 0 <= q0 T i;
    o_P : forall k i, (k < m)%nat -> (i < n)%nat -> 0 <= PP T k i;
    o_Q : forall k i, (k < m)%nat -> (i < n)%nat -> 0 <= QQ T k i;
    o_d : forall k, (k < m)%nat -> 0 <= dd T k
  }.
  Record inT (T : subproblem RF) (rt : state RF) : Prop := {
    i_ax : forall i, (i < n)%nat -> alfa T i < vx rt i;
    i_xb : forall i, (i < n)%nat -> vx rt i < beta T i;
    i_y : forall k, (k < m)%nat -> 0 < vy rt k;
    i_z : 0 < vz rt;
    i_lam : forall k, (k < m)%nat -> 0 < vlam rt k;
    i_xsi : forall i, (i < n)%nat -> 0 < vxsi rt i;
    i_eta : forall i, (i < n)%nat -> 0 < veta rt i;
    i_mu : forall k, (k < m)%nat -> 0 < vmu rt k;
    i_zet : 0 < vzet rt;
    i_s : forall k, (k < m)%nat -> 0 < vs rt k
  }.

  Lemma fin_to P x : fin_with P x -> x = Fin (to_R x) /\ P (to_R x).
  Proof. intros (r & -> & H). auto. Qed.
  Lemma xlt_to x y : xlt x y -> x = Fin (to_R x) /\ y = Fin (to_R y) /\ to_R x < to_R y.
  Proof. intros (a & b & -> & -> & H). auto. Qed.
  Lemma well_posed_real S : well_posed m n S -> simS S (real_S S) /\ okT (real_S S).
  Proof.
    intros (B & P0 & Q0 & PQ & A0 & A & Bb & C & D).
    split; constructor; intros; cbn [real_S low upp alfa beta p0 q0 PP QQ a0 aa bb cc dd];
      try (destruct (B i ltac:(assumption)) as (B1 & B2 & B3); apply xlt_to in B1, B2, B3; intuition congruence || intuition lra);
      try (apply fin_to in A0; apply A0);
      try (destruct (fin_to _ _ (P0 i ltac:(assumption))); assumption); try (destruct (fin_to _ _ (Q0 i ltac:(assumption))); assumption);
      try (destruct (fin_to _ _ (proj1 (PQ k ltac:(assumption)) i ltac:(assumption))); assumption);
      try (destruct (fin_to _ _ (proj2 (PQ k ltac:(assumption)) i ltac:(assumption))); assumption);
      try (destruct (fin_to _ _ (A k ltac:(assumption))); assumption); try (destruct (fin_to _ _ (Bb k ltac:(assumption))); assumption);
      try (destruct (fin_to _ _ (C k ltac:(assumption))); assumption); try (destruct (fin_to _ _ (D k ltac:(assumption))); assumption).
  Qed.
  Lemma interior_real S st : simS S (real_S S) -> interior m n S st -> simT st (real_st st) /\ inT (real_S S) (real_st st).
  Proof.
    intros E (X & Y & Z & L & XS & ET & MU & ZT & SS).
    split; constructor; intros; cbn [real_st real_S alfa beta vx vy vz vlam vxsi veta vmu vzet vs];
      try (destruct (X i ltac:(assumption)) as (B1 & B2); apply xlt_to in B1, B2; intuition congruence || intuition lra);
      try (destruct (fin_to _ _ Z); assumption); try (destruct (fin_to _ _ ZT); assumption);
      try (destruct (fin_to _ _ (Y k ltac:(assumption))); assumption); try (destruct (fin_to _ _ (L k ltac:(assumption))); assumption);
      try (destruct (fin_to _ _ (XS i ltac:(assumption))); assumption); try (destruct (fin_to _ _ (ET i ltac:(assumption))); assumption);
      try (destruct (fin_to _ _ (MU k ltac:(assumption))); assumption); try (destruct (fin_to _ _ (SS k ltac:(assumption))); assumption).
  Qed.
  Lemma interior_back S T st rt : simS S T -> simT st rt -> inT T rt -> interior m n S st.
  Proof.
    intros ES ET I. unfold interior, each, positive, fin_with. split; [|repeat split; intros].
    - intros j Hj. rewrite (s_alfa _ _ ES), (s_beta _ _ ES), (t_x _ _ ET) by exact Hj. split; do 2 eexists; (split; [reflexivity|]; split; [reflexivity|]);
        [now apply (i_ax _ _ I)|now apply (i_xb _ _ I)].
    - eexists; split; [apply (t_y _ _ ET)|apply (i_y _ _ I)]; assumption.
    - eexists; split; [apply (t_z _ _ ET)|apply (i_z _ _ I)].
    - eexists; split; [apply (t_lam _ _ ET)|apply (i_lam _ _ I)]; assumption.
    - eexists; split; [apply (t_xsi _ _ ET)|apply (i_xsi _ _ I)]; assumption.
    - eexists; split; [apply (t_eta _ _ ET)|apply (i_eta _ _ I)]; assumption.
    - eexists; split; [apply (t_mu _ _ ET)|apply (i_mu _ _ I)]; assumption.
    - eexists; split; [apply (t_zet _ _ ET)|apply (i_zet _ _ I)].
    - eexists; split; [apply (t_s _ _ ET)|apply (i_s _ _ I)]; assumption.
  Qed.
End Transfer.

Lemma app_F (l1 l2 : list XF) (r1 r2 : list RF) : l1 = map Fin r1 -> l2 = map Fin r2 -> (l1 ++ l2)%list = map Fin (r1 ++ r2)%list.
Proof. intros -> ->. symmetry. apply map_app. Qed.
Lemma one_F (x : XF) (r : RF) : x = Fin r -> [x] = map Fin [r].
Proof. now intros ->. Qed.

Lemma Ok_inj {A} (a b : A) : Ok a = Ok b -> a = b.
Proof. congruence. Qed.

(** reduce the operations of the two instances *)
Ltac ops := cbn [n_ops XF RF Xops Rops car zero one add mul sub opp div inv lit ltb maximum minimum absn sqrtn] in *.

Section Quantities.
  Variables m n : nat.
  Variable S : subproblem XF.
  Variable T : subproblem RF.
  Hypothesis ES : simS m n S T.
  Hypothesis OK : okT m n T.
  Variable st : state XF.
  Variable rt : state RF.
  Hypothesis ET : simT m n st rt.
  Hypothesis IN : inT m n T rt.
  Variable e : R.

  (** positivity of the denominators *)
  Lemma ux1_pos i : (i < n)%nat -> 0 < ux1 T rt i.
  Proof. intros H. unfold ux1. ops. pose proof (i_xb _ _ _ _ IN i H). pose proof (o_bu _ _ _ OK i H). lra. Qed.
  Lemma xl1_pos i : (i < n)%nat -> 0 < xl1 T rt i.
  Proof. intros H. unfold xl1. ops. pose proof (i_ax _ _ _ _ IN i H). pose proof (o_la _ _ _ OK i H). lra. Qed.
  Lemma ux2_pos i : (i < n)%nat -> 0 < ux2 T rt i.
  Proof. intros H. unfold ux2. ops. pose proof (ux1_pos i H). now apply Rmult_lt_0_compat. Qed.
  Lemma xl2_pos i : (i < n)%nat -> 0 < xl2 T rt i.
  Proof. intros H. unfold xl2. ops. pose proof (xl1_pos i H). now apply Rmult_lt_0_compat. Qed.
  Lemma ux3_pos i : (i < n)%nat -> 0 < ux3 T rt i.
  Proof. intros H. unfold ux3. ops. pose proof (ux1_pos i H). pose proof (ux2_pos i H). now apply Rmult_lt_0_compat. Qed.
  Lemma xl3_pos i : (i < n)%nat -> 0 < xl3 T rt i.
  Proof. intros H. unfold xl3. ops. pose proof (xl1_pos i H). pose proof (xl2_pos i H). now apply Rmult_lt_0_compat. Qed.
  Lemma xa_pos i : (i < n)%nat -> 0 < vx rt i - alfa T i.
  Proof. intros H. pose proof (i_ax _ _ _ _ IN i H). ops. lra. Qed.
  Lemma bx_pos i : (i < n)%nat -> 0 < beta T i - vx rt i.
  Proof. intros H. pose proof (i_xb _ _ _ _ IN i H). ops. lra. Qed.
  Lemma rsum_nonneg k (f : nat -> R) : (forall i, (i < k)%nat -> 0 <= f i) -> 0 <= rsum k f.
  Proof.
    induction k as [|k IH]; intros H; [apply Rle_refl|]. rewrite (sum_n_S Rops_ring). ops. pose proof (H k ltac:(lia)).
    pose proof (IH ltac:(intros; apply H; lia)). apply Rplus_le_le_0_compat; assumption.
  Qed.
  Lemma plam_ge i : (i < n)%nat -> 0 <= plam m T rt i.
  Proof.
    intros H. unfold plam. ops. apply Rplus_le_le_0_compat; [now apply (o_p0 _ _ _ OK)|]. apply rsum_nonneg. intros k Hk. ops.
    apply Rmult_le_pos; [now apply (o_P _ _ _ OK)|]. left. now apply (i_lam _ _ _ _ IN).
  Qed.
  Lemma qlam_ge i : (i < n)%nat -> 0 <= qlam m T rt i.
  Proof.
    intros H. unfold qlam. ops. apply Rplus_le_le_0_compat; [now apply (o_q0 _ _ _ OK)|]. apply rsum_nonneg. intros k Hk. ops.
    apply Rmult_le_pos; [now apply (o_Q _ _ _ OK)|]. left. now apply (i_lam _ _ _ _ IN).
  Qed.
  Lemma div_pos a b : 0 < a -> 0 < b -> 0 < a / b.
  Proof. intros. apply Rmult_lt_0_compat; [assumption|now apply Rinv_0_lt_compat]. Qed.
  Lemma div_ge a b : 0 <= a -> 0 < b -> 0 <= a / b.
  Proof. intros. apply Rmult_le_pos; [assumption|left; now apply Rinv_0_lt_compat]. Qed.
  Lemma diagx_pos i : (i < n)%nat -> 0 < diagx m T rt i.
  Proof.
    intros H. unfold diagx. ops. pose proof (div_ge _ _ (plam_ge i H) (ux3_pos i H)). pose proof (div_ge _ _ (qlam_ge i H) (xl3_pos i H)).
    pose proof (div_pos _ _ (i_xsi _ _ _ _ IN i H) (xa_pos i H)). pose proof (div_pos _ _ (i_eta _ _ _ _ IN i H) (bx_pos i H)). ops. lra.
  Qed.
  Lemma diagy_pos k : (k < m)%nat -> 0 < diagy T rt k.
  Proof.
    intros H. unfold diagy. ops. pose proof (o_d _ _ _ OK k H). pose proof (div_pos _ _ (i_mu _ _ _ _ IN k H) (i_y _ _ _ _ IN k H)). ops. lra.
  Qed.
  Lemma diaglamyi_pos k : (k < m)%nat -> 0 < diaglamyi T rt k.
  Proof.
    intros H. unfold diaglamyi, diaglam, diagyinv. ops. pose proof (div_pos _ _ (i_s _ _ _ _ IN k H) (i_lam _ _ _ _ IN k H)).
    pose proof (div_pos _ _ Rlt_0_1 (diagy_pos k H)). ops. lra.
  Qed.

  (** every computed quantity is the finite real one *)
  Ltac data := repeat match goal with
    | |- context [low S ?i] => rewrite (s_low _ _ _ _ ES i) by assumption
    | |- context [upp S ?i] => rewrite (s_upp _ _ _ _ ES i) by assumption
    | |- context [alfa S ?i] => rewrite (s_alfa _ _ _ _ ES i) by assumption
    | |- context [beta S ?i] => rewrite (s_beta _ _ _ _ ES i) by assumption
    | |- context [p0 S ?i] => rewrite (s_p0 _ _ _ _ ES i) by assumption
    | |- context [q0 S ?i] => rewrite (s_q0 _ _ _ _ ES i) by assumption
    | |- context [PP S ?k ?i] => rewrite (s_P _ _ _ _ ES k i) by assumption
    | |- context [QQ S ?k ?i] => rewrite (s_Q _ _ _ _ ES k i) by assumption
    | |- context [a0 S] => rewrite (s_a0 _ _ _ _ ES)
    | |- context [aa S ?i] => rewrite (s_a _ _ _ _ ES i) by assumption
    | |- context [bb S ?i] => rewrite (s_b _ _ _ _ ES i) by assumption
    | |- context [cc S ?i] => rewrite (s_c _ _ _ _ ES i) by assumption
    | |- context [dd S ?i] => rewrite (s_d _ _ _ _ ES i) by assumption
    | |- context [vx st ?i] => rewrite (t_x _ _ _ _ ET i) by assumption
    | |- context [vy st ?i] => rewrite (t_y _ _ _ _ ET i) by assumption
    | |- context [vz st] => rewrite (t_z _ _ _ _ ET)
    | |- context [vlam st ?i] => rewrite (t_lam _ _ _ _ ET i) by assumption
    | |- context [vxsi st ?i] => rewrite (t_xsi _ _ _ _ ET i) by assumption
    | |- context [veta st ?i] => rewrite (t_eta _ _ _ _ ET i) by assumption
    | |- context [vmu st ?i] => rewrite (t_mu _ _ _ _ ET i) by assumption
    | |- context [vzet st] => rewrite (t_zet _ _ _ _ ET)
    | |- context [vs st ?i] => rewrite (t_s _ _ _ _ ET i) by assumption
    end.
  Ltac nz := match goal with |- ?a <> 0 => apply Rgt_not_eq, Rlt_gt; first
    [ now apply ux1_pos | now apply xl1_pos | now apply ux2_pos | now apply xl2_pos | now apply ux3_pos | now apply xl3_pos | now apply xa_pos | now apply bx_pos
    | now apply diagx_pos | now apply diagy_pos | now apply diaglamyi_pos | now apply (i_y _ _ _ _ IN) | exact (i_z _ _ _ _ IN) | now apply (i_lam _ _ _ _ IN)
    | exact (i_zet _ _ _ _ IN) | now apply (i_mu _ _ _ _ IN) | now apply (i_s _ _ _ _ IN) | now apply (i_xsi _ _ _ _ IN) | now apply (i_eta _ _ _ _ IN) | lra ] end.
  Ltac go := data; ops; cbn [xadd xsub xmul xopp]; rewrite ?xmaxF; repeat (rewrite xdivF by nz; cbn [xadd xsub xmul xopp]); try reflexivity.

  Lemma ux1_F i : (i < n)%nat -> ux1 S st i = Fin (ux1 T rt i).
  Proof. intros H. unfold ux1. go. Qed.
  Lemma xl1_F i : (i < n)%nat -> xl1 S st i = Fin (xl1 T rt i).
  Proof. intros H. unfold xl1. go. Qed.
  Lemma ux2_F i : (i < n)%nat -> ux2 S st i = Fin (ux2 T rt i).
  Proof. intros H. unfold ux2. rewrite ux1_F by exact H. go. Qed.
  Lemma xl2_F i : (i < n)%nat -> xl2 S st i = Fin (xl2 T rt i).
  Proof. intros H. unfold xl2. rewrite xl1_F by exact H. go. Qed.
  Lemma ux3_F i : (i < n)%nat -> ux3 S st i = Fin (ux3 T rt i).
  Proof. intros H. unfold ux3. rewrite ux2_F, ux1_F by exact H. go. Qed.
  Lemma xl3_F i : (i < n)%nat -> xl3 S st i = Fin (xl3 T rt i).
  Proof. intros H. unfold xl3. rewrite xl2_F, xl1_F by exact H. go. Qed.
  Lemma plam_F i : (i < n)%nat -> plam m S st i = Fin (plam m T rt i).
  Proof.
    intros H. unfold plam. rewrite (dot_F m _ _ (fun k => PP T k i) (vlam rt)); [go|intros k Hk; go|intros k Hk; go].
  Qed.
  Lemma qlam_F i : (i < n)%nat -> qlam m S st i = Fin (qlam m T rt i).
  Proof.
    intros H. unfold qlam. rewrite (dot_F m _ _ (fun k => QQ T k i) (vlam rt)); [go|intros k Hk; go|intros k Hk; go].
  Qed.
  Lemma gvec_F k : (k < m)%nat -> gvec n S st k = Fin (gvec n T rt k).
  Proof.
    intros H. unfold gvec. rewrite (dot_F n (PP S k) _ (PP T k) (fun i => 1 / ux1 T rt i)%R); [rewrite (dot_F n (QQ S k) _ (QQ T k) (fun i => 1 / xl1 T rt i)%R); [go|..]|..];
      intros i Hi; [go| |go|]; [rewrite xl1_F by exact Hi|rewrite ux1_F by exact Hi]; go.
  Qed.
  Lemma dpsidx_F i : (i < n)%nat -> dpsidx m S st i = Fin (dpsidx m T rt i).
  Proof. intros H. unfold dpsidx. rewrite plam_F, qlam_F, ux2_F, xl2_F by exact H. go. Qed.
  Lemma rex_F i : (i < n)%nat -> rex m S st i = Fin (rex m T rt i).
  Proof. intros H. unfold rex. rewrite dpsidx_F by exact H. go. Qed.
  Lemma rey_F k : (k < m)%nat -> rey S st k = Fin (rey T rt k).
  Proof. intros H. unfold rey. go. Qed.
  Lemma adot_F : dot m (aa S) (vlam st) = Fin (dot (F := RF) m (aa T) (vlam rt)).
  Proof. apply dot_F; intros k Hk; go. Qed.
  Lemma rez_F : rez m S st = Fin (rez m T rt).
  Proof. unfold rez. rewrite adot_F. go. Qed.
  Lemma relam_F k : (k < m)%nat -> relam n S st k = Fin (relam n T rt k).
  Proof. intros H. unfold relam. rewrite gvec_F by exact H. go. Qed.
  Lemma rexsi_F i : (i < n)%nat -> rexsi S (Fin e : XF) st i = Fin (rexsi T (e : RF) rt i).
  Proof. intros H. unfold rexsi. go. Qed.
  Lemma reeta_F i : (i < n)%nat -> reeta S (Fin e : XF) st i = Fin (reeta T (e : RF) rt i).
  Proof. intros H. unfold reeta. go. Qed.
  Lemma remu_F k : (k < m)%nat -> remu (Fin e : XF) st k = Fin (remu (e : RF) rt k).
  Proof. intros H. unfold remu. go. Qed.
  Lemma rezet_F : rezet (Fin e : XF) st = Fin (rezet (e : RF) rt).
  Proof. unfold rezet. go. Qed.
  Lemma res_F k : (k < m)%nat -> res (Fin e : XF) st k = Fin (res (e : RF) rt k).
  Proof. intros H. unfold res. go. Qed.
  Lemma residu_F : residu m n S (Fin e : XF) st = map Fin (residu m n T (e : RF) rt).
  Proof.
    unfold residu. apply app_F; [apply entries_F; exact rex_F|]. apply app_F; [apply entries_F; exact rey_F|]. apply app_F; [apply one_F; exact rez_F|].
    apply app_F; [apply entries_F; exact relam_F|]. apply app_F; [apply entries_F; exact rexsi_F|]. apply app_F; [apply entries_F; exact reeta_F|].
    apply app_F; [apply entries_F; exact remu_F|]. apply app_F; [apply one_F; exact rezet_F|]. apply entries_F; exact res_F.
  Qed.
  Lemma norm_F : residunorm m n S (Fin e : XF) st = Fin (residunorm m n T (e : RF) rt).
  Proof.
    unfold residunorm. rewrite residu_F. exact (xnorm_Fin (residu m n T (e : RF) rt)).
  Qed.

  Lemma GG_F k i : (k < m)%nat -> (i < n)%nat -> GG S st k i = Fin (GG T rt k i).
  Proof. intros H Hi. unfold GG. rewrite ux2_F, xl2_F by exact Hi. go. Qed.
  Lemma delx_F i : (i < n)%nat -> delx m S (Fin e : XF) st i = Fin (delx m T (e : RF) rt i).
  Proof. intros H. unfold delx. rewrite dpsidx_F by exact H. go. Qed.
  Lemma dely_F k : (k < m)%nat -> dely S (Fin e : XF) st k = Fin (dely T (e : RF) rt k).
  Proof. intros H. unfold dely. go. Qed.
  Lemma delz_F : delz m S (Fin e : XF) st = Fin (delz m T (e : RF) rt).
  Proof. unfold delz. rewrite adot_F. go. Qed.
  Lemma dellam_F k : (k < m)%nat -> dellam n S (Fin e : XF) st k = Fin (dellam n T (e : RF) rt k).
  Proof. intros H. unfold dellam. rewrite gvec_F by exact H. go. Qed.
  Lemma diagx_F i : (i < n)%nat -> diagx m S st i = Fin (diagx m T rt i).
  Proof. intros H. unfold diagx. rewrite plam_F, qlam_F, ux3_F, xl3_F by exact H. go. Qed.
  Lemma diagxinv_F i : (i < n)%nat -> diagxinv m S st i = Fin (diagxinv m T rt i).
  Proof. intros H. unfold diagxinv. rewrite diagx_F by exact H. go. Qed.
  Lemma diagy_F k : (k < m)%nat -> diagy S st k = Fin (diagy T rt k).
  Proof. intros H. unfold diagy. go. Qed.
  Lemma diaglamyi_F k : (k < m)%nat -> diaglamyi S st k = Fin (diaglamyi T rt k).
  Proof. intros H. unfold diaglamyi, diaglam, diagyinv. rewrite diagy_F by exact H. go. Qed.
  Lemma dellamyi_F k : (k < m)%nat -> dellamyi n S (Fin e : XF) st k = Fin (dellamyi n T (e : RF) rt k).
  Proof. intros H. unfold dellamyi. rewrite dellam_F, dely_F, diagy_F by exact H. go. Qed.
  Lemma AA_few_F k l : AA_few m n S st k l = Fin (AA_few m n T rt k l).
  Proof.
    unfold AA_few. destruct (Nat.ltb_spec k m) as [Hk|], (Nat.ltb_spec l m) as [Hl|]; [| | |go].
    - unfold Alam. rewrite (sum_F n _ (fun i => diagxinv m T rt i * GG T rt k i * GG T rt l i)%R).
      + destruct (Nat.eqb_spec k l) as [<-|]; [rewrite diaglamyi_F by exact Hk|]; reflexivity.
      + intros i Hi. rewrite diagxinv_F, !GG_F by assumption. go.
    - go.
    - go.
  Qed.
  Lemma bb_few_F k : bb_few m n S (Fin e : XF) st k = Fin (bb_few m n T (e : RF) rt k).
  Proof.
    unfold bb_few. destruct (Nat.ltb_spec k m) as [Hk|]; [|apply delz_F]. rewrite dellam_F, dely_F, diagy_F by exact Hk.
    rewrite (dot_F n _ _ (GG T rt k) (fun i => delx m T (e : RF) rt i / diagx m T rt i)%R); [go|intros i Hi; now apply GG_F|].
    intros i Hi. rewrite delx_F, diagx_F by exact Hi. go.
  Qed.
  Lemma Axx_F i j : (i < n)%nat -> (j < n)%nat -> Axx m S st i j = Fin (Axx m T rt i j).
  Proof.
    intros Hi Hj. unfold Axx. rewrite (sum_F m _ (fun k => diaglamyiinv T rt k * GG T rt k i * GG T rt k j)%R).
    - destruct (Nat.eqb_spec i j) as [<-|]; [rewrite diagx_F by exact Hi|]; reflexivity.
    - intros k Hk. unfold diaglamyiinv. rewrite diaglamyi_F, !GG_F by assumption. go.
  Qed.
  Lemma adiv_F k : (k < m)%nat -> (aa S k / diaglamyi S st k)%num = Fin (aa T k / diaglamyi T rt k)%R.
  Proof. intros Hk. rewrite diaglamyi_F by exact Hk. go. Qed.
  Lemma ddiv_F k : (k < m)%nat -> (dellamyi n S (Fin e : XF) st k / diaglamyi S st k)%num = Fin (dellamyi n T (e : RF) rt k / diaglamyi T rt k)%R.
  Proof. intros Hk. rewrite diaglamyi_F, dellamyi_F by exact Hk. go. Qed.
  Lemma AA_many_F i j : AA_many m n S st i j = Fin (AA_many m n T rt i j).
  Proof.
    unfold AA_many.
    assert (X : forall i, (i < n)%nat -> axz m S st i = Fin (axz m T rt i)).
    { intros l Hl. apply dot_F; [|exact adiv_F]. intros k Hk. rewrite GG_F by assumption. go. }
    destruct (Nat.ltb_spec i n) as [Hi|], (Nat.ltb_spec j n) as [Hj|]; [now apply Axx_F|now apply X|now apply X|].
    unfold azz. rewrite (dot_F m _ _ (aa T) (fun k => aa T k / diaglamyi T rt k)%R); [go|intros k Hk; go|exact adiv_F].
  Qed.
  Lemma bb_many_F i : bb_many m n S (Fin e : XF) st i = Fin (bb_many m n T (e : RF) rt i).
  Proof.
    unfold bb_many. destruct (Nat.ltb_spec i n) as [Hi|].
    - unfold bx. rewrite (dot_F m _ _ (fun k => GG T rt k i) (fun k => dellamyi n T (e : RF) rt k / diaglamyi T rt k)%R); [|intros k Hk; now apply GG_F|exact ddiv_F].
      rewrite delx_F by exact Hi. go.
    - unfold bz. rewrite (dot_F m _ _ (aa T) (fun k => dellamyi n T (e : RF) rt k / diaglamyi T rt k)%R); [|intros k Hk; go|exact ddiv_F].
      rewrite delz_F. go.
  Qed.

  (** a direction with finite entries *)
  Variable solve : nat -> (nat -> nat -> XF) -> (nat -> XF) -> result (nat -> XF).
  Hypothesis SF : solves_finite solve.
  Definition real_solve : nat -> (nat -> nat -> RF) -> (nat -> RF) -> result (nat -> RF) := fun k _ _ =>
    match (if (m <? n)%nat then solve k (AA_few m n S st) (bb_few m n S (Fin e : XF) st) else solve k (AA_many m n S st) (bb_many m n S (Fin e : XF) st)) with
    | Ok x => Ok (fun i => to_R (x i)) | Err er => Err er end.
  Lemma direction_F d : direction m n S (Fin e : XF) st solve = Ok d ->
    exists rd, direction m n T (e : RF) rt real_solve = Ok rd /\ simT m n d rd.
  Proof.
    unfold direction. destruct (Nat.ltb_spec m n) as [L|L].
    - unfold few. unfold real_solve. rewrite (proj2 (Nat.ltb_lt m n) L). destruct (solve (m + 1) _ _) as [x|] eqn:E; [|discriminate]. unfold bind; cbv beta iota zeta.
      assert (F : forall k, (k < m + 1)%nat -> x k = Fin (to_R (x k))). { intros k Hk. exact (proj1 (fin_to _ _ (SF _ _ _ _ E k Hk))). }
      intros E2. apply Ok_inj in E2. subst d. eexists. split; [reflexivity|].
      assert (DX : forall i, (i < n)%nat -> (- delx m S (Fin e : XF) st i / diagx m S st i - dot m (fun k => GG S st k i) x / diagx m S st i)%num =
        Fin (- delx m T (e : RF) rt i / diagx m T rt i - dot (F := RF) m (fun k => GG T rt k i) (fun k => to_R (x k)) / diagx m T rt i)).
      { intros i Hi. rewrite (dot_F m _ _ (fun k => GG T rt k i) (fun k => to_R (x k))); [|intros k Hk; now apply GG_F|intros k Hk; apply F; lia].
        rewrite delx_F, diagx_F by exact Hi. go. }
      assert (DY : forall k, (k < m)%nat -> (- dely S (Fin e : XF) st k / diagy S st k + x k / diagy S st k)%num =
        Fin (- dely T (e : RF) rt k / diagy T rt k + to_R (x k) / diagy T rt k)).
      { intros k Hk. rewrite dely_F, diagy_F, F by lia. go. }
      constructor; cbn [vx vy vz vlam vxsi veta vmu vzet vs]; try (intros i Hi).
      + now apply DX.
      + now apply DY.
      + apply F. lia.
      + apply F. lia.
      + rewrite DX by exact Hi. go.
      + rewrite DX by exact Hi. go.
      + rewrite DY by exact Hi. go.
      + rewrite F by lia. go.
      + rewrite F by lia. go.
    - unfold many. unfold real_solve. replace (m <? n)%nat with false by (symmetry; now apply Nat.ltb_ge). destruct (solve (n + 1) _ _) as [x|] eqn:E; [|discriminate]. unfold bind; cbv beta iota zeta.
      assert (F : forall k, (k < n + 1)%nat -> x k = Fin (to_R (x k))). { intros k Hk. exact (proj1 (fin_to _ _ (SF _ _ _ _ E k Hk))). }
      intros E2. apply Ok_inj in E2. subst d. eexists. split; [reflexivity|].
      assert (DL : forall k, (k < m)%nat -> (dot n (GG S st k) x / diaglamyi S st k - x n * (aa S k / diaglamyi S st k) + dellamyi n S (Fin e : XF) st k / diaglamyi S st k)%num =
        Fin (dot (F := RF) n (GG T rt k) (fun k => to_R (x k)) / diaglamyi T rt k - to_R (x n) * (aa T k / diaglamyi T rt k) + dellamyi n T (e : RF) rt k / diaglamyi T rt k)).
      { intros k Hk. rewrite (dot_F n _ _ (GG T rt k) (fun k => to_R (x k))); [|intros i Hi; now apply GG_F|intros i Hi; apply F; lia].
        rewrite diaglamyi_F, dellamyi_F, (F n) by lia. go. }
      assert (DY : forall k, (k < m)%nat -> (- dely S (Fin e : XF) st k / diagy S st k + (dot n (GG S st k) x / diaglamyi S st k - x n * (aa S k / diaglamyi S st k) + dellamyi n S (Fin e : XF) st k / diaglamyi S st k) / diagy S st k)%num =
        Fin (- dely T (e : RF) rt k / diagy T rt k + (dot (F := RF) n (GG T rt k) (fun k => to_R (x k)) / diaglamyi T rt k - to_R (x n) * (aa T k / diaglamyi T rt k) + dellamyi n T (e : RF) rt k / diaglamyi T rt k) / diagy T rt k)).
      { intros k Hk. rewrite DL, dely_F, diagy_F by lia. go. }
      constructor; cbn [vx vy vz vlam vxsi veta vmu vzet vs]; try (intros i Hi).
      + apply F. lia.
      + now apply DY.
      + apply F. lia.
      + now apply DL.
      + rewrite F by lia. go.
      + rewrite F by lia. go.
      + rewrite DY by exact Hi. go.
      + rewrite F by lia. go.
      + rewrite DL by exact Hi. go.
  Qed.

  Lemma steps_F d rd : simT m n d rd -> steps m n st d = map Fin (steps (F := RF) m n rt rd).
  Proof.
    intros D. unfold steps.
    apply app_F; [apply entries_F; intros k Hk; rewrite (t_y _ _ _ _ D) by exact Hk; go|]. apply app_F; [apply one_F; rewrite (t_z _ _ _ _ D); go|].
    apply app_F; [apply entries_F; intros k Hk; rewrite (t_lam _ _ _ _ D) by exact Hk; go|]. apply app_F; [apply entries_F; intros k Hk; rewrite (t_xsi _ _ _ _ D) by exact Hk; go|].
    apply app_F; [apply entries_F; intros k Hk; rewrite (t_eta _ _ _ _ D) by exact Hk; go|]. apply app_F; [apply entries_F; intros k Hk; rewrite (t_mu _ _ _ _ D) by exact Hk; go|].
    apply app_F; [apply one_F; rewrite (t_zet _ _ _ _ D); go|]. apply entries_F; intros k Hk; rewrite (t_s _ _ _ _ D) by exact Hk; go.
  Qed.
End Quantities.

(** ** The step length *)
Lemma np_max_ge (l : list R) r : np_max (F := RF) l = Ok r -> forall x, In x l -> x <= r.
Proof.
  destruct l as [|a l]; [discriminate|]. cbn [np_max]. intros E. apply Ok_inj in E. subst r. revert a. ops.
  assert (G : forall (l : list R) a, a <= fold_left Rmax l a).
  { clear. induction l as [|b l IH]; intros a; [apply Rle_refl|]. cbn [fold_left]. eapply Rle_trans; [|apply IH]. apply Rmax_l. }
  induction l as [|b l IH]; intros a x.
  - intros [<-|[]]. apply Rle_refl.
  - intros [<-|[<-|H]]; cbn [fold_left].
    + eapply Rle_trans; [|apply G]. apply Rmax_l.
    + eapply Rle_trans; [|apply G]. apply Rmax_r.
    + apply IH. right. exact H.
Qed.
Lemma py_max_l a b : a <= py_max (F := RF) a b.
Proof. unfold py_max. cbn [ltb RF]. destruct (Rltb a b) eqn:E; [apply Rltb_true in E; lra|lra]. Qed.
Lemma py_max_r a b : b <= py_max (F := RF) a b.
Proof. unfold py_max. cbn [ltb RF]. destruct (Rltb a b) eqn:E; [lra|apply Rltb_false in E; lra]. Qed.
Lemma in_entries n (u : nat -> RF) i : (i < n)%nat -> In (u i) (entries (F := RF) n u).
Proof. intros H. apply in_map, in_seq. lia. Qed.
Lemma move_pos v d t s : 0 < v -> 0 < s -> 0 < t -> t <= 1 / s -> - (101 / 100) * d / v <= s -> 0 < v + t * d.
Proof.
  intros V Sp Tp T H. destruct (Rle_or_lt 0 d) as [P|P]; [pose proof (Rmult_le_pos t d (Rlt_le _ _ Tp) P); lra|].
  assert (A : - (101 / 100) * d <= s * v). { apply (Rmult_le_compat_r v) in H; [|lra]. unfold Rdiv in H at 1. rewrite Rmult_assoc, Rinv_l, Rmult_1_r in H by lra. exact H. }
  assert (B : t * s <= 1). { apply (Rmult_le_compat_r s) in T; [|lra]. unfold Rdiv in T. rewrite Rmult_1_l, Rinv_l in T by lra. exact T. }
  assert (C : t * (- (101 / 100) * d) <= v).
  { eapply Rle_trans; [apply Rmult_le_compat_l; [lra|exact A]|]. rewrite <- Rmult_assoc. pose proof (Rmult_le_compat_r v _ _ (Rlt_le _ _ V) B). lra. }
  assert (D : 0 < t * - d) by (apply Rmult_lt_0_compat; lra). replace (t * (- (101 / 100) * d)) with ((101 / 100) * (t * - d)) in C by ring.
  replace (t * d) with (- (t * - d)) by ring. lra.
Qed.

Section Steg.
  Variables m n : nat.
  Variable T : subproblem RF.
  Variables rt rd : state RF.
  Hypothesis IN : inT m n T rt.
  Lemma steg_real t : first_steg m n T rt rd = Ok t -> 0 < t <= 1 /\ forall u, 0 < u -> u <= t -> inT m n T (move_by (F := RF) rt rd u).
  Proof.
    unfold first_steg. destruct (np_max (steps _ _ _ _)) as [s1|] eqn:E1; [|discriminate]. unfold bind; cbv beta iota.
    destruct (np_max (entries n (fun i => - lit (101 / 100) * vx rd i / (vx rt i - alfa T i))%num)) as [s2|] eqn:E2; [|discriminate]. cbv beta iota.
    destruct (np_max (entries n (fun i => lit (101 / 100) * vx rd i / (beta T i - vx rt i))%num)) as [s3|] eqn:E3; [|discriminate]. cbv beta iota.
    intros E. apply Ok_inj in E. subst t. set (s := py_max (py_max (py_max s2 s3) s1) (lit 1)). ops. change (Rdiv 1 s) with (1 / s).
    assert (S1 : 1 <= s). { apply py_max_r. }
    assert (A1 : forall x, In x (steps (F := RF) m n rt rd) -> x <= s).
    { intros x Hx. eapply Rle_trans; [exact (np_max_ge _ _ E1 x Hx)|]. eapply Rle_trans; [|apply py_max_l]. apply py_max_r. }
    assert (A2 : forall i, (i < n)%nat -> - (101 / 100) * vx rd i / (vx rt i - alfa T i) <= s).
    { intros i Hi. eapply Rle_trans; [exact (np_max_ge _ _ E2 _ (in_entries n _ i Hi))|]. do 2 (eapply Rle_trans; [|apply py_max_l]). apply py_max_l. }
    assert (A3 : forall i, (i < n)%nat -> (101 / 100) * vx rd i / (beta T i - vx rt i) <= s).
    { intros i Hi. eapply Rle_trans; [exact (np_max_ge _ _ E3 _ (in_entries n _ i Hi))|]. do 2 (eapply Rle_trans; [|apply py_max_l]). apply py_max_r. }
    clearbody s. clear E1 E2 E3 s1 s2 s3.
    assert (I : 0 < 1 / s) by (apply div_pos; lra).
    split; [split; [exact I|]|].
    { apply (Rmult_le_reg_r s); [lra|]. unfold Rdiv. rewrite Rmult_assoc, Rinv_l by lra. lra. }
    intros u U0 U.
    assert (G : forall v d, 0 < v -> In (- (101 / 100) * d / v) (steps (F := RF) m n rt rd) -> 0 < v + u * d).
    { intros v d V H. apply (move_pos v d u s); [exact V|lra|exact U0|exact U|]. now apply A1. }
    unfold steps in G. ops. 
    constructor; unfold move_by; cbn [vx vy vz vlam vxsi veta vmu vzet vs]; ops; try (intros i Hi).
    - pose proof (move_pos (vx rt i - alfa T i) (vx rd i) u s ltac:(pose proof (i_ax _ _ _ _ IN i Hi); ops; lra) ltac:(lra) U0 U (A2 i Hi)). ops. lra.
    - assert (H : - (101 / 100) * - vx rd i / (beta T i - vx rt i) <= s).
      { replace (- (101 / 100) * - vx rd i) with (101 / 100 * vx rd i) by (ops; ring). now apply A3. }
      pose proof (move_pos (beta T i - vx rt i) (- vx rd i) u s ltac:(pose proof (i_xb _ _ _ _ IN i Hi); ops; lra) ltac:(lra) U0 U H) as P. ops.
      replace (u * - vx rd i) with (- (u * vx rd i)) in P by ring. lra.
    - apply G; [now apply (i_y _ _ _ _ IN)|]. rewrite !in_app_iff. left. exact (in_entries m _ i Hi).
    - apply G; [now apply (i_z _ _ _ _ IN)|]. rewrite !in_app_iff. right; left. now left.
    - apply G; [now apply (i_lam _ _ _ _ IN)|]. rewrite !in_app_iff. do 2 right. left. exact (in_entries m _ i Hi).
    - apply G; [now apply (i_xsi _ _ _ _ IN)|]. rewrite !in_app_iff. do 3 right. left. exact (in_entries n _ i Hi).
    - apply G; [now apply (i_eta _ _ _ _ IN)|]. rewrite !in_app_iff. do 4 right. left. exact (in_entries n _ i Hi).
    - apply G; [now apply (i_mu _ _ _ _ IN)|]. rewrite !in_app_iff. do 5 right. left. exact (in_entries m _ i Hi).
    - apply G; [now apply (i_zet _ _ _ _ IN)|]. rewrite !in_app_iff. do 6 right. left. now left.
    - apply G; [now apply (i_s _ _ _ _ IN)|]. rewrite !in_app_iff. do 7 right. exact (in_entries m _ i Hi).
  Qed.
End Steg.

Section Step.
  Variables m n : nat.
  Variable S : subproblem XF.
  Variable T : subproblem RF.
  Hypothesis ES : simS m n S T.
  Hypothesis OK : okT m n T.
  Variable solve : nat -> (nat -> nat -> XF) -> (nat -> XF) -> result (nat -> XF).
  Hypothesis SF : solves_finite solve.
  Lemma move_F st rt d rd (t : R) : simT m n st rt -> simT m n d rd -> simT m n (move_by st d (Fin t : XF)) (move_by (F := RF) rt rd t).
  Proof.
    intros E D. constructor; intros; unfold move_by; cbn [vx vy vz vlam vxsi veta vmu vzet vs];
      rewrite ?(t_x _ _ _ _ E), ?(t_y _ _ _ _ E), ?(t_z _ _ _ _ E), ?(t_lam _ _ _ _ E), ?(t_xsi _ _ _ _ E), ?(t_eta _ _ _ _ E), ?(t_mu _ _ _ _ E), ?(t_zet _ _ _ _ E), ?(t_s _ _ _ _ E),
        ?(t_x _ _ _ _ D), ?(t_y _ _ _ _ D), ?(t_z _ _ _ _ D), ?(t_lam _ _ _ _ D), ?(t_xsi _ _ _ _ D), ?(t_eta _ _ _ _ D), ?(t_mu _ _ _ _ D), ?(t_zet _ _ _ _ D), ?(t_s _ _ _ _ D) by assumption;
      reflexivity.
  Qed.
  Lemma first_steg_F st rt d rd : simT m n st rt -> inT m n T rt -> simT m n d rd ->
    first_steg m n S st d = match first_steg m n T rt rd with Ok r => Ok (Fin r) | Err e => Err e end.
  Proof.
    intros ET IN D. unfold first_steg. rewrite (steps_F m n T st rt ET IN d rd D), np_max_F.
    destruct (np_max (steps m n rt rd)) as [s1|]; [|reflexivity]. unfold bind; cbv beta iota.
    rewrite (entries_F n _ (fun i => - (101 / 100) * vx rd i / (vx rt i - alfa T i))%R), np_max_F.
    2:{ intros i Hi. rewrite (t_x _ _ _ _ D), (t_x _ _ _ _ ET), (s_alfa _ _ _ _ ES) by exact Hi. ops. cbn [xadd xsub xmul xopp].
        rewrite xdivF; [reflexivity|]. pose proof (i_ax _ _ _ _ IN i Hi). ops. lra. }
    rewrite (entries_F n _ (fun i => (101 / 100) * vx rd i / (beta T i - vx rt i))%R), np_max_F.
    2:{ intros i Hi. rewrite (t_x _ _ _ _ D), (t_x _ _ _ _ ET), (s_beta _ _ _ _ ES) by exact Hi. ops. cbn [xadd xsub xmul xopp].
        rewrite xdivF; [reflexivity|]. pose proof (i_xb _ _ _ _ IN i Hi). ops. lra. }
    ops. destruct (np_max (F := RF) (entries (F := RF) n (fun i => (- (101 / 100) * vx rd i / (vx rt i - alfa T i))%R))) as [s2|]; [|reflexivity].
    destruct (np_max (F := RF) (entries (F := RF) n (fun i => ((101 / 100) * vx rd i / (beta T i - vx rt i))%R))) as [s3|]; [|reflexivity].
    f_equal. rewrite !py_max_F. apply xdivF. match goal with |- py_max ?a ?b <> _ => pose proof (py_max_r a b) end. ops. lra.
  Qed.

  (** one trial step from an interior point *)
  Lemma trial st rt (e : R) d steg : simT m n st rt -> inT m n T rt -> direction m n S (Fin e : XF) st solve = Ok d -> first_steg m n S st d = Ok steg ->
    exists rd t, simT m n d rd /\ steg = Fin t /\ 0 < t <= 1 /\ first_steg m n T rt rd = Ok t /\ forall u, 0 < u -> u <= t -> inT m n T (move_by (F := RF) rt rd u).
  Proof.
    intros ET IN D G. destruct (direction_F m n S T ES OK st rt ET IN e solve SF d D) as (rd & _ & E).
    rewrite (first_steg_F st rt d rd ET IN E) in G. destruct (first_steg m n T rt rd) as [t|] eqn:H; [|discriminate]. apply Ok_inj in G. subst steg.
    destruct (steg_real m n T rt rd IN t H) as (P & Q). exists rd, t. auto.
  Qed.
  Definition good (st : state XF) : Prop := exists rt, simT m n st rt /\ inT m n T rt.
  Lemma search_good k e old rt d rd : simT m n old rt -> simT m n d rd -> forall (t : R) r0 r1 cur r,
    (forall u, 0 < u -> u <= t -> inT m n T (move_by (F := RF) rt rd u)) -> 0 < t -> good cur ->
    good (it_st (search m n S k e old d r0 (Fin t : XF) r1 cur r)).
  Proof.
    intros EO ED. induction k as [|k IH]; intros t r0 r1 cur r H P G; [exact G|]. cbn [search]. destruct (ltb r0 r1); [|exact G].
    assert (D : @div XF (Fin t) (@lit XF 2) = Fin (t / 2)). { ops. apply xdivF. lra. }
    rewrite D. apply IH; [intros u U1 U2; apply H; lra|lra|]. exists (move_by (F := RF) rt rd t). split; [now apply move_F|]. apply H; lra.
  Qed.
  Lemma inner_step_good e it it' : good (it_st it) -> inner_step m n S solve (Fin e : XF) it = Ok it' -> good (it_st it').
  Proof.
    intros (rt & ET & IN) E. unfold inner_step in E. destruct (direction m n S (Fin e : XF) (it_st it) solve) as [d|] eqn:D; [|discriminate]. unfold bind in E; cbv beta iota in E.
    destruct (first_steg m n S (it_st it) d) as [steg|] eqn:G; [|discriminate]. apply Ok_inj in E. subst it'.
    destruct (trial _ _ _ _ _ ET IN D G) as (rd & t & ED & -> & (P1 & P2) & _ & Q). apply (search_good 50 _ _ rt d rd); try assumption. exists rt. auto.
  Qed.
  Lemma inner_good k e : forall rmax it it', good (it_st it) -> inner m n S solve k (Fin e : XF) rmax it = Ok it' -> good (it_st it').
  Proof.
    induction k as [|k IH]; intros rmax it it' G; cbn [inner]; destruct (ltb _ rmax); intros E; try (apply Ok_inj in E; now subst it').
    destruct (inner_step m n S solve (Fin e : XF) it) as [it1|] eqn:E1; [|discriminate]. unfold bind in E; cbv beta iota in E.
    destruct (py_maxl _) as [rm|] eqn:E2; [|discriminate]. apply (IH rm it1 it'); [|exact E]. exact (inner_step_good _ _ _ G E1).
  Qed.
  Lemma outer_step_good e st st' : good st -> outer_step m n S solve (Fin e : XF) st = Ok st' -> good st'.
  Proof.
    intros G. unfold outer_step. destruct (np_max _) as [rm|]; [|discriminate]. unfold bind; cbv beta iota. destruct (inner _ _ _ _ _ _ _ _) as [it|] eqn:E; [|discriminate].
    intros H. apply Ok_inj in H. subst st'. apply (inner_good _ _ _ _ _ ) in E; [exact E|exact G].
  Qed.
  Lemma outer_good fuel emin : forall e st st', good st -> outer m n S solve fuel emin (Fin e : XF) st = Done (Ok st') -> good st'.
  Proof.
    induction fuel as [|f IH]; intros e st st' G; cbn [outer]; destruct (ltb emin _); try discriminate; try (intros E; assert (st = st') by congruence; now subst st').
    destruct (outer_step m n S solve (Fin e : XF) st) as [st1|] eqn:E1; [|discriminate]. intros E. apply (IH (1 / 10 * e)%R st1 st'); [|exact E]. exact (outer_step_good _ _ _ G E1).
  Qed.
  Lemma start_good : good (start S).
  Proof.
    set (rs := start T). exists rs.
    assert (Hx : forall i, (i < n)%nat -> vx rs i = (alfa T i + beta T i) / 2). { intros i Hi. subst rs. unfold start. cbn [vx]. ops. lra. }
    assert (X : forall i, (i < n)%nat -> alfa T i < vx rs i < beta T i). { intros i Hi. rewrite Hx by exact Hi. pose proof (o_ab _ _ _ OK i Hi). ops. lra. }
    split.
    - subst rs. constructor; intros; unfold start; cbn [vx vy vz vlam vxsi veta vmu vzet vs] in *;
        rewrite ?(s_alfa _ _ _ _ ES), ?(s_beta _ _ _ _ ES), ?(s_c _ _ _ _ ES) by assumption; ops; cbn [xadd xsub xmul xopp];
        rewrite ?xmaxF; try reflexivity; rewrite ?xdivF; rewrite ?xmaxF; try reflexivity; specialize (X i H); unfold start in X; cbn [vx] in X; ops; lra.
    - constructor; intros; subst rs; unfold start; cbn [vx vy vz vlam vxsi veta vmu vzet vs]; ops; try (now apply X); try lra;
        (eapply Rlt_le_trans; [exact Rlt_0_1|]); try apply Rmax_r; try apply Rmax_l.
  Qed.
End Step.
