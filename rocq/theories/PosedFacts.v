(** Affine problems: exactly one solution, or a change that goes unnoticed (C81). *)
From Coq Require Import String List Arith Lia Bool Reals Lra.
From Verif Require Import Num Arr ArrFacts Fe Problem BatchFacts SpecAssembly AssemblyFacts ProblemFacts ResidualFacts DerivFacts FeFacts
  SolverBc SpecBc BcFacts BcMain SpecWeak SpecEnergy ElasticFacts LinAlg LiftFacts XNum NewtonFacts SpecLinear LinearFacts SpecPosed.
Import ListNotations.
Local Open Scope R_scope.

Section Posed.
  Context {V : Type}.
  Variables (p : problem Rops V) (pts : list (list (list Rops))) (kf : nat -> face_in Rops V -> list Rops).
  Hypothesis WF : wf_problem p.
  Hypothesis NC : (0 < p_num_cells p)%nat.
  Hypothesis IVS : ivs_ok p.
  Hypothesis KER : kernels_ok p kf.
  Hypothesis BC : bcs_ok p.
  Hypothesis AFF : affine_residual p pts.
  Let n := all_dofs (global_shapes p).
  Local Notation F := (bcR p pts kf).
  Local Notation un u := (unravel (sol_shapes p) u).

  Definition vecn (x : nat -> R) : list Rops := map x (seq 0 n).
  Lemma vecn_length x : length (vecn x) = n.
  Proof. unfold vecn. now rewrite map_length, seq_length. Qed.
  Lemma vecn_nth x g : (g < n)%nat -> nth g (vecn x) 0 = x g.
  Proof. intros Hg. unfold vecn. rewrite (nth_map_in _ _ _ 0%nat) by now rewrite seq_length. now rewrite seq_nth. Qed.
  Lemma vecn_ext x y : (forall g, (g < n)%nat -> x g = y g) -> vecn x = vecn y.
  Proof. intros H. apply map_ext_in. intros g Hg. apply in_seq in Hg. apply H. lia. Qed.
  Lemma vecn_of u : length u = n -> u = vecn (fun g => nth g u 0).
  Proof. intros H. apply (list_ext (0 : Rops)); [now rewrite vecn_length|]. intros g Hg. symmetry. exact (vecn_nth (fun g => nth g u 0) g (eq_ind _ (fun k => (g < k)%nat) Hg _ H)). Qed.
  Lemma vecn_line a b t : line1 (vecn a) (vecn b) (t : Rops) = vecn (fun g => a g + t * b g).
  Proof. unfold line1, vecn, map2. induction (seq 0 n) as [|g l IH]; cbn; [reflexivity|]. f_equal. exact IH. Qed.
  Definition G (x : nat -> R) (g : nat) : R := nth g (F (vecn x)) 0.
  Lemma G_ext x y g : (forall g, (g < n)%nat -> x g = y g) -> G x g = G y g.
  Proof. intros H. unfold G. now rewrite (vecn_ext x y H). Qed.
  Lemma G_line a b t g : (g < n)%nat -> G (fun g => a g + t * b g) g = (1 - t) * G a g + t * G (fun g => a g + b g) g.
  Proof.
    intros Hg. rewrite (G_ext (fun g => a g + b g) (fun g => a g + 1 * b g)) by (intros; ring). unfold G. rewrite <- !vecn_line.
    pose proof (vecn_length a) as La. pose proof (vecn_length b) as Lb.
    assert (LL : forall t : Rops, length (line1 (vecn a) (vecn b) t) = n) by (intros; rewrite vecn_line; apply vecn_length).
    destruct (dof_number_surj _ _ Hg) as (v & k & j & Hv & <-).
    rewrite !(bcR_at p pts kf WF NC IVS KER BC) by auto.
    destruct (prescribed (fe_of p v) k j) as [w|].
    - rewrite !vecn_line. rewrite !vecn_nth by auto. Req. ring.
    - apply (AFF (un (vecn a)) (un (vecn b)) t).
      + exact (un_ok p _ La).
      + exact (un_ok p _ Lb).
      + exact (resR_ok p pts kf WF NC IVS KER _ La).
      + rewrite line_un. exact (resR_ok p pts kf WF NC IVS KER _ (LL _)).
      + rewrite line_un. exact (resR_ok p pts kf WF NC IVS KER _ (LL _)).
  Qed.
  Definition L (x : nat -> R) (g : nat) : R := G x g - G (fun _ => 0) g.
  Lemma L_scale b t g : (g < n)%nat -> L (fun g => t * b g) g = t * L b g.
  Proof.
    intros Hg. unfold L. rewrite (G_ext (fun g => t * b g) (fun g => 0 + t * b g)) by (intros; ring). rewrite (G_line (fun _ => 0) b t g Hg).
    rewrite (G_ext (fun g => 0 + b g) b) by (intros; ring). ring.
  Qed.
  Lemma L_add a b g : (g < n)%nat -> L (fun g => a g + b g) g = L a g + L b g.
  Proof.
    intros Hg. assert (E : L (fun g => a g + b g) g = / 2 * L (fun g => 2 * a g) g + / 2 * L (fun g => 2 * b g) g).
    { unfold L. rewrite (G_ext (fun g => a g + b g) (fun g => 2 * a g + / 2 * (2 * b g - 2 * a g))) by (intros; field).
      rewrite (G_line (fun g => 2 * a g) (fun g => 2 * b g - 2 * a g) (/ 2) g Hg).
      rewrite (G_ext (fun g => 2 * a g + (2 * b g - 2 * a g)) (fun g => 2 * b g)) by (intros; ring). field. }
    rewrite E, !L_scale by auto. field.
  Qed.
  Lemma L_ext x y g : (forall g, (g < n)%nat -> x g = y g) -> L x g = L y g.
  Proof. intros H. unfold L. now rewrite (G_ext x y g H). Qed.
  Lemma L_zero g : (g < n)%nat -> L (fun _ => 0) g = 0.
  Proof. intros Hg. unfold L. ring. Qed.
  Lemma L_sum x g : (g < n)%nat -> L x g = sum_n (K := Rops) n (fun h => L (unit_at h) g * x h).
  Proof.
    intros Hg.
    assert (S : forall M, L (fun g => if (g <? M)%nat then x g else 0) g = sum_n (K := Rops) M (fun h => L (unit_at h) g * x h)).
    { induction M as [|M IH]; [exact (L_zero g Hg)|]. rewrite (sum_n_S Rops_ring). cbn [add Rops]. rewrite <- IH.
      transitivity (L (fun g => if (g <? M)%nat then x g else 0) g + x M * L (unit_at M) g); [|Req; ring].
      rewrite <- L_scale, <- L_add by auto. apply L_ext. intros h Hh. unfold unit_at.
      destruct (Nat.ltb_spec h (S M)), (Nat.ltb_spec h M), (Nat.eqb_spec M h); try lia; subst; ring. }
    rewrite <- S. apply L_ext. intros h Hh. destruct (Nat.ltb_spec h n); [reflexivity|lia].
  Qed.
  (** what a zero of L says of the fields *)
  Lemma L_free x : (forall g, (g < n)%nat -> L x g = 0) ->
    forall v k j, (v < length (fes p))%nat -> (k < length (points (fe_of p v)))%nat -> (j < vec (fe_of p v))%nat ->
      match prescribed (fe_of p v) k j with
      | Some _ => get2 (@zero Rops) (nth v (un (vecn x)) []) k j = 0
      | None => get2 (@zero Rops) (nth v (resR p pts kf (vecn x)) []) k j = get2 (@zero Rops) (nth v (resR p pts kf (vecn (fun _ => 0))) []) k j
      end.
  Proof.
    intros Z v k j Hv Hk Hj.
    assert (VD : valid_dof (global_shapes p) v k j) by (split; [now rewrite length_global_shapes|]; rewrite global_shapes_nth by auto; auto).
    pose proof (dof_number_lt _ _ _ _ VD) as Hg. specialize (Z _ Hg). unfold L, G in Z.
    rewrite !(bcR_at p pts kf WF NC IVS KER BC) in Z by (auto; apply vecn_length).
    destruct (prescribed (fe_of p v) k j) as [b|].
    - rewrite !vecn_nth in Z by auto. rewrite sol_shapes_global. etransitivity; [apply (get2_unravel (@zero Rops)); auto|].
      + rewrite vecn_length. unfold n. now rewrite all_dofs_total.
      + etransitivity; [exact (vecn_nth x _ Hg)|]. cbn in Z. lra.
    - assert (SH : forall y, has_shapes (global_shapes p) (resR p pts kf (vecn y))) by (intros y; exact (resR_shapes p pts kf WF NC KER _ (vecn_length y))).
      pose proof (fun y => nth_ravel_dof (@zero Rops) _ (resR p pts kf (vecn y)) v k j (SH y) VD) as E.
      refine (eq_trans (eq_sym (E x)) (eq_trans _ (E (fun _ => 0)))). apply Rminus_diag_uniq. exact Z.
  Qed.
  Lemma free_L x (r : list (list (list Rops))) y : compute_residual sqrt p pts (un (vecn y)) = Ok r ->
    forall r', compute_residual sqrt p pts (un (vecn (fun g => y g + x g))) = Ok r' ->
    (forall v k j, (v < length (fes p))%nat -> (k < length (points (fe_of p v)))%nat -> (j < vec (fe_of p v))%nat ->
      match prescribed (fe_of p v) k j with
      | Some _ => get2 (@zero Rops) (nth v (un (vecn x)) []) k j = 0
      | None => get2 (@zero Rops) (nth v r' []) k j = get2 (@zero Rops) (nth v r []) k j
      end) -> forall g, (g < n)%nat -> L x g = 0.
  Proof.
    intros E r' E' H g Hg.
    rewrite (resR_ok p pts kf WF NC IVS KER _ (vecn_length _)) in E. injection E as <-.
    rewrite (resR_ok p pts kf WF NC IVS KER _ (vecn_length _)) in E'. injection E' as <-.
    assert (D : G (fun g => y g + x g) g - G y g = L x g).
    { transitivity (L (fun g => y g + x g) g - L y g); [unfold L; ring|]. rewrite L_add by auto. ring. }
    rewrite <- D. unfold G. destruct (dof_number_surj _ _ Hg) as (v & k & j & Hv & <-). pose proof Hv as (H1 & H2 & H3).
    rewrite length_global_shapes in H1. rewrite global_shapes_nth in H2, H3 by auto. specialize (H v k j H1 H2 H3).
    rewrite !(bcR_at p pts kf WF NC IVS KER BC) by (auto; apply vecn_length).
    destruct (prescribed (fe_of p v) k j) as [b|].
    - rewrite !vecn_nth by auto. rewrite sol_shapes_global in H. rewrite (get2_unravel (@zero Rops)) in H; auto.
      + pose proof (eq_trans (eq_sym (vecn_nth x _ Hg)) H) as X. cbn in X |- *. rewrite X. ring.
      + rewrite vecn_length. unfold n. now rewrite all_dofs_total.
    - assert (SH : forall y, has_shapes (global_shapes p) (resR p pts kf (vecn y))) by (intros z; exact (resR_shapes p pts kf WF NC KER _ (vecn_length z))).
      pose proof (fun y => nth_ravel_dof (@zero Rops) _ (resR p pts kf (vecn y)) v k j (SH y) Hv) as E.
      apply Rminus_diag_eq. exact (eq_trans (E _) (eq_trans H (eq_sym (E y)))).
  Qed.

  Lemma vecn_zero_fields x : (forall v k j, (v < length (fes p))%nat -> (k < length (points (fe_of p v)))%nat -> (j < vec (fe_of p v))%nat -> get2 (@zero Rops) (nth v (un (vecn x)) []) k j = 0) ->
    forall g, (g < n)%nat -> x g = 0.
  Proof.
    intros H g Hg. destruct (dof_number_surj _ _ Hg) as (v & k & j & Hv & E). pose proof Hv as (H1 & H2 & H3).
    rewrite length_global_shapes in H1. rewrite global_shapes_nth in H2, H3 by auto. specialize (H v k j H1 H2 H3).
    rewrite sol_shapes_global in H. rewrite (get2_unravel (@zero Rops)) in H; auto; [|rewrite vecn_length; unfold n; now rewrite all_dofs_total].
    rewrite E in H. exact (eq_trans (eq_sym (vecn_nth x g Hg)) H).
  Qed.
  Lemma zero_fields x v k j : (forall g, (g < n)%nat -> x g = 0) -> (v < length (fes p))%nat -> (k < length (points (fe_of p v)))%nat -> (j < vec (fe_of p v))%nat ->
    get2 (@zero Rops) (nth v (un (vecn x)) []) k j = 0.
  Proof.
    intros Z Hv Hk Hj.
    assert (VD : valid_dof (global_shapes p) v k j) by (split; [now rewrite length_global_shapes|]; rewrite global_shapes_nth by auto; auto).
    rewrite sol_shapes_global. rewrite (get2_unravel (@zero Rops)); auto; [|rewrite vecn_length; unfold n; now rewrite all_dofs_total].
    pose proof (dof_number_lt _ _ _ _ VD) as Hg. exact (eq_trans (vecn_nth x _ Hg) (Z _ Hg)).
  Qed.
  Lemma kernel_zero : no_free_change p pts -> forall x, (forall g, (g < n)%nat -> L x g = 0) -> forall g, (g < n)%nat -> x g = 0.
  Proof.
    intros NF x Z. apply vecn_zero_fields.
    apply (NF (un (vecn (fun _ => 0))) (un (vecn x)) (resR p pts kf (vecn (fun _ => 0))) (resR p pts kf (vecn x))).
    - exact (un_ok p _ (vecn_length _)).
    - exact (un_ok p _ (vecn_length _)).
    - exact (resR_ok p pts kf WF NC IVS KER _ (vecn_length _)).
    - rewrite line_un, vecn_line. rewrite (vecn_ext (fun g => 0 + 1 * x g) x) by (intros; ring). exact (resR_ok p pts kf WF NC IVS KER _ (vecn_length _)).
    - exact (L_free x Z).
  Qed.
  Theorem one_from_free : no_free_change p pts -> one_solution p pts.
  Proof.
    intros NF. destruct (solvable n (fun g h => L (unit_at h) g) (fun g => - G (fun _ => 0) g)) as (x & E).
    - intros x Z. apply (kernel_zero NF). intros g Hg. rewrite L_sum by auto. now apply Z.
    - assert (GX : forall g, (g < n)%nat -> G x g = 0).
      { intros g Hg. specialize (E g Hg). pose proof (L_sum x g Hg) as S. pose proof (eq_trans S E) as S'. unfold L in S'. lra. }
      exists (un (vecn x)). split; [apply (zero_solves p pts kf WF NC IVS KER BC); [apply vecn_length|exact GX]|].
      intros y SY. destruct (solves_zero p pts kf WF NC IVS KER BC y SY) as (Z & LY & ->). fold n in LY. set (z := fun g => nth g (ravel y) 0). assert (EZ : ravel y = vecn z) by (exact (vecn_of (ravel y) LY)). rewrite EZ in Z |- *.
      f_equal. apply vecn_ext. intros g Hg. clearbody z.
      assert (GZ : forall g, (g < n)%nat -> G z g = 0) by (intros h Hh; unfold G; rewrite Z; apply nth_repeat).
      enough (z g + (-1) * x g = 0) by lra. apply (kernel_zero NF (fun g => z g + (-1) * x g)); auto. intros h Hh.
      rewrite L_add, L_scale by auto. unfold L. rewrite GZ, GX by auto. ring.
  Qed.
  Theorem free_from_one : one_solution p pts -> no_free_change p pts.
  Proof.
    intros (s & SS & US) x d rx ry SX SD EX EY H.
    destruct (solves_zero p pts kf WF NC IVS KER BC s SS) as (Z & LS & ES). fold n in LS.
    pose proof (sol_shapes_ok p x SX) as HX. pose proof (sol_shapes_ok p d SD) as HD.
    assert (LX : length (ravel x) = n) by (unfold n; rewrite all_dofs_total; now apply ravel_length).
    assert (LD : length (ravel d) = n) by (unfold n; rewrite all_dofs_total; now apply ravel_length).
    assert (UX : x = un (ravel x)) by (symmetry; now apply unravel_ravel). assert (UD : d = un (ravel d)) by (symmetry; now apply unravel_ravel).
    set (x' := fun g => nth g (ravel x) 0). set (d' := fun g => nth g (ravel d) 0). set (s' := fun g => nth g (ravel s) 0).
    assert (X' : ravel x = vecn x') by (exact (vecn_of _ LX)). assert (D' : ravel d = vecn d') by (exact (vecn_of _ LD)). assert (S' : ravel s = vecn s') by (exact (vecn_of _ LS)).
    clearbody x' d' s'. rewrite X' in UX. rewrite D' in UD. rewrite S' in ES, Z.
    rewrite UX in EX, EY. rewrite UD in EY, H |- *.
    rewrite line_un, vecn_line in EY. rewrite (vecn_ext (fun g => x' g + 1 * d' g) (fun g => x' g + d' g)) in EY by (intros; ring).
    pose proof (free_L d' rx x' EX ry EY H) as LD0.
    intros v k j Hv Hk Hj. apply zero_fields; auto.
    assert (GS : forall g, (g < n)%nat -> G s' g = 0) by (intros h Hh; unfold G; rewrite Z; apply nth_repeat).
    assert (SN : solves p pts (un (vecn (fun g => s' g + d' g)))).
    { apply (zero_solves p pts kf WF NC IVS KER BC); [apply vecn_length|]. intros g Hg. change (G (fun g => s' g + d' g) g = 0).
      assert (E : L (fun g => s' g + d' g) g = L s' g + L d' g) by (now apply L_add). rewrite LD0 in E by auto. unfold L in E. rewrite GS in E by auto. lra. }
    apply US in SN. rewrite ES in SN. apply (f_equal ravel) in SN.
    rewrite !(rav p) in SN by apply vecn_length.
    intros g Hg. pose proof (f_equal (fun l : list Rops => nth g l 0) SN) as Q. cbv beta in Q.
    pose proof (eq_trans (eq_sym (vecn_nth (fun g => s' g + d' g) g Hg)) (eq_trans Q (vecn_nth s' g Hg))) as Q'. cbv beta in Q'. lra.
  Qed.

  Theorem free_regular jvp : (forall f, In f (fes p) -> bc_in_range f) -> right_jvp jvp p pts kf -> no_free_change p pts ->
    forall sol r0 W, sol_ok p sol -> newton_update jvp sqrt p pts sol = Ok (r0, W) ->
    forall b : nat -> Rops, exists x : nat -> Rops, (forall g, (g < n)%nat -> matvec (K := Rops) n (tangent p W) x g = b g) /\
      forall y : nat -> Rops, (forall g, (g < n)%nat -> matvec (K := Rops) n (tangent p W) y g = b g) -> forall g, (g < n)%nat -> y g = x g.
  Proof.
    intros RNG RJ NF sol r0 W SOL NU b.
    pose proof (sol_shapes_ok p sol SOL) as HX. assert (LX : length (ravel sol) = n) by (unfold n; rewrite all_dofs_total; now apply ravel_length).
    assert (UX : sol = un (ravel sol)) by (symmetry; now apply unravel_ravel).
    rewrite UX in NU. rewrite (valR_ok jvp p pts kf WF NC IVS KER (ravel sol) LX) in NU.
    assert (EW : W = valR jvp p pts kf (ravel sol)) by congruence. clear NU. subst W.
    assert (MV : forall (x : nat -> R) g, (g < n)%nat -> matvec (K := Rops) n (tangent p (valR jvp p pts kf (ravel sol))) x g = L x g).
    { intros x g Hg. pose proof (bcR_line jvp p pts kf WF NC IVS KER BC RNG AFF RJ (ravel sol) (vecn x) 1 g LX (vecn_length x) Hg) as E. fold n in E.
      set (y := fun g => nth g (ravel sol) 0). assert (Y : ravel sol = vecn y) by (exact (vecn_of _ LX)).
      assert (EL1 : line1 (ravel sol) (vecn x) (1 : Rops) = vecn (fun g => y g + x g)) by (rewrite Y, vecn_line; apply vecn_ext; intros; ring).
      rewrite EL1 in E.
      assert (EM : matvec (K := Rops) n (tangent p (valR jvp p pts kf (ravel sol))) (fun h => nth h (vecn x) 0) g = matvec (K := Rops) n (tangent p (valR jvp p pts kf (ravel sol))) x g).
      { unfold matvec. apply Rsum_ext. intros h Hh. cbn [mul Rops]. apply f_equal. exact (vecn_nth x h Hh). }
      rewrite EM in E.
      change (nth g (F (vecn (fun g => y g + x g))) 0) with (G (fun g => y g + x g) g) in E.
      assert (EY : nth g (F (ravel sol)) 0 = G y g) by (unfold G; now rewrite <- Y). rewrite EY in E.
      assert (EL : L (fun g => y g + x g) g = L y g + L x g) by (now apply L_add). unfold L in EL at 1 2. Req. lra. }
    assert (INJ : forall x : nat -> R, (forall g, (g < n)%nat -> matvec (K := Rops) n (tangent p (valR jvp p pts kf (ravel sol))) x g = 0) -> forall g, (g < n)%nat -> x g = 0).
    { intros x Z. apply (kernel_zero NF). intros g Hg. rewrite <- MV by auto. now apply Z. }
    destruct (solvable n (tangent p (valR jvp p pts kf (ravel sol))) b INJ) as (x & E). exists x. split; [exact E|].
    intros y EY g Hg. enough (y g + (-1) * x g = 0) by lra. apply (kernel_zero NF (fun g => y g + (-1) * x g)); auto. intros h Hh.
    rewrite L_add, L_scale by auto. rewrite <- !MV by auto. pose proof (EY h Hh) as E1. pose proof (E h Hh) as E2. unfold matvec in *. cbn in E1, E2 |- *. rewrite E1, E2. ring.
  Qed.
End Posed.
