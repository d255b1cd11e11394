(** Newton's method on affine problems: proofs (C80). *)
From Coq Require Import String List Arith Lia Bool Reals Lra.
From Verif Require Import Num Arr ArrFacts Fe Problem BatchFacts SpecAssembly AssemblyFacts ProblemFacts ResidualFacts DerivFacts
  AgreeFacts SolverBc SpecBc BcFacts BcMain XNum PyDict Options OptionsFacts LinSolve Newton SpecNewton NewtonFacts SpecLift LiftFacts SpecLinear.
Import ListNotations.
Local Open Scope R_scope.

Ltac Req := match goal with |- @eq _ ?a ?b => change (@eq R a b) end.

Lemma Fin_hom : hom Rops Xops Fin.
Proof.
  split; try reflexivity. intros a b Hb. cbn. destruct (Req_EM_T b 0); [contradiction|reflexivity].
Qed.
Lemma Fin_sqrt : sqrt_agree (K1 := Rops) (K2 := Xops) Fin sqrt xsqrt.
Proof.
  intros n r. cbn [xsqrt]. destruct (Rlt_dec _ 0) as [H|]; [exfalso|reflexivity].
  assert (0 <= sum_n (K := Rops) n (fun j => mul (r j) (r j))); [|lra]. clear H.
  unfold sum_n, sum_over, sumK. induction (seq 0 n) as [|x l IH]; cbn in *; [lra|]. nra.
Qed.

Lemma skipn_combine {A B} n (l : list A) (m : list B) : skipn n (combine l m) = combine (skipn n l) (skipn n m).
Proof.
  revert l m; induction n as [|n IH]; intros [|x l] [|y m]; cbn; auto. now rewrite combine_nil.
Qed.
Lemma firstn_map2 {A B C} (f : A -> B -> C) n l m : firstn n (map2 f l m) = map2 f (firstn n l) (firstn n m).
Proof. unfold map2. rewrite firstn_map, combine_firstn. reflexivity. Qed.
Lemma skipn_map2 {A B C} (f : A -> B -> C) n l m : skipn n (map2 f l m) = map2 f (skipn n l) (skipn n m).
Proof. unfold map2. rewrite skipn_map, skipn_combine. reflexivity. Qed.
Lemma chunk_map2 {A B C} (f : A -> B -> C) n c l m : chunk n c (map2 f l m) = map2 (map2 f) (chunk n c l) (chunk n c m).
Proof.
  revert l m; induction n as [|n IH]; intros l m; cbn [chunk]; auto. rewrite firstn_map2, skipn_map2, IH. reflexivity.
Qed.
Lemma unravel_map2 {A B C} (f : A -> B -> C) shapes l m :
  unravel shapes (map2 f l m) = map2 (map2 (map2 f)) (unravel shapes l) (unravel shapes m).
Proof.
  revert l m; induction shapes as [|[n c] t IH]; intros l m; cbn [unravel]; auto.
  rewrite firstn_map2, skipn_map2, chunk_map2, IH. reflexivity.
Qed.
Lemma lim_affine (a b t0 L : R) : derivable_pt_lim (fun t => (1 - t) * a + t * b) t0 L -> L = b - a.
Proof.
  intros H. apply (uniqueness_limite (fun t => (1 - t) * a + t * b) t0); auto.
  assert (E : derivable_pt_lim (fun t => a + (b - a) * t) t0 (0 + (b - a) * 1)).
  { apply derivable_pt_lim_plus; [apply derivable_pt_lim_const|]. apply derivable_pt_lim_scal, derivable_pt_lim_id. }
  replace (b - a) with (0 + (b - a) * 1) by ring.
  intros eps He. destruct (E eps He) as [d Hd]. exists d. intros h Hh Hh2. specialize (Hd h Hh Hh2).
  replace ((1 - (t0 + h)) * a + (t0 + h) * b - ((1 - t0) * a + t0 * b)) with (a + (b - a) * (t0 + h) - (a + (b - a) * t0)) by ring. exact Hd.
Qed.

Lemma sol_ok_unravel' {K : ops} {V} (p : problem K V) u : length u = num_total_dofs_all_vars p -> sol_ok p (unravel (sol_shapes p) u).
Proof.
  intros H. pose proof (unravel_shapes (sol_shapes p) u H) as S. split.
  - rewrite (has_shapes_length _ _ S). unfold sol_shapes. now rewrite map_length.
  - intros v Hv. assert (Hv' : (v < length (sol_shapes p))%nat) by (unfold sol_shapes; now rewrite map_length).
    pose proof (has_shapes_nth _ _ v S Hv') as [S1 S2]. unfold sol_shapes in S1, S2.
    rewrite (nth_map_in _ _ _ (fe0 p)) in S1, S2 by exact Hv. cbn [fst snd] in S1, S2. fold (fe_of p v) in S1, S2.
    split; [exact S1|]. now apply Forall_forall.
Qed.
Lemma option_num {O} (cfg : dict O) k dflt y : option_value cfg k dflt y -> num_option cfg k (Fin dflt) = Ok (Fin y).
Proof.
  unfold num_option, option_value. destruct (lookup cfg k) as [v|].
  - intros [->|(z & -> & ->)]; reflexivity.
  - now intros ->.
Qed.

Lemma zero_step (a m : R) : 0 = a + 1 * m -> m = - a.
Proof. lra. Qed.

(** sums of finite extended reals *)
Lemma Xsum_fin n (f : nat -> Xops) r : sum_n (K := Xops) n f = Fin r -> forall i, (i < n)%nat -> exists a, f i = Fin a.
Proof.
  intros H i Hi. unfold sum_n, sum_over in H. apply sumK_fin in H. rewrite Forall_forall in H.
  apply isfinite_ex. apply H. apply in_map. apply in_seq. lia.
Qed.

Section Linear.
  Context {O V : Type}.
  Variable ravel_obj : O -> list Xops.
  Variable B : backends O.
  Variable jvp1 : (list Rops -> list Rops) -> list Rops -> list Rops -> list Rops.
  Variable jvp2 : (list Xops -> list Xops) -> list Xops -> list Xops -> list Xops.
  Variable p : problem Rops V.
  Variable m2 : user_maps Xops V.
  Variable pts : list (list (list Rops)).
  Variable kf : nat -> face_in Rops V -> list Rops.
  Hypothesis WF : wf_problem p.
  Hypothesis NC : (0 < p_num_cells p)%nat.
  Hypothesis IVS : ivs_ok p.
  Hypothesis KER : kernels_ok p kf.
  Hypothesis BC : bcs_ok p.
  Hypothesis RNG : forall f, In f (fes p) -> bc_in_range f.
  Hypothesis AFF : affine_residual p pts.
  Hypothesis RJ : right_jvp jvp1 p pts kf.
  Hypothesis MA : maps_agree Fin (fe0 p) (maps p) m2.
  Hypothesis JA : jvp_agree (K1 := Rops) (K2 := Xops) Fin jvp1 jvp2.
  Hypothesis RM : regular_mesh p pts.
  Local Notation p2 := (lift_problem Fin m2 p).
  Local Notation pts2 := (lift3 Fin pts).
  Local Notation fin := (lift1 (K1 := Rops) (K2 := Xops) Fin).
  Let n := all_dofs (global_shapes p).

  Lemma n_total : num_total_dofs_all_vars p = n.
  Proof. unfold n. rewrite all_dofs_total. reflexivity. Qed.
  Lemma n_total2 : num_total_dofs_all_vars p2 = n.
  Proof. rewrite <- n_total. now apply lift_total. Qed.
  Lemma fin_length x : length (fin x) = length x.
  Proof. apply map_length. Qed.
  Lemma un_ok u : length u = n -> sol_ok p (unravel (sol_shapes p) u).
  Proof. intros H. apply sol_ok_unravel'. now rewrite n_total. Qed.
  Definition resR (u : list Rops) := compute_residual_vars_helper p (weak_cells p pts (unravel (sol_shapes p) u)) (weak_faces sqrt p pts (unravel (sol_shapes p) u) kf).
  Definition valR (u : list Rops) := concat (map (@concat Rops) (jac_cells jvp1 p pts (unravel (sol_shapes p) u)))
    ++ concat (map (fun s => concat (map (@concat Rops) s)) (jac_faces jvp1 sqrt p pts (unravel (sol_shapes p) u) kf)).
  Definition bcR (u : list Rops) : list Rops := apply_bc_vec (ravel (resR u)) u p (@one Rops).
  Lemma resR_ok u : length u = n -> compute_residual sqrt p pts (unravel (sol_shapes p) u) = Ok (resR u).
  Proof. intros H. exact (compute_residual_ok sqrt p pts _ kf WF NC (un_ok u H) IVS KER). Qed.
  Lemma valR_ok u : length u = n -> newton_update jvp1 sqrt p pts (unravel (sol_shapes p) u) = Ok (resR u, valR u).
  Proof. intros H. exact (newton_update_ok jvp1 sqrt p pts _ kf WF NC (un_ok u H) IVS KER). Qed.
  Lemma resR_length u : length u = n -> length (ravel (resR u)) = n.
  Proof. intros H. exact (residual_length sqrt p pts _ kf WF NC (un_ok u H) IVS KER _ (resR_ok u H)). Qed.
  Lemma bcR_length u : length u = n -> length (bcR u) = n.
  Proof. intros H. exact (proj1 (apply_bc_vec_ring Rops_ring p BC (ravel (resR u)) u one (resR_length u H) H)). Qed.
  Lemma bcR_at u v k j : length u = n -> valid_dof (global_shapes p) v k j ->
    nth (dof_number (global_shapes p) v k j) (bcR u) 0 =
    match prescribed (fe_of p v) k j with
    | Some b => nth (dof_number (global_shapes p) v k j) u 0 - b
    | None => nth (dof_number (global_shapes p) v k j) (ravel (resR u)) 0
    end.
  Proof.
    intros H Hv. etransitivity; [exact (proj2 (apply_bc_vec_ring Rops_ring p BC (ravel (resR u)) u one (resR_length u H) H) v k j Hv)|].
    destruct (prescribed _ _ _); auto. cbn. ring.
  Qed.
  Lemma rav (u : list Rops) : length u = n -> ravel (unravel (sol_shapes p) u) = u.
  Proof. intros H. apply ravel_unravel. rewrite H, <- n_total. reflexivity. Qed.
  Lemma vadd_length (u d : list Rops) : length u = n -> length d = n -> length (vadd u d) = n.
  Proof. intros A C. unfold vadd. rewrite length_map2. lia. Qed.
  Lemma line1_length (u d : list Rops) t : length u = n -> length d = n -> length (line1 u d t) = n.
  Proof. intros A C. unfold line1. rewrite length_map2. lia. Qed.
  Lemma line_un (u d : list Rops) (t : Rops) : line3 (unravel (sol_shapes p) u) (unravel (sol_shapes p) d) t = unravel (sol_shapes p) (line1 u d t).
  Proof. unfold line3, line1. now rewrite unravel_map2. Qed.
  Lemma line1_one (u d : list Rops) : line1 u d (1 : Rops) = vadd u d.
  Proof. unfold line1, vadd, map2. apply map_ext. intros [a b]. cbn. ring. Qed.
  Lemma line1_scale (u d : list Rops) t : line1 u d t = vadd u (vscale t d).
  Proof. unfold vadd, vscale, line1, map2. rewrite combine_map_r, map_map. reflexivity. Qed.

  Lemma resR_shapes u : length u = n -> has_shapes (global_shapes p) (resR u).
  Proof. intros H. exact (residual_shapes sqrt p pts _ kf WF NC (un_ok u H) KER). Qed.
  Local Opaque resR valR.
  Lemma rav_line (u d : list Rops) t : length u = n -> length d = n -> ravel (line3 (unravel (sol_shapes p) u) (unravel (sol_shapes p) d) t) = line1 u d t.
  Proof. intros Hu Hd. rewrite line_un. apply rav. now apply line1_length. Qed.

  (** the residual with conditions, along a line, through the matrix *)
  Lemma bcR_line u d t g : length u = n -> length d = n -> (g < n)%nat ->
    nth g (bcR (line1 u d t)) 0 = nth g (bcR u) 0 + t * matvec (K := Rops) n (tangent p (valR u)) (fun h => nth h d 0) g.
  Proof.
    intros Hu Hd Hg.
    assert (LL : forall t, length (line1 u d t) = n) by (intros; now apply line1_length).
    assert (AF : forall t, nth g (bcR (line1 u d t)) 0 = (1 - t) * nth g (bcR u) 0 + t * nth g (bcR (line1 u d 1)) 0).
    { intros s. destruct (dof_number_surj _ _ Hg) as (v & k & j & Hv & <-). rewrite !bcR_at by auto.
      destruct (prescribed (fe_of p v) k j) as [b|].
      - unfold line1. rewrite !(nth_map2 _ _ _ _ (0 : Rops) (0 : Rops)) by (unfold n in *; lia). cbn. ring.
      - apply (AFF (unravel (sol_shapes p) u) (unravel (sol_shapes p) d) s); auto using un_ok, resR_ok.
        + rewrite line_un. now apply resR_ok.
        + rewrite line_un. now apply resR_ok. }
    assert (D : derivable_pt_lim (fun t => nth g (bcR (line1 u d t)) 0) 0 (matvec (K := Rops) n (tangent p (valR u)) (fun h => nth h d 0) g)).
    { pose proof (tangent_derivative jvp1 sqrt p pts (unravel (sol_shapes p) u) (unravel (sol_shapes p) d) kf WF NC (un_ok u Hu) (un_ok d Hd) IVS KER
        (proj1 (RJ _ (un_ok u Hu))) (proj2 (RJ _ (un_ok u Hu))) BC RNG g (fun t => resR (line1 u d t)) (resR u) (valR u) Hg) as T.
      rewrite (rav d Hd) in T.
      assert (E : forall t, compute_residual sqrt p pts (line3 (unravel (sol_shapes p) u) (unravel (sol_shapes p) d) t) = Ok (resR (line1 u d t))).
      { intros s. rewrite line_un. now apply resR_ok. }
      specialize (T E (valR_ok u Hu)).
      intros eps He. destruct (T eps He) as [dl Hdl]. exists dl. intros h H1 H2. specialize (Hdl h H1 H2).
      cbv beta in Hdl. rewrite !rav_line in Hdl by assumption. exact Hdl. }
    assert (E : matvec (K := Rops) n (tangent p (valR u)) (fun h => nth h d 0) g = nth g (bcR (line1 u d 1)) 0 - nth g (bcR u) 0).
    { apply (lim_affine (nth g (bcR u) 0) (nth g (bcR (line1 u d 1)) 0) 0). intros eps He. destruct (D eps He) as [dl Hdl]. exists dl.
      intros h H1 H2. specialize (Hdl h H1 H2). cbv beta in Hdl. rewrite (AF (0 + h)), (AF 0) in Hdl. exact Hdl. }
    rewrite E, (AF t). Req. ring.
  Qed.

  (** the solver's quantities on finite vectors *)
  Lemma un2 u : length u = n -> unflatten p2 (fin u) = Ok (lift3 Fin (unravel (sol_shapes p) u)).
  Proof.
    intros H. unfold unflatten. rewrite n_total2, fin_length, H, Nat.eqb_refl. rewrite lift_shapes by auto.
    unfold lift1. now rewrite unravel_map.
  Qed.
  Lemma bcres2 u : length u = n -> bc_residual p2 pts2 (fin u) = Ok (fin (bcR u)).
  Proof.
    intros H. unfold bc_residual. rewrite un2 by auto. cbn [bind].
    rewrite (lift_residual Fin Fin_hom sqrt xsqrt p m2 MA Fin_sqrt NC pts RM). rewrite resR_ok by auto. cbn [map_result bind].
    f_equal. unfold bcR. rewrite <- (lift_apply_bc Fin Fin_hom p m2 NC). f_equal. unfold lift3, lift2, lift1. apply ravel_map.
  Qed.
  Lemma helper2 u : length u = n ->
    newton_update_helper jvp2 p2 pts2 None (fin u) = Ok (fin (bcR u), mkMat n n (tangent p2 (fin (valR u)))).
  Proof.
    intros H. unfold newton_update_helper. cbn [bind]. rewrite un2 by auto. cbn [bind].
    rewrite (lift_newton Fin Fin_hom jvp1 jvp2 sqrt xsqrt p m2 MA JA Fin_sqrt NC pts RM). rewrite valR_ok by auto. cbn [map_result bind fst snd].
    unfold get_A. rewrite n_total2. f_equal. f_equal. unfold bcR. rewrite <- (lift_apply_bc Fin Fin_hom p m2 NC). f_equal.
    unfold lift3, lift2, lift1. apply ravel_map.
  Qed.
  Lemma residual2 u : length u = n -> newton_residual p2 pts2 None (fin u) (fin (bcR u)).
  Proof.
    intros H. exists (fin u), (lift3 Fin (resR u)). split; [reflexivity|]. split; [now rewrite n_total2, fin_length|].
    pose proof (bcres2 u H) as E. unfold bc_residual in E. rewrite un2 in E by auto. cbn [bind] in E.
    assert (EU : unravel (sol_shapes p2) (fin u) = lift3 Fin (unravel (sol_shapes p) u)).
    { pose proof (un2 u H) as U. unfold unflatten in U. rewrite n_total2, fin_length, H, Nat.eqb_refl in U. congruence. }
    rewrite EU. rewrite (lift_residual Fin Fin_hom sqrt xsqrt p m2 MA Fin_sqrt NC pts RM) in *. rewrite resR_ok in * by auto.
    cbn [map_result bind] in *. split; [reflexivity|]. congruence.
  Qed.
  Lemma fin_vadd x y : vadd (fin x) (fin y) = fin (vadd x y).
  Proof. apply map2_map. reflexivity. Qed.
  Lemma fin_vscale t x : vscale (Fin t : Xops) (fin x) = fin (vscale (t : Rops) x).
  Proof. unfold vscale, lift1. rewrite !map_map. reflexivity. Qed.
  Lemma fin_vneg x : vneg (fin x) = fin (vneg x).
  Proof. unfold vneg, lift1. rewrite !map_map. reflexivity. Qed.
  Lemma fin_add x y : length x = n -> length y = n -> add_vec (fin x) (fin y) = Ok (fin (vadd x y)).
  Proof. intros A C. unfold add_vec. rewrite !fin_length, A, C, Nat.eqb_refl. now rewrite fin_vadd. Qed.
  Lemma fin_nth i x : nth i (fin x) (Fin 0) = Fin (nth i x 0).
  Proof. exact (lift_nth Fin Fin_hom x i). Qed.

  (** exact solutions of the Newton system are finite and are real solutions *)
  Lemma exact_real u b x : length b = n -> exactly (mkMat n n (tangent p2 (fin (valR u)))) (fin b) x ->
    exists d, x = fin d /\ length d = n /\ forall g, (g < n)%nat -> matvec (K := Rops) n (tangent p (valR u)) (fun h => nth h d 0) g = nth g b 0.
  Proof.
    intros Hb [L H]. cbn [m_rows m_cols m_at] in *.
    assert (FX : forall j, (j < n)%nat -> exists a, nth j x (Fin 0) = Fin a).
    { intros j Hj. specialize (H j Hj). change (@zero Xops) with (Fin 0) in H. rewrite fin_nth in H.
      destruct (Xsum_fin _ _ _ H j Hj) as [a Ha]. cbn [mul Xops] in Ha. rewrite (lift_tangent Fin Fin_hom p m2 NC) in Ha.
      apply xmul_fin in Ha as (a' & b' & _ & E & _). eauto. }
    assert (E : x = fin (map to_R x)).
    { apply (list_ext (Fin 0)); [now rewrite fin_length, map_length|]. intros i Hi. rewrite fin_nth.
      assert (Hi' : (i < n)%nat) by (now rewrite <- L). destruct (FX i Hi') as [a Ha]. transitivity (Fin a); [exact Ha|].
      apply (f_equal Fin). symmetry. exact (eq_trans (map_nth to_R x (Fin 0) i) (f_equal to_R Ha)). }
    exists (map to_R x). split; [exact E|]. split; [now rewrite map_length|]. intros g Hg. specialize (H g Hg).
    rewrite E in H. change (@zero Xops) with (Fin 0) in H. rewrite fin_nth in H.
    rewrite (lift_sum_n Fin Fin_hom n (fun j => mul (tangent p (valR u) g j) (nth j (map to_R x) (@zero Rops)))) in H.
    - injection H as H. exact H.
    - intros j Hj. rewrite (lift_tangent Fin Fin_hom p m2 NC). cbn [mul Xops]. now rewrite fin_nth.
  Qed.
  Lemma real_exact u b d : length d = n -> (forall g, (g < n)%nat -> matvec (K := Rops) n (tangent p (valR u)) (fun h => nth h d 0) g = nth g b 0) ->
    exactly (mkMat n n (tangent p2 (fin (valR u)))) (fin b) (fin d).
  Proof.
    intros L H. split; [now rewrite fin_length|]. cbn [m_rows m_cols m_at]. intros g Hg. change (@zero Xops) with (Fin 0). rewrite fin_nth.
    transitivity (Fin (matvec (K := Rops) n (tangent p (valR u)) (fun h => nth h d 0) g)); [|exact (f_equal Fin (H g Hg))].
    unfold matvec. apply (lift_sum_n Fin Fin_hom). intros j Hj. rewrite (lift_tangent Fin Fin_hom p m2 NC). cbn [mul Xops]. now rewrite fin_nth.
  Qed.

  (** what [solves] says of the flat vector *)
  Lemma solves_zero sol : solves p pts sol -> bcR (ravel sol) = repeat 0 n /\ length (ravel sol) = n /\ sol = unravel (sol_shapes p) (ravel sol).
  Proof.
    intros (SO & res & E & H). pose proof (sol_shapes_ok p sol SO) as SS.
    assert (L : length (ravel sol) = n) by (unfold n; rewrite all_dofs_total; now apply ravel_length).
    assert (U : sol = unravel (sol_shapes p) (ravel sol)) by (symmetry; now apply unravel_ravel).
    split; [|auto]. assert (ER : res = resR (ravel sol)).
    { pose proof (resR_ok _ L) as R. rewrite <- U in R. congruence. }
    apply (list_ext (0 : Rops)); [rewrite repeat_length; now apply bcR_length|]. rewrite bcR_length by auto. intros g Hg. rewrite nth_repeat.
    destruct (dof_number_surj _ _ Hg) as (v & k & j & Hv & <-). rewrite bcR_at by auto.
    pose proof Hv as Hv'. destruct Hv as (Hv & Hk & Hj). rewrite length_global_shapes in Hv. rewrite global_shapes_nth in Hk, Hj by auto. cbn [fst snd] in Hk, Hj.
    specialize (H v k j Hv Hk Hj).
    destruct (prescribed (fe_of p v) k j) as [b|].
    - exact (Rminus_diag_eq _ _ (eq_trans (nth_ravel_dof (@zero Rops) _ sol v k j SS Hv') H)).
    - rewrite ER in H. exact (eq_trans (nth_ravel_dof (@zero Rops) _ (resR (ravel sol)) v k j (resR_shapes _ L) Hv') H).
  Qed.
  Lemma zero_solves u : length u = n -> (forall g, (g < n)%nat -> nth g (bcR u) 0 = 0) -> solves p pts (unravel (sol_shapes p) u).
  Proof.
    intros L Z. split; [now apply un_ok|]. exists (resR u). split; [now apply resR_ok|]. intros v k j Hv Hk Hj.
    assert (VD : valid_dof (global_shapes p) v k j) by (split; [now rewrite length_global_shapes|]; rewrite global_shapes_nth by auto; auto).
    specialize (Z _ (dof_number_lt _ _ _ _ VD)). rewrite bcR_at in Z by auto.
    destruct (prescribed (fe_of p v) k j) as [b|].
    - apply Rminus_diag_uniq in Z. refine (eq_trans _ Z). rewrite sol_shapes_global. apply get2_unravel; auto.
      exact (eq_trans L (all_dofs_total _)).
    - refine (eq_trans _ Z). symmetry. exact (nth_ravel_dof (@zero Rops) _ (resR u) v k j (resR_shapes _ L) VD).
  Qed.

  (** one step *)
  Lemma step_zero u d : length u = n -> length d = n ->
    (forall g, (g < n)%nat -> matvec (K := Rops) n (tangent p (valR u)) (fun h => nth h d 0) g = - nth g (bcR u) 0) ->
    bcR (vadd u d) = repeat 0 n.
  Proof.
    intros Lu Ld H. apply (list_ext (0 : Rops)); [rewrite repeat_length; apply bcR_length; now apply vadd_length|].
    rewrite bcR_length by (now apply vadd_length). intros g Hg. rewrite nth_repeat, <- line1_one.
    etransitivity; [apply bcR_line; auto|]. rewrite H by auto. Req. ring.
  Qed.
  Lemma norm_zero m : xnorm (fin (repeat 0 m)) = Fin 0.
  Proof.
    assert (E : fold_right Rplus 0 (map (fun a => a * a) (repeat 0 m)) = 0) by (induction m as [|m IH]; cbn; [reflexivity|]; rewrite IH; ring).
    unfold lift1. etransitivity; [apply xnorm_Fin|]. rewrite E. now rewrite sqrt_0.
  Qed.

  Lemma search_full u d : length u = n -> length d = n ->
    (forall g, (g < n)%nat -> matvec (K := Rops) n (tangent p (valR u)) (fun h => nth h d 0) g = - nth g (bcR u) 0) ->
    (exists r, xnorm (fin (bcR u)) = Fin r /\ 0 < r) ->
    line_search p2 pts2 (fin u) (fin d) = Ok (fin (vadd u d)).
  Proof.
    intros Lu Ld H (r & NR & PR).
    assert (RN : forall t, res_norm_fn p2 pts2 (fin u) (fin d) (Fin t) = Ok (xnorm (fin (bcR (line1 u d t))))).
    { intros t. unfold res_norm_fn. rewrite fin_vscale, fin_add; auto.
      2:{ unfold vscale. now rewrite map_length. }
      cbn [bind]. rewrite <- line1_scale, bcres2 by (now apply line1_length). reflexivity. }
    unfold line_search. rewrite RN. cbn [bind]. rewrite line1_one, (step_zero u d Lu Ld H), norm_zero.
    assert (HF : exists h, xnorm (fin (bcR (line1 u d (1 * / 2)))) = Fin h /\ 0 < h).
    { assert (E : bcR (line1 u d (1 * / 2)) = map (fun x => / 2 * x) (bcR u)).
      { apply (list_ext (0 : Rops)); [rewrite map_length, !bcR_length; auto using line1_length|]. rewrite bcR_length by (now apply line1_length).
        intros g Hg. replace (0 : Rops) with (/ 2 * 0) at 2 by (cbn; ring). rewrite (map_nth (fun x => / 2 * x)).
        etransitivity; [apply bcR_line; auto|]. rewrite H by auto. cbn. field. }
      rewrite E. unfold lift1. rewrite xnorm_Fin. eexists; split; [reflexivity|]. unfold lift1 in NR. rewrite xnorm_Fin in NR. injection NR as NR.
      apply sqrt_lt_R0. assert (S : forall l, fold_right Rplus 0 (map (fun a => a * a) (map (fun x => / 2 * x) l)) = / 4 * fold_right Rplus 0 (map (fun a => a * a) l)).
      { induction l as [|x l IH]; cbn; [ring|]. rewrite IH. field. }
      rewrite S. enough (0 < fold_right Rplus 0 (map (fun a => a * a) (bcR u))) by lra.
      pose proof (sum_sq_ge (bcR u)) as G. destruct (Req_dec (fold_right Rplus 0 (map (fun a => a * a) (bcR u))) 0) as [Z|Z]; [|lra].
      exfalso. rewrite Z, sqrt_0 in NR. lra. }
    destruct HF as (h & NH & PH). cbn [halve xmul]. rewrite RN. cbn [bind]. rewrite NH.
    assert (G : xgtb (Fin h) (Fin 0) = true) by (unfold xgtb, xltb; now apply Rltb_true). rewrite G. cbn [bind].
    replace (1 * / 2 * 2) with 1 by lra. rewrite fin_vscale.
    replace (vscale (1 : Rops) d) with d. 1: now apply fin_add.
    unfold vscale. rewrite <- (map_id d) at 1. apply map_ext. intros a. symmetry. exact (Rmult_1_l a).
  Qed.

  Hypothesis SOLV : exists sol, solves p pts sol.

  Lemma step_solvable u : length u = n -> exists d, length d = n /\
    forall g, (g < n)%nat -> matvec (K := Rops) n (tangent p (valR u)) (fun h => nth h d 0) g = - nth g (bcR u) 0.
  Proof.
    intros Lu. destruct SOLV as (sol & HS). destruct (solves_zero sol HS) as (Z & L & _).
    exists (map2 (@sub Rops) (ravel sol) u).
    assert (Ld : length (map2 (@sub Rops) (ravel sol) u) = n) by (rewrite length_map2; lia). split; [exact Ld|].
    intros g Hg. pose proof (bcR_line u (map2 (@sub Rops) (ravel sol) u) 1 g Lu Ld Hg) as E.
    rewrite line1_one in E. replace (vadd u (map2 (@sub Rops) (ravel sol) u)) with (ravel sol) in E.
    - rewrite Z, nth_repeat in E. exact (zero_step _ _ E).
    - apply (list_ext (0 : Rops)); [unfold vadd; rewrite length_map2; lia|]. rewrite L. intros i Hi. unfold vadd.
      rewrite !(nth_map2 _ _ _ _ (0 : Rops) (0 : Rops)) by lia. cbn. ring.
  Qed.

  Lemma x0_ok (u : list Rops) : length u = n ->
    exists x0, sub_vec (assign_bc (zeros (num_total_dofs_all_vars p2)) p2) (copy_bc (fin u) p2) = Ok x0.
  Proof.
    intros L. assert (BC2 : bcs_ok p2).
    { intros f Hf. cbn in Hf. apply in_map_iff in Hf as (f' & <- & Hf'). pose proof (BC f' Hf') as Hb. intros i Hi. cbn in *.
      destruct (Hb i Hi) as (A & C & D). rewrite (lift_nth2 Fin). unfold lift1. rewrite map_length. auto. }
    assert (NN : n = all_dofs (global_shapes p2)) by (rewrite <- n_total2, all_dofs_total; reflexivity).
    assert (Hz : length (zeros (K := Xops) (num_total_dofs_all_vars p2)) = all_dofs (global_shapes p2)).
    { unfold zeros. rewrite repeat_length, n_total2. exact NN. }
    destruct (assign_bc_spec p2 BC2 _ Hz) as [L1 _]. destruct (copy_bc_spec p2 BC2 (fin u)) as [L2 _]; [rewrite fin_length; congruence|].
    unfold sub_vec. rewrite L1, L2, Nat.eqb_refl. eauto.
  Qed.

  Theorem one_step fuel cfg lin tol rtol u0 :
    exact_linear B lin ->
    (lookup cfg "linear" = None /\ lin = [] \/ lookup cfg "linear" = Some (VDict lin)) ->
    option_value cfg "tol" (/ 10 ^ 6) tol -> 0 <= tol -> option_value cfg "rel_tol" (/ 10 ^ 8) rtol ->
    initial_dofs ravel_obj p2 None cfg = Ok (fin u0) -> length u0 = n ->
    exists out sol, solve_newton ravel_obj B jvp2 p2 pts2 None (S fuel) cfg = Done (Ok out) /\ out_sol out = lift3 Fin sol /\
      (out_iters out = 0%nat /\ sol = unravel (sol_shapes p) u0 /\ (exists r x, newton_residual p2 pts2 None (fin u0) r /\ xnorm r = Fin x /\ (x <= tol \/ x <= rtol * x)) \/
       out_iters out = 1%nat /\ solves p pts sol).
  Proof.
    intros EX LIN TOL T0 RTOL INIT L0.
    unfold solve_newton. rewrite INIT, helper2 by auto.
    assert (ER : num_option cfg "rel_tol" (Fin (/ 10 ^ 8)) = Ok (Fin rtol)) by (now apply option_num).
    assert (ET : num_option cfg "tol" (Fin (/ 10 ^ 6)) = Ok (Fin tol)) by (now apply option_num).
    rewrite ER, ET.
    assert (FINF : forall x, forallb isfinite (fin x) = true) by (intros x; apply forallb_forall; intros y Hy; apply in_map_iff in Hy as (? & <- & _); reflexivity).
    set (r0 := sqrt (fold_right Rplus 0 (map (fun a => a * a) (bcR u0)))).
    assert (N0 : xnorm (fin (bcR u0)) = Fin r0) by (unfold lift1; now rewrite xnorm_Fin).
    assert (P0 : 0 <= r0) by apply sqrt_pos.
    cbn [newton_loop st_res]. rewrite N0.
    destruct (keeps_going (Fin rtol) (Fin tol) (Fin r0) (Fin r0)) eqn:KG.
    - (* one step *)
      unfold keeps_going in KG. apply andb_true_iff in KG as [KG1 KG2]. unfold xgtb, xltb in KG2. apply Rltb_true in KG2.
      cbn [st_iters st_res st_A st_dofs st_cfg].
      destruct (step_solvable u0 L0) as (d0 & Ld0 & Hd0).
      assert (LNEG : forall u, length u = n -> length (vneg (bcR u)) = n) by (intros; unfold vneg; rewrite map_length; now apply bcR_length).
      assert (NN : forall g, nth g (vneg (bcR u0)) 0 = - nth g (bcR u0) 0) by (intros; exact (nth_vneg Rops_ring (bcR u0) g)).
      unfold newton_step. destruct (x0_ok u0 L0) as (x0 & EX0). rewrite EX0. cbn [bind].
      assert (EL : linear_options_of cfg = Ok lin) by (unfold linear_options_of; destruct LIN as [[-> ->]| ->]; reflexivity).
      rewrite EL. cbn [bind]. rewrite fin_vneg.
      destruct (EX 0%nat (mkMat n n (tangent p2 (fin (valR u0)))) (fin (vneg (bcR u0))) (Some x0) eq_refl) as (lo & x & EQ & XS).
      { split; [rewrite fin_length; now apply LNEG|]. intros y Hy. apply in_map_iff in Hy as (? & <- & _). reflexivity. }
      { exists (fin d0). apply real_exact; auto. intros g Hg. now rewrite NN, Hd0. }
      rewrite EQ. cbn [bind]. destruct (exact_real u0 (vneg (bcR u0)) x (LNEG u0 L0) XS) as (d & -> & Ld & Hd).
      assert (Hd' : forall g, (g < n)%nat -> matvec (K := Rops) n (tangent p (valR u0)) (fun h => nth h d 0) g = - nth g (bcR u0) 0) by (intros; now rewrite <- NN, Hd).
      assert (ST : (if truthy (get_default cfg "line_search_flag" (VBool false)) then line_search p2 pts2 (fin u0) (fin d) else add_vec (fin u0) (fin d)) = Ok (fin (vadd u0 d))).
      { destruct (truthy _); [apply search_full; auto; exists r0; split; auto; lra|now apply fin_add]. }
      rewrite ST. cbn [bind]. rewrite helper2 by (now apply vadd_length). rewrite (step_zero u0 d L0 Ld Hd').
      assert (KZ : keeps_going (Fin rtol) (Fin tol) (Fin r0) (Fin 0) = false).
      { unfold keeps_going. apply andb_false_iff. right. unfold xgtb, xltb. apply Rltb_false. exact T0. }
      assert (LP : forall (fl : nat) A cf, newton_loop B jvp2 p2 pts2 None fl (Fin rtol) (Fin tol) (Fin r0) (mkState (fin (vadd u0 d)) (fin (repeat 0 n)) A 1 cf)
        = Done (Ok (mkState (fin (vadd u0 d)) (fin (repeat 0 n)) A 1 cf))).
      { intros fl A cf. destruct fl; cbn [newton_loop st_res]; rewrite norm_zero, KZ; reflexivity. }
      rewrite LP. unfold newton_finish. cbn [st_res st_dofs st_iters st_cfg]. rewrite norm_zero. cbn [isfinite negb]. rewrite FINF. cbn [negb bind].
      rewrite un2 by (now apply vadd_length). cbn [bind]. eexists _, _. split; [reflexivity|]. split; [reflexivity|]. right. split; [reflexivity|].
      apply zero_solves; [now apply vadd_length|]. intros g Hg. rewrite (step_zero u0 d L0 Ld Hd'). apply nth_repeat.
    - unfold newton_finish. cbn [st_res st_dofs st_iters st_cfg]. rewrite N0. cbn [isfinite negb]. rewrite FINF. cbn [negb bind].
      rewrite un2 by auto. cbn [bind]. eexists _, _. split; [reflexivity|]. split; [reflexivity|]. left. split; [reflexivity|]. split; [reflexivity|].
      exists (fin (bcR u0)), r0. split; [now apply residual2|]. split; [exact N0|]. apply (keeps_going_stop tol rtol r0 r0); auto.
  Qed.
End Linear.

(** the back-ends behind the options *)
Lemma exactly_mul A b x : m_rows A = m_cols A -> finite_rhs A b -> exactly A b x ->
  exists y, mat_mul_vec A x = Ok y /\ exists d, sub_vec y b = Ok d /\ xnorm d = Fin 0.
Proof.
  intros SQ [LB FB] [L H]. unfold mat_mul_vec. rewrite L, Nat.eqb_refl. eexists; split; [reflexivity|].
  unfold sub_vec. rewrite map_length, seq_length, LB, Nat.eqb_refl. eexists; split; [reflexivity|].
  assert (E : vsub (map (matvec (m_cols A) (m_at A) (fun h => nth h x zero)) (seq 0 (m_rows A))) b = map Fin (repeat 0 (m_rows A))).
  { apply (list_ext (Fin 0)).
    - unfold vsub. rewrite length_map2, !map_length, seq_length, repeat_length. lia.
    - unfold vsub. rewrite length_map2, !map_length, seq_length, LB, Nat.min_id. intros i Hi. rewrite (nth_map2 _ _ _ _ (Fin 0 : Xops) (Fin 0 : Xops)) by (rewrite ?map_length, ?seq_length; first [exact Hi|now rewrite LB]).
      rewrite (nth_map_in _ _ _ 0%nat) by (rewrite seq_length; lia). rewrite seq_nth by lia. cbn [plus].
      assert (HM : matvec (m_cols A) (m_at A) (fun h => nth h x zero) i = nth i b (Fin 0)) by (apply H; lia). rewrite HM.
      assert (FI : isfinite (nth i b (Fin 0)) = true) by (apply FB, nth_In; now rewrite LB). apply isfinite_ex in FI as [r Hr]. rewrite Hr.
      rewrite (nth_map_in Fin _ _ 0) by (rewrite repeat_length; lia). rewrite nth_repeat. cbn. f_equal. ring. }
  rewrite E. exact (norm_zero (m_rows A)).
Qed.
Theorem backends_linear {O} (B : backends O) lin c : exact_backends B -> snd (linear_dispatch lin) = Ok c ->
  (forall o, c = CAmgx o -> b_pyamgx_available B = true) -> exact_linear B lin.
Proof.
  intros EB D AM t A b x0 SQ FB EX. destruct (EB t A b SQ FB EX) as (E1 & E2 & E3 & E4 & E5).
  unfold linear_solver. destruct (linear_dispatch lin) as [lo c']. cbn [snd] in D. rewrite D. cbn [bind].
  assert (T : xltb (Fin 0) one_tenth = true) by (unfold xltb, one_tenth; apply Rltb_true; lra).
  exists lo. destruct c as [pc|cf| |ksp pc|cf lo']; cbn [run_call].
  - destruct (E1 x0 (jax_pc A pc)) as (x & EQ & X). exists x. split; [|exact X]. unfold jax_solve. rewrite EQ. cbn [bind].
    destruct (exactly_mul A b x SQ FB X) as (y & -> & d & Hd & Hn). cbn [bind]. rewrite Hd. cbn [bind]. rewrite Hn, T. now rewrite map_id.
  - unfold AMGX_solve. rewrite (AM cf eq_refl). destruct (E2 (match x0 with Some x => x | None => zeros (List.length b) end) cf) as (x & -> & X). eauto.
  - destruct E3 as (x & EQ & X). unfold scipy_spsolve. rewrite EQ. eauto.
  - unfold petsc_solve. set (m := match ksp with VStr s => (s =? "tfqmr")%string | _ => false end).
    destruct (E4 ksp pc m (zeros (List.length b))) as (x & -> & X). exists x. split; [|exact X]. cbn [bind].
    destruct (exactly_mul A b x SQ FB X) as (y & -> & d & Hd & Hn). cbn [bind]. rewrite Hd. cbn [bind]. now rewrite Hn, T.
  - destruct (E5 cf x0 lo') as (x & -> & X). eauto.
Qed.

Theorem newton_one_step : forall (O V : Type) ravel_obj (B : backends O) jvp1 jvp2 (p : problem Rops V) m2 pts kf,
  wf_problem p -> (0 < p_num_cells p)%nat -> ivs_ok p -> kernels_ok p kf -> bcs_ok p -> (forall f, In f (fes p) -> bc_in_range f) ->
  affine_residual p pts -> right_jvp jvp1 p pts kf ->
  maps_agree Fin (fe0 p) (maps p) m2 -> jvp_agree (K1 := Rops) (K2 := Xops) Fin jvp1 jvp2 -> regular_mesh p pts ->
  (exists sol, solves p pts sol) ->
  let pX := lift_problem Fin m2 p in
  forall fuel (cfg : dict O) lin tol rtol (u0 : list Rops), exact_linear B lin ->
  (lookup cfg "linear" = None /\ lin = [] \/ lookup cfg "linear" = Some (VDict lin)) ->
  option_value cfg "tol" (/ 10 ^ 6) tol -> 0 <= tol -> option_value cfg "rel_tol" (/ 10 ^ 8) rtol ->
  starts_from ravel_obj pX None cfg (lift1 Fin u0) -> length u0 = all_dofs (global_shapes p) ->
  exists out sol, solve_newton ravel_obj B jvp2 pX (lift3 Fin pts) None (S fuel) cfg = Done (Ok out) /\ out_sol out = lift3 Fin sol /\
    (out_iters out = 0%nat /\ sol = unravel (sol_shapes p) u0 /\
       (exists r x, newton_residual pX (lift3 Fin pts) None (lift1 Fin u0) r /\ xnorm r = Fin x /\ (x <= tol \/ x <= rtol * x)) \/
     out_iters out = 1%nat /\ solves p pts sol).
Proof.
  intros O V ravel_obj B jvp1 jvp2 p m2 pts kf WF NC IVS KER BC RNG AFF RJ MA JA RM SOLV pX fuel cfg lin tol rtol u0 EX LIN TOL T0 RTOL ST L0.
  apply (one_step ravel_obj B jvp1 jvp2 p m2 pts kf WF NC IVS KER BC RNG AFF RJ MA JA RM SOLV fuel cfg lin tol rtol u0); auto.
  unfold initial_dofs, starts_from in *. destruct (lookup cfg "initial_guess") as [v|].
  - destruct ST as (o & -> & E). now rewrite <- E.
  - f_equal. symmetry. exact ST.
Qed.
