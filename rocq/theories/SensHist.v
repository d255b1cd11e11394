(** Each step of the history of C111. *)
From Coq Require Import Reals String List Arith Lia Lra Bool.
From Verif Require Import Num Arr ArrFacts BatchFacts Fe FeFacts GeomFacts SpecFe SpecBasis Basis Problem SpecAssembly AssemblyFacts SpecWeak KernelFacts SpecEnergy Elastic ElasticFacts SpecBc SpecLinear Plasticity SpecPlasticity PlasticityFacts
  Lagrangian SpecLagrangian LagrangianFacts LagrangianMain FinPlast SpecFinPlast FinPlastFacts FinPlastMain CrystalPlast SpecCrystal CrystalFacts CrystalSolve CrystalMain CrystalUse
  HyperElastic Volume SpecVolume VolumeMain VolumeEnd ErrorNormMet VolumeMet VolumeSpin FinLoad FinLoadMain SensStress SensMain SpecSens SensRun SensMet CrystalExact.
Import ListNotations.
Local Open Scope R_scope.
Local Notation sum := (sum_n (K := Rops)).
Local Infix "==" := (same_on 3) (at level 70).

Section Hist.
  Variables (tb : list (list R)) (LS : tensor -> vect -> vect) (P : list (list Rops)) (fuel : nat).
  Lemma before_next params h k : (k < length h)%nat -> before_at params h (Datatypes.S k) = ss_vars (step_at h k).
  Proof. intros H. unfold before_at, step_at. cbn [nth]. rewrite (nth_map_in _ _ _ (mkSs (mkProblem [] [] (cp_maps [] 0 (fun _ v => v) 0) [] []) [] 0 [])) by exact H. reflexivity. Qed.
  Lemma run_arrays fwd n f d0 params h : ss_loop tb LS P fuel fwd n 0 f (vs_bc d0) params = Some (Ok h) -> four_arrays f params -> forall k, (k <= n)%nat -> four_arrays f (before_at params h k).
  Proof.
    intros L FA. destruct (loop_spec tb LS P fuel fwd n 0 f d0 params h L) as (LN & H). induction k as [|k IH]; intros Hk; [exact FA|]. rewrite before_next by lia.
    destruct (H k ltac:(lia)) as (f' & SM & _ & _ & _ & _ & EU). destruct (same_num f f' SM) as (CE & _). specialize (IH ltac:(lia)).
    destruct (update_cases tb (ss_dt (0 + k)) LS f' P fuel (ss_sol (step_at h k)) (before_at params h k)) as [(EU' & _)|(iv & EU' & F1 & _)]; [unfold four_arrays in *; rewrite CE; exact IH|rewrite EU' in EU; discriminate|].
    rewrite EU' in EU. injection EU as <-. unfold four_arrays in *. rewrite CE in F1. exact F1.
  Qed.
  Lemma history fwd f d0 params h : ss_loop tb LS P fuel fwd ss_num_steps 0 f (vs_bc d0) params = Some (Ok h) -> four_arrays f params -> (0 < num_cells f)%nat -> length h = 10%nat /\
    forall k, (k < 10)%nat -> let st := step_at h k in let before := before_at params h k in let after := ss_vars st in
    exists f', same_mesh f f' /\ pulled f f' (INR (k + 1) / 2000) /\ ss_prob st = ss_problem tb LS fuel f' (/ 20) before /\ fwd k (ss_prob st) = Ok (ss_sol st) /\ state_of f after /\
    (forall c q, (c < num_cells f)%nat -> (q < num_quads f)%nat -> let F := deformation P f (ss_sol st) c q in let g := kept_g before c q in let M := kept_rot before c q in kept_rot after c q = M /\
      exists S, let slip s := slip_by (/ 20) (resolved tb M S s) (g s) in size3 (law_gap tb (/ 20) F (kept_Fp before c q) g M S) <= / 10 ^ 8 /\
        kept_Fp after c q == times (kept_Fp before c q) (fun a b => ident a b - flow tb (/ 20) g M S a b) /\
        (forall s, kept_slip after c q s = kept_slip before c q s + slip s /\ kept_g after c q s = g s + 5415 / 10 * sum (length tb) (fun j => Rabs (slip j) * to_saturation (g j))) /\
        (vol F <> 0 -> vol (kept_Fp after c q) <> 0 -> (fun a b => vol (kept_Fp after c q) * times (stress (ss_prob st) f' P (ss_sol st) c q) (transp F) a b) == conj3 (times F (kept_Fp after c q)) S)) /\
    let J := sum (num_quads f) (fun q => get_JxW P f 0 q) in
    (J <> 0 -> (forall q, (q < num_quads f)%nat -> vol (deformation P f (ss_sol st) 0 q) <> 0) ->
      J * ss_zz st = sum (num_quads f) (fun q => let F := deformation P f (ss_sol st) 0 q in get_JxW P f 0 q * (times (stress (ss_prob st) f' P (ss_sol st) 0 q) (transp F) 2%nat 2%nat / vol F))).
  Proof.
    intros L FA NC. destruct (loop_spec tb LS P fuel fwd ss_num_steps 0 f d0 params h L) as (LN & H). split; [exact LN|]. intros k Hk st before after.
    destruct (H k Hk) as (f' & SM & PU & EP & EF & (sg & EG & EZ) & EU). fold st before in EP, EF, EG, EZ, EU. change (0 + k)%nat with k in EP, EF, EG, EU, PU. rewrite (times_eq k Hk) in EP, EG, EU. rewrite program in PU by lia. exists f'. split; [exact SM|]. split; [exact PU|]. split; [exact EP|]. split; [exact EF|].
    pose proof (run_arrays fwd ss_num_steps f d0 params h L FA k ltac:(unfold ss_num_steps; lia)) as T0. fold before in T0. destruct (same_num f f' SM) as (CE & QE).
    assert (T1 : four_arrays f' before) by (unfold four_arrays in *; rewrite CE; exact T0).
    destruct (update_cases tb (/ 20) LS f' P fuel (ss_sol st) before T1) as [(EU' & _)|(iv & EU' & F1 & K)]; rewrite EU' in EU; [discriminate|]. injection EU as EU. fold after in EU. subst iv. rewrite CE, QE in K.
    split; [unfold four_arrays in F1; rewrite CE in F1; exact F1|].
    assert (DF : forall c q, def_grad (sol_to_grad P f' (ss_sol st) c q) == deformation P f (ss_sol st) c q) by (intros c q a b Ha Hb; unfold def_grad, deformation, eye3; destruct SM as (_ & _ & _ & _ & _ & _ & G); rewrite G; reflexivity).
    assert (PKE : forall c q S, (c < num_cells f)%nat -> S_at tb (/ 20) LS f' P fuel (ss_sol st) before c q = Some S -> stress (ss_prob st) f' P (ss_sol st) c q = PK_at tb (/ 20) f' P (ss_sol st) before c q S).
    { intros c q S Hc HS. unfold stress. rewrite EP. change (tensor_map (maps (ss_problem tb LS fuel f' (/ 20) before))) with (Some (cp_tensor_map tb (/ 20) LS fuel)).
      assert (EI : iv_at (ss_problem tb LS fuel f' (/ 20) before) c q = [ckept before 0 c q; ckept before 1 c q; ckept before 2 c q; ckept before 3 c q]) by (refine (civ_kept f' (ss_problem tb LS fuel f' (/ 20) before) before c q T1 _); rewrite CE; exact Hc). rewrite EI. cbn [cp_tensor_map].
      unfold cp_stress. unfold S_at in HS. change (solved_S tb (/ 20) LS fuel (sol_to_grad P f' (ss_sol st) c q) (as_t (ckept before 0 c q)) (as_v (ckept before 1 c q)) (as_v (ckept before 2 c q)) (as_t (ckept before 3 c q)) = Some S) in HS. rewrite HS. reflexivity. }
    split.
    - intros c q Hc Hq F g M. destruct (K c q Hc Hq) as (S & ES1 & K1 & K2 & K3 & K4). split; [exact K4|]. exists S. cbv zeta. split.
      { pose proof ES1 as ES2. unfold S_at in ES2. pose proof (solved_gap _ _ _ _ _ _ _ _ _ _ ES2) as X. rewrite (size_ext _ _ (gap_ext tb (/ 20) _ F _ _ _ g _ M _ S (DF c q) (s_refl _) (fun _ _ => eq_refl) (s_refl _) (s_refl _))) in X. exact X. }
      unfold new_at in K1, K2, K3. fold g M in K1, K2, K3. split; [rewrite K1; apply Fp_new_spec|]. split.
      + intros s. rewrite K2, K3, slip_total, hardening. split; reflexivity.
      + intros V W. assert (EF1 : kept_Fp after c q == times (kept_Fp before c q) (fun a b => ident a b - flow tb (/ 20) g M S a b)) by (rewrite K1; apply Fp_new_spec).
        assert (V' : vol (def_grad (sol_to_grad P f' (ss_sol st) c q)) <> 0) by (rewrite (vol_ext _ _ (DF c q)); exact V).
        rewrite (vol_ext _ _ EF1) in W. intros a b Ha Hb. rewrite (vol_ext _ _ EF1), (PKE c q S Hc ES1). unfold PK_at. fold g M.
        etransitivity; [|etransitivity; [exact (pk_form tb (/ 20) _ _ _ (kept_slip before c q) M S V' W a b Ha Hb)|]].
        * f_equal. apply m_r; [|exact Ha|exact Hb]. intros x y Hx Hy. symmetry. apply DF; assumption.
        * apply conj_ext; [|apply s_refl|exact Ha|exact Hb]. unfold lattice. apply m_ext; [apply DF|]. apply s_sym, EF1.
    - intros J HJ HV.
      destruct (avg_cases tb (/ 20) LS f' P fuel (ss_sol st) before T1) as [(EG' & _)|(sg' & EG' & _ & KS)]; rewrite EG' in EG; [discriminate|]. injection EG as ->.
      pose (Tc := fun c q => match S_at tb (/ 20) LS f' P fuel (ss_sol st) before c q with Some x => x | None => fun _ _ => 0 end).
      rewrite EZ, (KS Tc); [|intros c' q' Hc' Hq'; destruct (K c' q' ltac:(lia) ltac:(lia)) as (S & ES1 & _); unfold Tc; rewrite ES1; reflexivity|lia].
      assert (EJ : sum (num_quads f') (fun q => get_JxW P f' 0 q) = J) by (unfold J; rewrite QE; apply Rsum_ext; intros q Hq; destruct SM as (_ & _ & _ & _ & _ & JE & _); apply JE). rewrite EJ.
      match goal with |- J * (?x / J) = _ => transitivity x; [req; field; exact HJ|] end. rewrite QE. apply sum_n_ext. intros q Hq. destruct (K 0%nat q NC Hq) as (S & ES1 & _). rewrite (PKE 0%nat q S NC ES1).
      assert (TS : Tc 0%nat q = S) by (unfold Tc; now rewrite ES1). rewrite TS. assert (JE : get_JxW P f' 0 q = get_JxW P f 0 q) by (destruct SM as (_ & _ & _ & _ & _ & JE & _); apply JE). rewrite JE. unfold P_to_sigma.
      pose proof (vol_ext _ _ (DF 0%nat q)) as VE. change (det (K := Rops) 3 (def_grad (sol_to_grad P f' (ss_sol st) 0 q))) with (vol (def_grad (sol_to_grad P f' (ss_sol st) 0 q))). rewrite VE. specialize (HV q Hq). cbv zeta.
      unfold mul3, times, trans3, transp. rewrite !sum3. rewrite !(DF 0%nat q) by lia. req; field. exact HV.
  Qed.
End Hist.
Lemma loop_errors tb LS P fuel fwd f : forall n i g d0 params e, same_mesh f g -> four_arrays f params -> ss_loop tb LS P fuel fwd n i g (vs_bc d0) params = Some (Err e) -> exists j p, fwd j p = Err e.
Proof.
  induction n as [|n IH]; intros i g d0 params e SM FA L; [discriminate|]. cbn [ss_loop] in L. destruct (set_disp g d0 (nth (i + 1) ss_disps 0)) as (f' & E & SM1 & _). rewrite E in L. cbv zeta in L. pose proof (same_trans _ _ _ SM SM1) as SM2. destruct (same_num f f' SM2) as (CE & QE).
  assert (FA' : four_arrays f' params) by (unfold four_arrays in *; rewrite CE; exact FA).
  destruct (fwd i _) as [sol|e'] eqn:EF; [|injection L as <-; eauto].
  destruct (avg_cases tb (ss_dt i) LS f' P fuel sol params FA') as [(EG & _)|(sg & EG & _)]; rewrite EG in L; [discriminate|].
  destruct (update_cases tb (ss_dt i) LS f' P fuel sol params FA') as [(EU & _)|(iv1 & EU & F1 & _)]; rewrite EU in L; [discriminate|].
  destruct (ss_loop _ _ _ _ _ n _ _ _ _) as [[rest|e']|] eqn:EL; [discriminate| |discriminate]. injection L as <-. apply (IH _ _ _ _ _ SM2 ltac:(unfold four_arrays in *; rewrite CE in F1; exact F1) EL).
Qed.
Lemma tet_corner (f : fe Rops) : fe_init (K := Rops) sqrt "TET4" one_point face_point tet_normals (ref_points "TET4") (one_cell "TET4") 3 3 None = Ok f -> corner_exact f.
Proof.
  intros B. assert (PE : points f = ref_points "TET4") by exact (built_points _ _ _ _ _ _ _ _ _ _ _ B). unfold corner_exact. rewrite PE. intros n Hn. cbv zeta. intros H0 H1 _. change (length (ref_points "TET4")) with 4%nat in Hn.
  assert (NB : near0 (INR 2 * / 2) -> False) by (intros X; apply (near01 _ X); unfold near1; replace (INR 2 * / 2 - 1) with 0 by (cbn; field); rewrite Rabs_R0; apply Rlt_le, Rmult_lt_0_compat; [lra|apply Rinv_0_lt_compat, pow_lt; lra]).
  destruct n as [|[|[|[|n]]]]; [..|lia]; cbn [ref_points mesh_nodes2 map nth] in *.
  - split; cbn; ring.
  - exfalso. exact (NB H0).
  - exfalso. exact (NB H1).
  - split; cbn; ring.
Qed.
Lemma rest_met (f : fe Rops) c q : vol (deformation (points f) f (still f) c q) <> 0.
Proof. assert (E : vol (deformation (points f) f (still f) c q) = 1) by exact (vol_ident _ (still_grad (points f) f f c q)). rewrite E. lra. Qed.
