(** Start of the history of C111, one step, and a history at rest. *)
From Coq Require Import Reals String List Arith Lia Lra Bool.
From Verif Require Import Num Arr ArrFacts BatchFacts Fe FeFacts GeomFacts SpecFe Problem SpecAssembly AssemblyFacts SpecWeak KernelFacts SpecEnergy Elastic ElasticFacts SpecBc SpecLinear Plasticity SpecPlasticity PlasticityFacts
  Lagrangian SpecLagrangian LagrangianFacts LagrangianMain FinPlast SpecFinPlast FinPlastFacts FinPlastMain CrystalPlast SpecCrystal CrystalFacts CrystalSolve CrystalMain CrystalUse
  HyperElastic Volume SpecVolume VolumeMain VolumeEnd VolumeSpin FinLoad FinLoadMain SensStress SensMain SpecSens SensRun.
Import ListNotations.
Local Open Scope R_scope.
Local Notation sum := (sum_n (K := Rops)).
Local Infix "==" := (same_on 3) (at level 70).

Lemma start tb (f : fe Rops) alpha : (length tb mod 3 = 0)%nat -> (3 <= dim f)%nat -> exists iv0 params, cp_init tb f ss_quat (ss_inds f) = Ok iv0 /\ ss_params alpha iv0 = Ok params /\ four_arrays f params /\
  forall c q, (c < num_cells f)%nat -> kept_Fp params c q = ident /\ kept_rot params c q == ident /\ forall s, kept_g params c q s = alpha * (608 / 10) /\ kept_slip params c q s = 0.
Proof.
  intros H H'. assert (IN : exists iv0, cp_init tb f ss_quat (ss_inds f) = Ok iv0) by (unfold cp_init, num_slip_sys; rewrite H; apply Nat.ltb_ge in H'; rewrite H'; now eexists). destruct IN as (iv0 & IN). exists iv0.
  assert (LI : length (ss_inds f) = num_cells f) by apply repeat_length. destruct (cinit tb f ss_quat (ss_inds f) iv0 IN LI) as ((a & b & c0 & d & -> & L1 & L2 & L3 & L4) & KI). eexists. split; [exact IN|]. split; [reflexivity|]. split.
  { exists a, (map (fun col q => scale_var alpha (col q)) b), c0, d. rewrite map_length. auto. }
  intros c q Hc. destruct (KI c q Hc) as (K1 & K2 & K3 & K4). split; [exact K1|]. split.
  { change (kept_rot [a; b; c0; d] c q == ident). rewrite K4. unfold orientation, ss_inds. rewrite nth_repeat. cbn [Nat.min nth ss_quat length Nat.sub]. intros i j Hi Hj. revert i Hi. apply three_cases; revert j Hj; apply three_cases; unfold get_rot_mat, ident; cbn [nth Nat.eqb]; req; ring. }
  intros s. split; [|apply K3]. unfold kept_g, ckept in *. cbn [nth] in *. rewrite (nth_map_in _ _ _ (fun _ => CV (fun _ => 0))) by (rewrite L2; exact Hc).
  assert (EV : exists v, nth c b (fun _ => CV (fun _ => 0)) q = CV v).
  { unfold cp_init in IN. destruct (negb _); [discriminate|]. destruct (dim f <? 3)%nat; [discriminate|]. injection IN as _ <- _ _. rewrite (nth_indep _ _ (fun _ => CV (fun _ => gss_initial * 1))) by (rewrite repeat_length; exact Hc). rewrite nth_repeat. now eexists. }
  destruct EV as (v & EV). specialize (K2 s). rewrite EV in K2 |- *. cbn [scale_var as_v] in *. now rewrite K2.
Qed.

Section Rest.
  Variables (tb : list (list R)) (dt : R) (LS : tensor -> vect -> vect) (fuel : nat).
  Lemma rest_S G Fp g sl M : def_grad G == ident -> Fp == ident -> exists S, solved_S tb dt LS fuel G Fp g sl M = Some S /\ S == (fun _ _ => 0).
  Proof.
    intros HG HF. set (z := fun _ : nat => 0). assert (Z : unflatten_fn z == (fun _ _ => 0)) by (intros i j _ _; reflexivity).
    assert (FL : flow tb dt g M (unflatten_fn z) == (fun _ _ => 0)) by (apply slip_none; intros s _; apply resolved_zero, Z).
    assert (LA : lattice tb dt (def_grad G) Fp g M (unflatten_fn z) == ident).
    { intros i j Hi Hj. unfold lattice, times. rewrite !sum3. rewrite !HG, !HF, !FL by lia. revert i Hi. apply three_cases; revert j Hj; apply three_cases; unfold ident; cbn [Nat.eqb]; req; ring. }
    assert (GA : law_gap tb dt (def_grad G) Fp g M (unflatten_fn z) == (fun _ _ => 0)).
    { intros i j Hi Hj. unfold law_gap. rewrite (Z i j Hi Hj). assert (GR : green (lattice tb dt (def_grad G) Fp g M (unflatten_fn z)) == (fun _ _ => 0)).
      { eapply s_trans; [apply green_ext, LA|]. intros a b Ha Hb. unfold green. rewrite sum3. revert a Ha. apply three_cases; revert b Hb; apply three_cases; unfold ident; cbn [Nat.eqb]; req; field. }
      rewrite (turned_ext M M _ _ (s_refl M) GR i j Hi Hj). unfold turned_law, conj3, cubic_law, trace, times, transp. rewrite !sum3. cbn [Nat.eqb]. req; ring. }
    exists (unflatten_fn z). split; [|exact Z]. unfold solved_S, newton_solver. fold z. cbv zeta. destruct fuel as [|fu]; cbn [newton_loop fst snd]; (destruct (Rlt_dec tol _) as [L|L]; [|reflexivity]); exfalso; rewrite residual_params, norm9_size, (size_zero _ GA) in L; unfold tol in L; assert (0 < / 10 ^ 8) by (apply Rinv_0_lt_compat, pow_lt; lra); lra.
  Qed.
  Lemma rest_Fp G Fp g sl M S : Fp == ident -> S == (fun _ _ => 0) -> Fp_inv_new (helper tb dt G Fp g sl M S) == ident.
  Proof.
    intros HF HS. eapply s_trans; [apply Fp_new_spec|]. assert (FL : flow tb dt g M S == (fun _ _ => 0)) by (apply slip_none; intros s _; apply resolved_zero, HS).
    intros i j Hi Hj. unfold times. rewrite !sum3. rewrite !HF, !FL by lia. revert i Hi. apply three_cases; revert j Hj; apply three_cases; unfold ident; cbn [Nat.eqb]; req; ring.
  Qed.
End Rest.
Definition still (f : fe Rops) : list (list Rops) := map (fun _ => [0; 0; 0]) (points f).
Lemma still_fits f : vec f = 3%nat -> fits f (still f).
Proof. intros V. unfold still. split; [now rewrite map_length|]. intros row H. apply in_map_iff in H. destruct H as (x & <- & _). now rewrite V. Qed.
Lemma still_grad P f g c q : def_grad (sol_to_grad P f (still g) c q) == ident.
Proof.
  intros i j Hi Hj. unfold def_grad, eye3, ident. assert (E : sol_to_grad P f (still g) c q i j = 0); [|rewrite E; req; ring].
  unfold sol_to_grad. transitivity (sum (num_nodes f) (fun _ => 0)); [|rewrite Rsum_const; req; ring]. apply Rsum_ext. intros a Ha.
  assert (Z : cell_sol_at f (still g) c a i = 0).
  { unfold cell_sol_at, gather. set (m := Nat.min _ _). unfold still. destruct (lt_dec m (length (points g))) as [L|L].
    - rewrite (nth_indep _ [] [0; 0; 0]) by (rewrite map_length; exact L). rewrite (map_nth (fun _ : list Rops => [0; 0; 0]) (points g) [] m : nth m (map _ _) [0; 0; 0] = _). destruct i as [|[|[|i]]]; [reflexivity..|lia].
    - rewrite (nth_overflow (map (fun _ : list Rops => [0; 0; 0]) (points g))) by (rewrite map_length; lia). destruct i; reflexivity. }
  etransitivity; [exact (f_equal (fun z => z * get_shape_grads P f c q a j) Z)|]. req. ring.
Qed.
Lemma vol_ident A : A == ident -> vol A = 1.
Proof. intros H. rewrite (vol_ext _ _ H). unfold vol. cbn. unfold ident. cbn [Nat.eqb]. req. ring. Qed.
Definition rests (f : fe Rops) (ivs : list (list (nat -> cp_var))) : Prop := four_arrays f ivs /\ forall c q, (c < num_cells f)%nat -> (q < num_quads f)%nat -> kept_Fp ivs c q == ident.
Lemma rest_loop tb LS fuel (f0 : fe Rops) : forall n i f d0 params, same_mesh f0 f -> rests f0 params -> exists h, ss_loop tb LS (points f0) fuel (fun _ _ => Ok (still f0)) n i f (vs_bc d0) params = Some (Ok h) /\ length h = n /\
  forall k, (k < n)%nat -> ss_sol (step_at h k) = still f0 /\ rests f0 (ss_vars (step_at h k)).
Proof.
  induction n as [|n IH]; intros i f d0 params SM (FA & KF); [exists []; split; [reflexivity|split; [reflexivity|lia]]|].
  cbn [ss_loop]. destruct (set_disp f d0 (nth (i + 1) ss_disps 0)) as (f' & E & SM1 & _). rewrite E. cbv zeta. pose proof (same_trans _ _ _ SM SM1) as SM2. destruct (same_num f0 f' SM2) as (CE & QE).
  assert (FA' : four_arrays f' params) by (unfold four_arrays in *; rewrite CE; exact FA).
  assert (ALL : forall c q, (c < num_cells f')%nat -> (q < num_quads f')%nat -> exists S, S_at tb (ss_dt i) LS f' (points f0) fuel (still f0) params c q = Some S /\ S == (fun _ _ => 0)).
  { intros c q Hc Hq. rewrite CE in Hc. rewrite QE in Hq. apply rest_S; [apply still_grad|exact (KF c q Hc Hq)]. }
  destruct (avg_cases tb (ss_dt i) LS f' (points f0) fuel (still f0) params FA') as [(_ & C)|(sg & EG & _)]; [exfalso; apply C; intros c q Hc Hq; destruct (ALL c q Hc Hq) as (S & ES & _); now exists S|].
  destruct (update_cases tb (ss_dt i) LS f' (points f0) fuel (still f0) params FA') as [(_ & C)|(iv1 & EU & F1 & K)]; [exfalso; apply C; intros c q Hc Hq; destruct (ALL c q Hc Hq) as (S & ES & _); now exists S|].
  rewrite EG, EU. assert (R1 : rests f0 iv1).
  { split; [unfold four_arrays in *; rewrite CE in F1; exact F1|]. intros c q Hc Hq. destruct (K c q ltac:(lia) ltac:(lia)) as (S & ES & K1 & _). destruct (ALL c q ltac:(lia) ltac:(lia)) as (S' & ES' & Z). rewrite ES in ES'. injection ES' as <-. rewrite K1. apply rest_Fp; [exact (KF c q Hc Hq)|exact Z]. }
  destruct (IH (Datatypes.S i) f' (nth (i + 1) ss_disps 0) iv1 SM2 R1) as (h & EL & LN & H). rewrite EL. eexists. split; [reflexivity|]. split; [cbn; now rewrite LN|]. intros [|k] Hk; [split; [reflexivity|exact R1]|]. exact (H k ltac:(lia)).
Qed.
(** the points turned by a right angle *)
Definition right_angle (f : fe Rops) : list (list Rops) := map (fun x => [- nth 1 x 0 - nth 0 x 0; nth 0 x 0 - nth 1 x 0; 0]) (points f).
Lemma angle_fits f : vec f = 3%nat -> fits f (right_angle f).
Proof. intros V. unfold right_angle. split; [now rewrite map_length|]. intros row H. apply in_map_iff in H. destruct H as (x & <- & _). now rewrite V. Qed.
Lemma angle_spun f : spun (PI / 2) (points f) (still f) (right_angle f).
Proof.
  split; [unfold right_angle; now rewrite map_length|]. intros n Hn. rewrite cos_PI2, sin_PI2. unfold still, right_angle. rewrite (nth_map_in _ _ _ ([] : list Rops)), (nth_map_in _ _ _ ([] : list Rops)) by exact Hn. cbn [nth]. cbv zeta. generalize (nth n (points f) []). intros x. repeat split; req; cbn [car Rops]; ring.
Qed.

(** ** one step *)
Section Step.
  Variables (tb : list (list R)) (LS : tensor -> vect -> vect) (fuel : nat) (s : string) (f0 f' : fe Rops) (d0 d dt : R).
  Hypothesis B : built_element s 3 f0.
  Hypothesis VEC : vec f0 = 3%nat.
  Hypothesis NC : (0 < num_cells f0)%nat.
  Hypothesis SE : set_scale get_dirichlet_top f0 (ss_bc d0) d = Ok (ss_bc d, f').
  Lemma set_facts : same_mesh f0 f' /\ pulled f0 f' d /\ num_nodes f' = num_nodes f0 /\ (corner_exact f0 -> forall w u u', spun w (points f0) u u' -> obeys f' u -> obeys f' u').
  Proof. destruct (set_disp f0 d0 d) as (g & E & H). unfold ss_bc in SE. rewrite E in SE. injection SE as <-. exact H. Qed.
  Lemma mesh_f : mesh_ok f'.
  Proof. destruct set_facts as ((PE & CE & _) & _ & NN & _). intros c Hc. pose proof (proj1 (proj2 (proj2 B))) as MESH. rewrite CE in *. destruct (MESH c Hc) as (M1 & M2). rewrite NN, PE. split; [exact M1|exact M2]. Qed.
  Lemma sol_f ivs u : fits f0 u -> sol_ok (ss_problem tb LS fuel f' dt ivs) [u].
  Proof. destruct set_facts as ((PE & _ & VE & _) & _). intros (L & R). split; [reflexivity|]. intros v Hv. destruct v as [|v]; [|cbn in Hv; lia]. change (fe_of _ 0) with f'. cbn [nth]. rewrite PE, VE. split; [exact L|exact R]. Qed.
  Hypothesis NZ : forall c q, (c < num_cells f0)%nat -> (q < num_quads f0)%nat -> get_JxW (points f0) f0 c q <> 0.
  Lemma step_solves w u u' ivs : corner_exact f0 -> state_of f0 ivs -> fits f0 u -> fits f0 u' -> spun w (points f0) u u' ->
    (forall c q, (c < num_cells f0)%nat -> (q < num_quads f0)%nat -> vol (deformation (points f0) f0 u c q) <> 0) ->
    (exists iv1, cp_update_gp tb dt LS f' (points f0) fuel u ivs = Some (Ok iv1) /\ forall c q, (c < num_cells f0)%nat -> (q < num_quads f0)%nat -> vol (kept_Fp iv1 c q) <> 0) ->
    solves (ss_problem tb LS fuel f' dt ivs) [points f0] [u] -> solves (ss_problem tb LS fuel f' dt ivs) [points f0] [u'].
  Proof.
    intros EX FA FU FU' SP V (iv1 & EU & VP). destruct set_facts as (SM & PU & NN & OB). destruct (same_num f0 f' SM) as (CE & QE). assert (PE : points f' = points f0) by (destruct SM as (-> & _); reflexivity).
    assert (FA' : four_arrays f' ivs) by (unfold four_arrays; rewrite CE; exact FA).
    apply (solves_turned tb dt LS fuel s f0 f' (points f0) u u' w ivs ivs B SM mesh_f VEC eq_refl (proj1 FU) SP).
    - split; [exact FA'|]. split; [exact FA'|]. intros. repeat split; reflexivity.
    - exact NC.
    - exact NZ.
    - intros c q Hc Hq. rewrite CE in Hc. rewrite QE in Hq. rewrite (vol_ext _ (deformation (points f0) f0 u c q)); [exact (V c q Hc Hq)|]. intros a b Ha Hb. unfold def_grad, deformation, eye3. destruct SM as (_ & _ & _ & _ & _ & _ & G). rewrite G. reflexivity.
    - apply (new_regular tb LS fuel f0 dt f' u ivs iv1 EU FA'). intros c q Hc Hq. rewrite CE in Hc. rewrite QE in Hq. exact (VP c q Hc Hq).
    - intros n0 k0 Hn Hk0 PN. rewrite PE in Hn. destruct (PU n0 Hn) as (P01 & _).
      assert (NCN : ~ (near0 (nth 0 (nth n0 (points f0) []) 0) /\ near0 (nth 1 (nth n0 (points f0) []) 0) /\ near0 (nth 2 (nth n0 (points f0) []) 0))) by (intros C; rewrite (proj1 (P01 k0 Hk0) C) in PN; discriminate).
      split; [exact (proj2 (P01 0%nat ltac:(lia)) NCN)|exact (proj2 (P01 1%nat ltac:(lia)) NCN)].
    - intros n0 k0 Hn Hk0. rewrite PE in Hn. destruct (PU n0 Hn) as (_ & _ & _ & _ & P3). exact (P3 k0 Hk0).
    - apply sol_f, FU'.
    - exact (OB EX w u u' SP).
  Qed.
  Lemma still_solves ivs : d = 0 -> rests f0 ivs -> solves (ss_problem tb LS fuel f' dt ivs) [points f0] [still f0].
  Proof.
    intros D0 (FA & KF). destruct set_facts as (SM & PU & NN & OB). destruct (same_num f0 f' SM) as (CE & QE). assert (PE : points f' = points f0) by (destruct SM as (-> & _); reflexivity).
    assert (FA' : four_arrays f' ivs) by (unfold four_arrays in *; rewrite CE; exact FA). assert (NC' : (0 < num_cells f0)%nat) by exact NC.
    set (p := ss_problem tb LS fuel f' dt ivs).
    assert (SU : sol_ok p [still f0]) by apply sol_f, still_fits, VEC.
    destruct (residual_weak Rops_ring sqrt p f' (points f0) (still f0) (wf_p tb dt LS fuel f' mesh_f ivs) (nc_p tb dt LS fuel f0 f' SM NC ivs) (std_p tb dt LS fuel f' ivs) SU (ivs_p tb dt LS fuel f0 f' (points f0) (still f0) VEC eq_refl (proj1 (still_fits f0 VEC)) NC ivs FA') (maps_p tb dt LS fuel s f0 f' B SM VEC ivs)) as (r & E & _ & H).
    split; [exact SU|]. exists [r]. split; [exact E|]. intros v n j Hv Hn Hj. destruct v as [|v]; [|cbn in Hv; lia]. change (fe_of p 0) with f' in *. cbn [nth].
    destruct (prescribed f' n j) as [b|] eqn:PR.
    - assert (b = 0) as ->.
      { pose proof Hn as Hn0. rewrite PE in Hn0. destruct (PU n Hn0) as (P01 & P20 & P21 & P2N & P3). rewrite D0 in P21. clear - P01 P20 P21 P2N P3 PR.
        set (x := fun k => nth k (nth n (points f0) []) 0) in *. destruct j as [|[|[|j]]].
        - destruct (P01 0%nat ltac:(lia)) as (PC & PN). destruct (Rle_dec (Rabs (x 0%nat)) (/ 10 ^ 5)) as [H0|H0], (Rle_dec (Rabs (x 1%nat)) (/ 10 ^ 5)) as [H1|H1], (Rle_dec (Rabs (x 2%nat)) (/ 10 ^ 5)) as [H2|H2];
            first [rewrite (PC (conj H0 (conj H1 H2))) in PR; now injection PR as <-|exfalso; rewrite PN in PR; [discriminate|intros (A0 & A1 & A2); contradiction]].
        - destruct (P01 1%nat ltac:(lia)) as (PC & PN). destruct (Rle_dec (Rabs (x 0%nat)) (/ 10 ^ 5)) as [H0|H0], (Rle_dec (Rabs (x 1%nat)) (/ 10 ^ 5)) as [H1|H1], (Rle_dec (Rabs (x 2%nat)) (/ 10 ^ 5)) as [H2|H2];
            first [rewrite (PC (conj H0 (conj H1 H2))) in PR; now injection PR as <-|exfalso; rewrite PN in PR; [discriminate|intros (A0 & A1 & A2); contradiction]].
        - destruct (Rle_dec (Rabs (x 2%nat)) (/ 10 ^ 5)) as [H2|H2]; [rewrite (P20 H2) in PR; now injection PR as <-|]. destruct (Rle_dec (Rabs (x 2%nat - 1)) (2 / 10 ^ 5)) as [H3|H3]; [rewrite (P21 H3) in PR; now injection PR as <-|]. rewrite (P2N H2 H3) in PR. discriminate.
        - rewrite P3 in PR by lia. discriminate. }
      rewrite PE in Hn. unfold get2, still. rewrite (nth_map_in _ _ _ ([] : list Rops)) by exact Hn. destruct j as [|[|[|j]]]; [reflexivity..|destruct j; reflexivity].
    - rewrite (H n j Hn Hj).
      assert (Z : forall c a, (c < num_cells f')%nat -> volume_term p f' (points f0) (still f0) c a j = 0).
      { intros c a Hc. unfold volume_term. transitivity (sum (num_quads f') (fun _ => 0)); [|rewrite Rsum_const; req; ring]. apply Rsum_ext. intros q Hq.
        assert (V3 : vec f' = 3%nat) by (destruct SM as (_ & _ & -> & _); exact VEC). rewrite V3 in Hj. assert (D3 : dim f' = 3%nat) by exact (dim_f s f0 f' B SM). rewrite D3.
        assert (SZ : forall m, (m < 3)%nat -> stress p f' (points f0) (still f0) c q j m = 0).
        { intros m Hm. unfold stress. change (tensor_map (maps p)) with (Some (cp_tensor_map tb dt LS fuel)).
          assert (EI : iv_at p c q = [ckept ivs 0 c q; ckept ivs 1 c q; ckept ivs 2 c q; ckept ivs 3 c q]) by exact (civ_kept f' p ivs c q FA' Hc). rewrite EI. unfold cp_tensor_map, cp_stress.
          destruct (rest_S tb dt LS fuel (sol_to_grad (points f0) f' (still f0) c q) (kept_Fp ivs c q) (kept_g ivs c q) (kept_slip ivs c q) (kept_rot ivs c q) (still_grad _ _ _ _ _) (KF c q ltac:(lia) ltac:(lia))) as (S & ES & ZS).
          unfold kept_Fp, kept_g, kept_slip, kept_rot in ES. rewrite ES. cbn [option_map]. unfold PK_of. cbv zeta. unfold mul3. rewrite !sum3. rewrite !ZS by lia. req; ring. }
        change (source p f' (points f0) (still f0) c q j) with (@zero Rops).
        assert (T : sum 3 (fun m => stress p f' (points f0) (still f0) c q j m * get_shape_grads (points f0) f' c q a m) = 0).
        { transitivity (sum 3 (fun _ => 0)); [|rewrite Rsum_const; req; ring]. apply Rsum_ext. intros m Hm. rewrite (SZ m Hm). exact (Rmult_0_l _). }
        etransitivity; [exact (f_equal (fun z => (z + @zero Rops * shape_vals f' q a) * get_JxW (points f0) f' c q) T)|]. req. cbn [zero Rops]. ring. }
      transitivity (sum (p_num_cells p) (fun c => 0) + 0); [|rewrite Rsum_const; req; ring]. apply f_equal2; [|reflexivity]. apply Rsum_ext. intros c Hc. transitivity (sum (num_nodes f') (fun _ => 0)); [|rewrite Rsum_const; req; ring]. apply Rsum_ext. intros a Ha. destruct (_ =? _)%nat; [exact (Z c a Hc)|reflexivity].
  Qed.
End Step.
