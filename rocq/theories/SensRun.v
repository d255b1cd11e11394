(** The load history of C111. *)
From Coq Require Import Reals String List Arith Lia Lra Bool.
From Verif Require Import Num Arr ArrFacts BatchFacts Fe FeFacts GeomFacts SpecFe Problem SpecAssembly AssemblyFacts SpecWeak KernelFacts SpecEnergy Elastic ElasticFacts SpecBc SpecLinear Plasticity SpecPlasticity PlasticityFacts
  Lagrangian SpecLagrangian LagrangianFacts LagrangianMain FinPlast SpecFinPlast FinPlastFacts FinPlastMain CrystalPlast SpecCrystal CrystalFacts CrystalSolve CrystalMain CrystalUse
  HyperElastic Volume SpecVolume VolumeMain VolumeEnd VolumeSpin FinLoad FinLoadMain SensStress SensMain SpecSens.
Import ListNotations.
Local Open Scope R_scope.
Local Notation sum := (sum_n (K := Rops)).
Local Infix "==" := (same_on 3) (at level 70).

Lemma lin_nth (a b : R) n i : (i < n)%nat -> nth i (linspace a b n) 0 = a + INR i * ((b - a) / INR (n - 1)).
Proof. intros H. unfold linspace. rewrite (nth_indep _ 0 (a + INR 0 * ((b - a) / INR (n - 1)))) by (rewrite map_length, seq_length; exact H). rewrite (map_nth (fun i => a + INR i * ((b - a) / INR (n - 1)))), seq_nth by exact H. reflexivity. Qed.
Lemma program i : (i <= 10)%nat -> nth i ss_disps 0 = INR i / 2000.
Proof. intros H. unfold ss_disps. rewrite lin_nth by (cbn; lia). change (INR (ss_num_steps + 1 - 1)) with (INR 10). replace (INR 10) with 10 by (cbn; ring). field. Qed.
Lemma times_eq i : (i < 10)%nat -> ss_dt i = / 20.
Proof.
  intros H. unfold ss_dt, ss_ts. rewrite !lin_nth by (cbn; lia). change (INR (ss_num_steps + 1 - 1)) with (INR 10). replace (INR 10) with 10 by (cbn; ring). rewrite plus_INR. change (INR 1) with 1. field.
Qed.
Lemma set_disp (f : fe Rops) d0 d : exists f', set_scale get_dirichlet_top f (vs_bc d0) d = Ok (vs_bc d, f') /\ same_mesh f f' /\ pulled f f' d /\ num_nodes f' = num_nodes f /\
  (corner_exact f -> forall w u u', spun w (points f) u u' -> obeys f' u -> obeys f' u').
Proof.
  destruct (set_params f d0 d tt) as (f' & E & SM & PR). exists f'. pose proof E as E'. unfold vs_set_params in E. cbn [vs_bc fst snd] in E. unfold set_scale. cbn [vs_bc fst snd].
  unfold update_Dirichlet_boundary_conditions in *. destruct (Dirichlet_boundary_conditions _ _) as [[[ns vs] ws]|e]; [|discriminate]. cbn [bind] in *. injection E as <-. split; [reflexivity|]. split; [exact SM|]. split; [exact PR|]. split; [reflexivity|].
  intros EX w u u'. exact (spin_obeys f _ d0 d tt w u u' E' EX).
Qed.
Lemma same_num f f' : same_mesh f f' -> num_cells f' = num_cells f /\ num_quads f' = num_quads f.
Proof. intros (_ & C & _ & _ & Q & _). unfold num_cells. rewrite C. split; [reflexivity|exact Q]. Qed.
Lemma agree_same f f' a b : same_mesh f f' -> agree f a b <-> agree f' a b.
Proof. intros SM. destruct (same_num f f' SM) as (C & Q). unfold agree, four_arrays. rewrite C, Q. reflexivity. Qed.

Section Run.
  Variables (tb : list (list R)) (LS : tensor -> vect -> vect) (P : list (list Rops)) (fuel : nat).
  Lemma loop_spec fwd : forall n i f d0 params h, ss_loop tb LS P fuel fwd n i f (vs_bc d0) params = Some (Ok h) -> length h = n /\ forall k, (k < n)%nat -> let st := step_at h k in let before := before_at params h k in
    exists f', same_mesh f f' /\ pulled f f' (nth (i + k + 1) ss_disps 0) /\ ss_prob st = ss_problem tb LS fuel f' (ss_dt (i + k)) before /\ fwd (i + k)%nat (ss_prob st) = Ok (ss_sol st) /\
      (exists sg, compute_avg_stress tb (ss_dt (i + k)) LS f' P fuel (ss_sol st) before = Some (Ok sg) /\ ss_zz st = nth 0 sg (fun _ _ => 0) 2%nat 2%nat) /\
      cp_update_gp tb (ss_dt (i + k)) LS f' P fuel (ss_sol st) before = Some (Ok (ss_vars st)).
  Proof.
    induction n as [|n IH]; intros i f d0 params h L; [cbn in L; injection L as <-; split; [reflexivity|lia]|].
    cbn [ss_loop] in L. destruct (set_disp f d0 (nth (i + 1) ss_disps 0)) as (f' & E & SM & PU & _). rewrite E in L. cbv zeta in L.
    destruct (fwd i _) as [sol|e] eqn:EF; [|discriminate]. destruct (compute_avg_stress _ _ _ _ _ _ _ _) as [[sg|e]|] eqn:EG; [|discriminate..]. destruct (cp_update_gp _ _ _ _ _ _ _ _) as [[iv1|e]|] eqn:EU; [|discriminate..].
    destruct (ss_loop _ _ _ _ _ n _ _ _ _) as [[rest|e]|] eqn:EL; [|discriminate..]. injection L as <-. destruct (IH _ _ _ _ _ EL) as (LN & H). split; [cbn; now rewrite LN|]. intros [|k] Hk.
    - cbv zeta. exists f'. rewrite Nat.add_0_r. split; [exact SM|]. split; [exact PU|]. split; [reflexivity|]. split; [exact EF|]. split; [|exact EU]. exists sg. split; [exact EG|reflexivity].
    - destruct (H k ltac:(lia)) as (g & G1 & G2 & G3). exists g. split; [exact (same_trans _ _ _ SM G1)|].
      replace (i + Datatypes.S k)%nat with (Datatypes.S i + k)%nat by lia. split; [unfold pulled in *; destruct SM as (<- & _); exact G2|]. exact G3.
  Qed.
End Run.

Section Spin.
  Variables (tb : list (list R)) (LS : tensor -> vect -> vect) (fuel : nat) (s : string) (f0 : fe Rops).
  Hypothesis B : built_element s 3 f0.
  Hypothesis VEC : vec f0 = 3%nat.
  Hypothesis NC : (0 < num_cells f0)%nat.
  Hypothesis NZ : forall c q, (c < num_cells f0)%nat -> (q < num_quads f0)%nat -> get_JxW (points f0) f0 c q <> 0.
  Hypothesis EX : corner_exact f0.
  Variable sols' : nat -> list (list Rops).
  Let P := points f0.
  Lemma new_regular dt f u ivs iv1 : cp_update_gp tb dt LS f P fuel u ivs = Some (Ok iv1) -> four_arrays f ivs -> (forall c q, (c < num_cells f)%nat -> (q < num_quads f)%nat -> vol (kept_Fp iv1 c q) <> 0) ->
    forall c q S, (c < num_cells f)%nat -> (q < num_quads f)%nat -> S_at tb dt LS f P fuel u ivs c q = Some S -> vol (times (kept_Fp ivs c q) (fun i j => ident i j - flow tb dt (kept_g ivs c q) (kept_rot ivs c q) S i j)) <> 0.
  Proof.
    intros E F V c q S Hc Hq ES. destruct (update_cases tb dt LS f P fuel u ivs F) as [(E' & _)|(iv & E' & _ & K)]; rewrite E' in E; [discriminate|]. injection E as ->. destruct (K c q Hc Hq) as (S' & ES' & K1 & _). rewrite ES in ES'. injection ES' as <-.
    specialize (V c q Hc Hq). rewrite K1 in V. rewrite <- (vol_ext _ _ (Fp_new_spec tb dt (sol_to_grad P f u c q) (kept_Fp ivs c q) (kept_g ivs c q) (kept_slip ivs c q) (kept_rot ivs c q) S)). exact V.
  Qed.
  Lemma spin_loop fwd : forall n i f d0 params params' h, same_mesh f0 f -> num_nodes f = num_nodes f0 -> agree f0 params params' -> ss_loop tb LS P fuel fwd n i f (vs_bc d0) params = Some (Ok h) ->
    (forall k, (k < n)%nat -> fits f0 (ss_sol (step_at h k)) /\ fits f0 (sols' (i + k)%nat) /\ (exists w, spun w P (ss_sol (step_at h k)) (sols' (i + k)%nat)) /\
      forall c q, (c < num_cells f0)%nat -> (q < num_quads f0)%nat -> vol (deformation P f0 (ss_sol (step_at h k)) c q) <> 0 /\ vol (kept_Fp (ss_vars (step_at h k)) c q) <> 0) ->
    exists h', ss_loop tb LS P fuel (fun j _ => Ok (sols' j)) n i f (vs_bc d0) params' = Some (Ok h') /\ length h' = n /\ forall k, (k < n)%nat -> let st := step_at h k in let st' := step_at h' k in
      ss_sol st' = sols' (i + k)%nat /\ ss_zz st' = ss_zz st /\ agree f0 (ss_vars st) (ss_vars st') /\ (solves (ss_prob st) [P] [ss_sol st] -> solves (ss_prob st') [P] [ss_sol st']).
  Proof.
    induction n as [|n IH]; intros i f d0 params params' h SM NN AG L HY; [exists []; split; [reflexivity|split; [reflexivity|lia]]|].
    cbn [ss_loop] in L |- *. destruct (set_disp f d0 (nth (i + 1) ss_disps 0)) as (f' & E & SM1 & PU & NN1 & OB). rewrite E in L. rewrite E. cbv zeta in L |- *.
    destruct (fwd i _) as [sol|e] eqn:EF; [|discriminate]. destruct (compute_avg_stress _ _ _ _ _ _ _ _) as [[sg|e]|] eqn:EG; [|discriminate..]. destruct (cp_update_gp _ _ _ _ _ _ _ _) as [[iv1|e]|] eqn:EU; [|discriminate..].
    destruct (ss_loop _ _ _ _ _ n _ _ _ _) as [[rest|e]|] eqn:EL; [|discriminate..]. injection L as <-.
    pose proof (same_trans _ _ _ SM SM1) as SM2. pose proof (HY 0%nat ltac:(lia)) as H0. rewrite Nat.add_0_r in H0. unfold step_at in H0. cbn [nth ss_sol ss_vars] in H0. destruct H0 as ((LU & RU) & (LU' & RU') & (w & SP) & V).
    destruct (same_num f0 f' SM2) as (CE & QE). pose proof (proj1 (agree_same f0 f' _ _ SM2) AG) as AG'.
    assert (VF : forall c q, (c < num_cells f')%nat -> (q < num_quads f')%nat -> vol (def_grad (sol_to_grad P f' sol c q)) <> 0).
    { intros c q Hc Hq. rewrite CE in Hc. rewrite QE in Hq. rewrite (vol_ext _ (deformation P f0 sol c q)); [exact (proj1 (V c q Hc Hq))|]. intros a b Ha Hb. unfold def_grad, deformation, eye3. destruct SM2 as (_ & _ & _ & _ & _ & _ & G). rewrite G. reflexivity. }
    assert (VN := new_regular _ f' sol params iv1 EU (proj1 AG') ltac:(intros c q Hc Hq; rewrite CE in Hc; rewrite QE in Hq; exact (proj2 (V c q Hc Hq)))).
    destruct (zz_turned tb (ss_dt i) LS fuel s f0 f' f' P sol (sols' i) w params params' B SM2 SM2 eq_refl LU SP AG' NZ VF VN sg EG) as (sg' & EG' & ZZ).
    destruct (update_turned tb (ss_dt i) LS fuel s f0 f' f' P sol (sols' i) w params params' B SM2 SM2 eq_refl LU SP AG' NZ iv1 EU) as (iv1' & EU' & AG1).
    rewrite EG', EU'. assert (AG2 : agree f0 iv1 iv1') by exact (proj2 (agree_same f0 f' _ _ SM2) AG1).
    destruct (IH (Datatypes.S i) f' (nth (i + 1) ss_disps 0) iv1 iv1' rest SM2 ltac:(congruence) AG2 EL) as (h' & EL' & LN & H).
    { intros k Hk. specialize (HY (Datatypes.S k) ltac:(lia)). replace (i + Datatypes.S k)%nat with (Datatypes.S i + k)%nat in HY by lia. exact HY. }
    rewrite EL'. eexists. split; [reflexivity|]. split; [cbn; now rewrite LN|]. intros [|k] Hk; cbv zeta.
    - rewrite Nat.add_0_r. split; [reflexivity|]. split; [unfold step_at; cbn [nth ss_zz]; apply ZZ; rewrite CE; exact NC|]. split; [exact AG2|].
      change (solves (ss_problem tb LS fuel f' (ss_dt i) params) [P] [sol] -> solves (ss_problem tb LS fuel f' (ss_dt i) params') [P] [sols' i]).
      assert (PE : points f = points f0) by (destruct SM as (-> & _); reflexivity). assert (PE' : points f' = points f0) by (destruct SM2 as (-> & _); reflexivity).
      apply (solves_turned tb (ss_dt i) LS fuel s f0 f' P sol (sols' i) w params params' B SM2); try assumption; try reflexivity.
      + intros c Hc. pose proof (proj1 (proj2 (proj2 B))) as MESH. destruct SM2 as (_ & C2 & _). rewrite C2 in *. destruct (MESH c Hc) as (M1 & M2). rewrite NN1, NN, PE'. split; [exact M1|exact M2].
      + intros n0 k0 Hn Hk0 PN. rewrite PE', <- PE in Hn. destruct (PU n0 Hn) as (P01 & _). 
        assert (NCN : ~ (near0 (nth 0 (nth n0 (points f) []) 0) /\ near0 (nth 1 (nth n0 (points f) []) 0) /\ near0 (nth 2 (nth n0 (points f) []) 0))) by (intros C; rewrite (proj1 (P01 k0 Hk0) C) in PN; discriminate).
        split; [exact (proj2 (P01 0%nat ltac:(lia)) NCN)|exact (proj2 (P01 1%nat ltac:(lia)) NCN)].
      + intros n0 k0 Hn Hk0. rewrite PE', <- PE in Hn. destruct (PU n0 Hn) as (_ & _ & _ & _ & P3). exact (P3 k0 Hk0).
      + split; [reflexivity|]. intros v Hv. destruct v as [|v]; [|cbn in Hv; lia]. change (fe_of _ 0) with f'. cbn [nth]. destruct SM2 as (_ & _ & VE & _). rewrite PE', VE. split; [exact LU'|exact RU'].
      + intros O. apply (OB ltac:(unfold corner_exact in *; rewrite PE; exact EX) w sol (sols' i)); [rewrite PE; exact SP|exact O].
    - replace (i + Datatypes.S k)%nat with (Datatypes.S i + k)%nat by lia. exact (H k ltac:(lia)).
  Qed.
End Spin.
