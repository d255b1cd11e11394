(** C90: finite-strain plasticity. *)
From Coq Require Import Reals List Arith Lia Lra Bool.
From Verif Require Import Num Arr ArrFacts Fe SpecFe Problem SpecAssembly SpecWeak SpecEnergy SpecPatch PatchFacts Elastic ElasticFacts Plasticity SpecPlasticity PlasticityFacts Lagrangian SpecLagrangian LagrangianMain
  FinPlast SpecFinPlast FinPlastFacts FinPlastMain FinPlastUse Properties_fe.
Import ListNotations.
Local Open Scope R_scope.

(** C90. One step from the deformation gradient Fo, the elastic strain bo and the hardening a to the displacement gradient G; f is the deformation
    in between and bt the elastic strain if the step were elastic.  The new strain is symmetric and positive, its shear stress does not exceed the
    strength at the new hardening, which is not less than the old one; its trace is that of bt.  If bt is within the strength, it is the new
    strain and the hardening stays.  Otherwise the hardening grows, the shear stress is the strength, its direction that of bt; the drop of
    the shear stress is 2 G tr(bt)/3 times the plastic flow, which is the hardening over sqrt(2/3). *)
Theorem C90_return : forall (G Fo bo f : tensor) (a : R), let F : tensor := fun i j => G i j + ident i j in
  0 < vol Fo -> 0 < vol F -> sound_state bo a -> same_on 3 (times f Fo) F ->
  let bt := conj3 (shape_of f) bo in let b := fst (fst (return_map G Fo bo a)) in let a' := snd (fst (return_map G Fo bo a)) in
  sound_state b a' /\ shear_stress b <= strength a' /\ a <= a' /\ trace 3 b = trace 3 bt /\
  (shear_stress bt <= strength a -> a' = a /\ same_on 3 b bt) /\
  (strength a < shear_stress bt -> a < a' /\ shear_stress b = strength a' /\ exists t, 0 < t < 1 /\ same_on 3 (shear_part 3 b) (fun i j => t * shear_part 3 bt i j)) /\
  shear_stress bt - shear_stress b = 2 * 80000 * (trace 3 bt / 3) * ((a' - a) / sqrt (2 / 3)).
Proof.
  intros G Fo bo f a F V W SS E bt b a'.
  assert (P1 := st_plastic G Fo bo f a V W SS E). assert (P2 := st_elastic G Fo bo f a V W SS E).
  split; [exact (st_sound G Fo bo f a V W SS E)|]. split; [exact (st_within G Fo bo f a V W SS E)|]. split.
  { destruct (Rle_lt_dec (shear_stress bt) (strength a)) as [C|C]; [right; symmetry; exact (proj1 (P2 C))|left; exact (proj1 (P1 C))]. }
  split; [exact (st_trace G Fo bo f a V W SS E)|]. split; [exact P2|]. split; [exact P1|].
  assert (S : 0 < sqrt (2 / 3)) by (apply sqrt_lt_R0; lra). pose proof (st_flow G Fo bo f a V W SS E) as FL. fold bt b a' in FL.
  apply (Rmult_eq_reg_l (sqrt (2 / 3))); [|lra]. rewrite FL. change (car Rops) with R. field. lra.
Qed.
Print Assumptions C90_return.

(** The stresses belong to the new state: the Kirchhoff stress is that of the volume ratio and the new elastic strain, symmetric; the first
    Piola-Kirchhoff stress times F^T is it, and the Cauchy stress reported times the volume ratio is it. *)
Theorem C90_stress : forall (G Fo bo : tensor) (a : R), let F : tensor := fun i j => G i j + ident i j in
  0 < vol Fo -> 0 < vol F -> sound_state bo a -> let tau := kirchhoff (vol F) (fst (fst (return_map G Fo bo a))) in
  symmetric 3 tau /\ same_on 3 (snd (return_map G Fo bo a)) tau /\
  same_on 3 (times (first_PK_stress Fo bo a G) (fun i j => F j i)) tau /\ same_on 3 (fun i j => vol F * compute_cauchy_stress Fo bo a G i j) tau.
Proof.
  intros G Fo bo a F V W SS tau. set (f := def_grad G ** inv_mat (K := Rops) 3 Fo). assert (E : f ** Fo == def_grad G) by (apply quot_mul; lra).
  pose proof (st_tau G Fo bo f a V W SS E) as T. assert (N : vol (def_grad G) <> 0) by (apply Rgt_not_eq; exact W). split; [|split; [exact T|split]].
  - destruct (st_sound G Fo bo f a V W SS E) as (S & _). intros i j Hi Hj. unfold tau, kirchhoff, shear_part. rewrite (S i j Hi Hj), (Nat.eqb_sym i j). reflexivity.
  - eapply s_trans; [exact (pk_tau Fo bo a G N)|exact T].
  - eapply s_trans; [exact (cauchy_tau Fo bo a G N)|exact T].
Qed.
Print Assumptions C90_stress.

(** No preferred frame: an observer rotated by Q now and by Q0 before sees the same hardening, the elastic strain rotated and the first
    Piola-Kirchhoff stress multiplied by Q. *)
Theorem C90_objective : forall (G G' Fo Fo' bo bo' Q Q0 : tensor) (a : R), let F : tensor := fun i j => G i j + ident i j in let F' : tensor := fun i j => G' i j + ident i j in
  0 < vol Fo -> 0 < vol F -> sound_state bo a -> rotation Q -> rotation Q0 ->
  same_on 3 F' (times Q F) -> same_on 3 Fo' (times Q0 Fo) -> same_on 3 bo' (conj3 Q0 bo) ->
  snd (fst (return_map G' Fo' bo' a)) = snd (fst (return_map G Fo bo a)) /\
  same_on 3 (fst (fst (return_map G' Fo' bo' a))) (conj3 Q (fst (fst (return_map G Fo bo a)))) /\
  same_on 3 (first_PK_stress Fo' bo' a G') (times Q (first_PK_stress Fo bo a G)).
Proof.
  intros G G' Fo Fo' bo bo' Q Q0 a F F' V W SS HQ HR EG EF EB.
  split; [exact (frame_a G G' Fo Fo' bo bo' Q Q0 a V W SS HQ HR EG EF EB)|]. split; [exact (frame_b G G' Fo Fo' bo bo' Q Q0 a V W SS HQ HR EG EF EB)|].
  exact (frame_P G G' Fo Fo' bo bo' Q Q0 a V W SS HQ HR EG EF EB).
Qed.
Print Assumptions C90_objective.

(** From a state within its strength, a rigid rotation and a pure change of volume are elastic: the first turns the elastic strain, the second
    leaves it, and neither changes the hardening. *)
Theorem C90_no_shear : forall (G Fo bo : tensor) (a : R), let F : tensor := fun i j => G i j + ident i j in
  0 < vol Fo -> sound_state bo a -> shear_stress bo <= strength a ->
  (forall Q, rotation Q -> same_on 3 F (times Q Fo) -> snd (fst (return_map G Fo bo a)) = a /\ same_on 3 (fst (fst (return_map G Fo bo a))) (conj3 Q bo)) /\
  (forall c, 0 < c -> same_on 3 F (fun i j => c * Fo i j) -> snd (fst (return_map G Fo bo a)) = a /\ same_on 3 (fst (fst (return_map G Fo bo a))) bo).
Proof.
  intros G Fo bo a F V SS A. split; [intros Q HQ E; exact (rigid_step G Fo bo a Q V SS A HQ E)|intros c C E; exact (volume_step G Fo bo a c V SS A C E)].
Qed.
Print Assumptions C90_no_shear.

(** The stored elastic strain is meant to have determinant one.  An elastic step keeps its determinant; a plastic step makes it larger. *)
Theorem C90_determinant : forall (G Fo bo f : tensor) (a : R), let F : tensor := fun i j => G i j + ident i j in
  0 < vol Fo -> 0 < vol F -> sound_state bo a -> same_on 3 (times f Fo) F ->
  (shear_stress (conj3 (shape_of f) bo) <= strength a -> vol (fst (fst (return_map G Fo bo a))) = vol bo) /\
  (strength a < shear_stress (conj3 (shape_of f) bo) -> vol bo < vol (fst (fst (return_map G Fo bo a)))).
Proof.
  intros G Fo bo f a F V W SS E. pose proof (st_f G Fo f V W E) as VF. set (bt := conj3 (shape_of f) bo).
  assert (VB : vol bt = vol bo) by (unfold bt; rewrite vol_conj, (shape_vol f VF); ring). split; intros H.
  - rewrite (vol_ext _ _ (proj2 (st_elastic G Fo bo f a V W SS E H))). exact VB.
  - rewrite (vol_ext _ _ (st_b G Fo bo f a V W SS E)). fold bt. pose proof (st_mean G Fo bo f a V W SS E) as M. fold bt in M.
    pose proof (st_pos G Fo bo f a V W SS E) as PB. pose proof (st_sym bo f a SS) as SB. fold bt in PB, SB. destruct SS as (_ & _ & A0).
    assert (O : 0 < over bt a) by (unfold over; fold bt in H; lra). pose proof (keep_range bt a A0 M) as K. pose proof (keep_lt bt a A0 M O) as K1.
    assert (Q : 0 < ddot 3 (shear_part 3 bt) (shear_part 3 bt)).
    { destruct (Rle_lt_or_eq_dec _ _ (ddot_nonneg 3 (shear_part 3 bt))) as [X|X]; [exact X|]. exfalso. pose proof (strength_pos a A0) as SP.
      unfold over, shear_stress in O. rewrite <- X in O. rewrite sqrt_0 in O. lra. }
    pose proof (vol_drift bt SB PB (keep bt a) K) as D. apply (Rlt_le_trans _ (vol bt + (1 - keep bt a) * (1 - keep bt a) * (1 + 2 * keep bt a) * (mean bt * ddot 3 (shear_part 3 bt) (shear_part 3 bt)) / 6)); [|exact D].
    rewrite VB. assert (X : 0 < (1 - keep bt a) * (1 - keep bt a) * (1 + 2 * keep bt a) * (mean bt * ddot 3 (shear_part 3 bt) (shear_part 3 bt))); [|lra].
    apply Rmult_lt_0_compat; [|now apply Rmult_lt_0_compat]. apply Rmult_lt_0_compat; [apply Rmult_lt_0_compat; lra|lra].
Qed.
Print Assumptions C90_determinant.

(** Any number of load steps with any solver, from the state the constructor leaves (an error unless the mesh is three-dimensional): the loop
    raises only if the solver does.  Step i solves the problem with the internal variables left by step i - 1.  At a quadrature point where no
    step so far turned the material inside out: the kept deformation gradient is that of the solution, the kept elastic strain is symmetric and
    positive and within its strength, the hardening never decreases; the stress that the residual used and the reported stress are those of the
    kept state; and as long as nothing has yielded there, that stress is the gradient of an elastic energy of the deformation alone. *)
Theorem C90_history : forall (f : fe Rops) P solve n (p : problem Rops ul_var) sol0,
  (dim f <> 3%nat -> fp_init f = Err ValueErr) /\ (dim f = 3%nat -> exists iv0, fp_init f = Ok iv0) /\
  forall iv0, fp_init f = Ok iv0 -> maps p = fp_maps ->
  ((forall i p' s, exists s', solve i p' s = Ok s') -> exists h, fp_loop f P solve n 0 p sol0 iv0 = Ok h) /\
  forall h, fp_loop f P solve n 0 p sol0 iv0 = Ok h -> length h = n /\
  forall i, (i < n)%nat -> let before := nth i (iv0 :: map fp_vars h) [] in let st := nth i h no_fp in let after := fp_vars st in
    internal_vars (fp_problem st) = before /\ fes (fp_problem st) = fes p /\ maps (fp_problem st) = maps p /\ boundary_inds_list (fp_problem st) = boundary_inds_list p /\
    solve i (fp_problem st) (nth i (sol0 :: map fp_sol h) []) = Ok (fp_sol st) /\
    forall c q, (c < num_cells f)%nat -> let G k := sol_to_grad P f (fp_sol (nth k h no_fp)) c q in let F : nat -> tensor := fun k a b => G k a b + ident a b in
    (forall k, (k <= i)%nat -> 0 < vol (F k)) ->
    kept_F after c q = F i /\ sound_state (kept_b after c q) (kept_a after c q) /\ shear_stress (kept_b after c q) <= strength (kept_a after c q) /\
    kept_a before c q <= kept_a after c q /\
    same_on 3 (times (stress (fp_problem st) f P (fp_sol st) c q) (fun a b => F i b a)) (kirchhoff (vol (F i)) (kept_b after c q)) /\
    same_on 3 (fun a b => vol (F i) * nth c (fp_sigmas st) (fun _ _ _ => 0) q a b) (kirchhoff (vol (F i)) (kept_b after c q)) /\
    (kept_a after c q = 0 -> gradient2 3 3 (fun H => finite_energy (fun a b => H a b + ident a b)) (G i) (stress (fp_problem st) f P (fp_sol st) c q)).
Proof.
  intros f P solve n p sol0. split; [|split].
  { intros D. unfold fp_init. apply Nat.eqb_neq in D. now rewrite D. }
  { intros D. unfold fp_init. rewrite D. cbn. now eexists. }
  intros iv0 IN MP. destruct (init_arrays f iv0 IN) as (D3 & T & KI). split; [exact (loop_runs f P solve n 0 p sol0 iv0 T)|].
  intros h L. destruct (loop_spec f P solve n 0 p sol0 iv0 h T L) as (LN & H). split; [exact LN|]. intros i Hi before st after.
  destruct (H i Hi) as (T1 & T2 & (p0 & EP & E1 & E2 & E3) & ES & EU & EG). fold before st in T1, T2, EP, ES, EU, EG. cbn [Nat.add] in ES.
  split; [rewrite EP; reflexivity|]. split; [rewrite EP; exact E1|]. split; [rewrite EP; exact E2|]. split; [rewrite EP; exact E3|]. split; [exact ES|].
  intros c q Hc G F HV.
  assert (GR : good (kept_F iv0 c q) (kept_b iv0 c q) (kept_a iv0 c q)) by (destruct (KI c q Hc) as (-> & -> & ->); exact good_rest).
  assert (GB : good (kept_F before c q) (kept_b before c q) (kept_a before c q)).
  { apply (loop_good f P solve n 0 p sol0 iv0 h c q T L Hc GR i); [lia|]. intros k Hk. apply (HV k). lia. }
  destruct (update_ok f P (fp_sol st) before T1) as (ivs' & EU' & _ & K). rewrite EU' in EU. injection EU as ->. fold after in K. destruct (K c q Hc) as (K1 & K2 & K3).
  pose proof (HV i (le_n i)) as W. destruct (good_step (G i) _ _ _ GB W) as ((_ & S' & W' & FR) & AA). fold after.
  change (sol_to_grad P f (fp_sol st) c q) with (G i) in K1, K2, K3. rewrite <- K2, <- K3 in S', W', FR. rewrite <- K3 in AA.
  split; [exact K1|]. split; [exact S'|]. split; [exact W'|]. split; [exact AA|].
  destruct GB as (V & SS & _). pose proof (C90_stress (G i) _ _ _ V W SS) as (_ & ST1 & ST2 & ST3). rewrite <- K2 in ST1, ST2, ST3.
  assert (SE : stress (fp_problem st) f P (fp_sol st) c q = first_PK_stress (kept_F before c q) (kept_b before c q) (kept_a before c q) (G i)).
  { unfold stress. rewrite EP. change (maps (with_vars p0 before)) with (maps p0). rewrite E2, MP. cbn [tensor_map fp_maps]. rewrite (iv_kept f p0 before c q T1 Hc). reflexivity. }
  split; [rewrite SE; exact ST2|]. split.
  { destruct (stress_ok f P (fp_sol st) before T1) as (s & EG' & _ & KS). rewrite EG' in EG. injection EG as <-. eapply s_trans; [|exact ST3]. intros a b _ _. now rewrite (KS c q Hc). }
  intros Z. rewrite SE. apply free_gradient; [exact W|]. eapply s_trans; [exact ST1|]. apply kirchhoff_ext. exact (FR Z).
Qed.
Print Assumptions C90_history.

(** Stretching by 2 along x and halving y from rest meets the hypotheses of C90_return and yields; the elastic strain left has determinant
    above one. *)
Example C90_yields : let G : tensor := fun i j => if (i =? j)%nat then nth i [1; - (1 / 2); 0] 0 else 0 in
  let F : tensor := fun i j => G i j + ident i j in
  vol F = 1 /\ same_on 3 (times F ident) F /\ sound_state ident 0 /\ strength 0 < shear_stress (conj3 (shape_of F) ident) /\
  0 < snd (fst (return_map G ident ident 0)) /\ 1 < vol (fst (fst (return_map G ident ident 0))).
Proof.
  intros G F. assert (VF : vol F = 1) by (rewrite vol_formula; unfold F, G, ident; cbn; field). split; [exact VF|].
  assert (E : same_on 3 (times F ident) F) by exact (m_1r F). split; [exact E|].
  assert (SS : sound_state ident 0) by (split; [exact eye_symmetric|split; [exact eye_positive|apply Rle_refl]]). split; [exact SS|].
  assert (VI : vol ident = 1) by exact vol_1. assert (V : 0 < vol ident) by lra. assert (W : 0 < vol F) by lra.
  assert (Y : strength 0 < shear_stress (conj3 (shape_of F) ident)).
  { rewrite (shear_stress_ext (conj3 (shape_of F) ident) _ (free_entries F)), VF. unfold Rpower. rewrite ln_1, Rmult_0_r, exp_0.
    unfold shear_stress, strength. apply (Rlt_le_trans _ 400).
    - assert (S : sqrt (2 / 3) < 1) by (rewrite <- sqrt_1; apply sqrt_lt_1_alt; lra). pose proof (sqrt_pos (2 / 3)). lra.
    - assert (S : 1 <= sqrt (ddot 3 (shear_part 3 (fun i j => 1 * (F ** F^T) i j)) (shear_part 3 (fun i j => 1 * (F ** F^T) i j)))); [|lra].
      rewrite <- sqrt_1 at 1. apply sqrt_le_1_alt. unfold ddot, shear_part, trace, mul3, trans3. rewrite three, !sum3. unfold F, G, ident. cbn.
      match goal with |- 1 <= ?x => replace x with (63 / 8) by field end. lra. }
  split; [exact Y|]. pose proof (C90_return G ident ident F 0 V W SS E) as (_ & _ & _ & _ & _ & PL & _). split; [exact (proj1 (PL Y))|].
  rewrite <- VI at 1. exact (proj2 (C90_determinant G ident ident F 0 V W SS E) Y).
Qed.
Print Assumptions C90_yields.

(** So the stored strain does not keep determinant one. *)
Theorem C90_isochoric_refuted : ~ (forall (G Fo bo : tensor) (a : R), 0 < vol Fo -> 0 < vol (fun i j => G i j + ident i j) -> sound_state bo a ->
  vol bo = 1 -> vol (fst (fst (return_map G Fo bo a))) = 1).
Proof.
  intros H. destruct C90_yields as (V & _ & SS & _ & _ & L). assert (E : vol ident = 1) by exact vol_1.
  match type of L with 1 < vol (fst (fst (return_map ?G _ _ _))) => specialize (H G ident ident 0) end. rewrite H in L; [lra|rewrite E; lra|rewrite V; lra|exact SS|exact E].
Qed.
Print Assumptions C90_isochoric_refuted.

(** Load histories that yield exist: on any mesh of three-dimensional elements with nonzero Jacobians and a solver that returns the
    stretch above, no point is turned inside out, and the first step hardens every point. *)
Example C90_history_nonvacuous : forall s (f : fe Rops) n (p : problem Rops ul_var), built_element s 3 f -> vec f = 3%nat -> dim f = 3%nat ->
  (forall c q, (c < num_cells f)%nat -> get_JxW (points f) f c q <> 0) -> (0 < n)%nat ->
  let G : tensor := fun i j => if (i =? j)%nat then nth i [1; - (1 / 2); 0] 0 else 0 in
  exists iv0 h, fp_init f = Ok iv0 /\ fp_loop f (points f) (fun _ _ _ => Ok (affine_values 3 3 G (fun _ => 0) (points f))) n 0 p [] iv0 = Ok h /\
  (forall i c q, (i < n)%nat -> (c < num_cells f)%nat -> vol (fun a b => sol_to_grad (points f) f (fp_sol (nth i h no_fp)) c q a b + ident a b) = 1) /\
  forall c q, (c < num_cells f)%nat -> 0 < kept_a (fp_vars (nth 0 h no_fp)) c q.
Proof.
  intros s f n p LE V3 D3 HJ Hn G. set (sol := affine_values 3 3 G (fun _ => 0) (points f)). set (slv := fun (_ : nat) (_ : problem Rops ul_var) (_ : list (list Rops)) => Ok sol).
  destruct (proj1 (proj2 (C90_history f (points f) slv n p [])) D3) as (iv0 & IN). destruct (init_arrays f iv0 IN) as (_ & T & KI).
  destruct (loop_runs f (points f) slv n 0 p [] iv0 T) as (h & L); [intros; now eexists|].
  exists iv0, h. split; [exact IN|]. split; [exact L|]. destruct (loop_spec f (points f) slv n 0 p [] iv0 h T L) as (_ & H).
  assert (SA : samples (K := Rops) 3 (vec f) G (fun _ => 0) (points f) sol).
  { rewrite V3. apply affine_values_sol. }
  assert (GG : forall c q, (c < num_cells f)%nat -> sol_to_grad (points f) f sol c q == G).
  { intros c q Hc a b Ha Hb. apply (C05_affine_gradient_exact Rops Rops_field s 3 f LE (points f) eq_refl G (fun _ => 0) sol SA c q a b Hc); [now rewrite V3|exact Hb|exact (HJ c q Hc)]. }
  destruct C90_yields as (VF & EF & SS & Y & AP & _). fold G in VF, EF, Y, AP. split.
  - intros i c q Hi Hc. destruct (H i Hi) as (_ & _ & _ & ES & _). injection ES as ES. rewrite <- ES. rewrite <- VF. apply vol_ext. intros a b Ha Hb. now rewrite (GG c q Hc a b Ha Hb).
  - intros c q Hc. destruct (H 0%nat Hn) as (T1 & _ & _ & ES & EU & _). injection ES as ES. rewrite <- ES in EU. cbn [nth] in EU.
    destruct (update_ok f (points f) sol iv0 T) as (ivs' & EU' & _ & K). rewrite EU' in EU. injection EU as ->. destruct (K c q Hc) as (_ & _ & ->).
    destruct (KI c q Hc) as (-> & -> & ->). set (G' := sol_to_grad (points f) f sol c q).
    assert (VI : vol ident = 1) by exact vol_1. assert (VI0 : 0 < vol ident) by lra.
    assert (W : 0 < vol (fun i j => G i j + ident i j)) by (apply (Rlt_le_trans _ 1); [lra|right; symmetry; exact VF]).
    assert (E' : same_on 3 (times (fun i j => G i j + ident i j) ident) (fun i j => G' i j + ident i j)).
    { intros a b Ha Hb. etransitivity; [exact (EF a b Ha Hb)|]. unfold G'. now rewrite (GG c q Hc a b Ha Hb). }
    assert (W' : 0 < vol (fun i j => G' i j + ident i j)) by (rewrite <- (vol_ext _ _ E'); apply (Rlt_le_trans _ _ _ W); right; symmetry; exact (vol_ext _ _ EF)).
    pose proof (C90_return G' ident ident _ 0 VI0 W' SS E') as (_ & _ & _ & _ & _ & PL & _). exact (proj1 (PL Y)).
Qed.
Print Assumptions C90_history_nonvacuous.
