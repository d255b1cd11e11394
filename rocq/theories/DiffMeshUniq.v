(** Lemmas for C104: one solution at most of the nonlinear Poisson problem. *)
From Coq Require Import Reals String List Arith Lia Lra Psatz Bool.
From Verif Require Import Num Arr ArrFacts Fe Problem SpecAssembly BatchFacts ProblemFacts Basis SpecBasis SpecFe FeFacts GeomFacts SolverBc SpecBc BcFacts SpecWeak KernelFacts SpecEnergy EnergyFacts
  Elastic ElasticFacts SpecElastic ElasticMain SpecSolve LinAlg SpecWave SpecLinear SpecPosed AffineFacts DynamicsFacts SpecPlasticity PlasticityMain FieldFacts PosedMain SpecMonotone MonoFacts MonoMain MonoUse.
Import ListNotations.
Local Open Scope R_scope.

Lemma sum_all_zero n (g : nat -> R) : (forall i, (i < n)%nat -> g i = 0) -> sum_n (K := Rops) n g = 0.
Proof. intros H. rewrite (Rsum_ext n g (fun _ => 0)) by exact H. apply (sum_n_zero Rops_ring). Qed.
Lemma over_cells_nonneg_zero {V} (p : problem Rops V) (f : fe Rops) P (g : nat -> nat -> R) :
  (forall c q, (c < p_num_cells p)%nat -> (q < num_quads f)%nat -> 0 < get_JxW P f c q) ->
  (forall c q, (c < p_num_cells p)%nat -> (q < num_quads f)%nat -> 0 <= g c q) ->
  over_cells (K := Rops) p f P g = 0 -> forall c q, (c < p_num_cells p)%nat -> (q < num_quads f)%nat -> g c q = 0.
Proof.
  intros J G Z c q Hc Hq. unfold over_cells in Z.
  pose proof (Rsum_zero_all _ _ (fun c0 H0 => Rsum_nonneg _ _ (fun q0 H1 => Rmult_le_pos _ _ (G c0 q0 H0 H1) (Rlt_le _ _ (J c0 q0 H0 H1)))) Z c Hc) as Z1. cbv beta in Z1.
  pose proof (Rsum_zero_all _ _ (fun q0 H1 => Rmult_le_pos _ _ (G c q0 Hc H1) (Rlt_le _ _ (J c q0 Hc H1))) Z1 q Hq) as Z2. cbv beta in Z2.
  apply Rmult_integral in Z2. pose proof (J c q Hc Hq). destruct Z2 as [Z2|Z2]; [exact Z2|]. change (get_JxW P f c q = 0) in Z2. lra.
Qed.
(** the maps grow at least as e does; no upper bound *)
Theorem increasing_unique : forall (V : Type) (p : problem Rops V) f P (e : nat -> nat -> local_field -> local_field -> R), wf_problem p -> (0 < p_num_cells p)%nat -> standard_problem p f -> ivs_ok p -> maps_ok (vec f) (dim f) (maps p) ->
  (forall c q, (c < p_num_cells p)%nat -> (q < num_quads f)%nat -> 0 < get_JxW P f c q) ->
  (forall c q, (c < p_num_cells p)%nat -> (q < num_quads f)%nat -> semi_inner (vec f) (dim f) (e c q)) ->
  (forall c q, (c < p_num_cells p)%nat -> (q < num_quads f)%nat -> forall x y,
     e c q (lminus x y) (lminus x y) <= lwork (vec f) (dim f) (lminus (flux_at p f P c q x) (flux_at p f P c q y)) (lminus x y)) ->
  dead_tractions p -> all_seen p f P e -> forall x y, solves p [P] x -> solves p [P] y -> x = y.
Proof.
  intros V p f P e WF NC STD IVS MAPS JP EI G DT SEEN X Y SX SY.
  assert (W : forall Z, solves p [P] Z -> exists z, Z = [z]).
  { intros Z ((L & _) & _). rewrite (fes_f p f STD) in L. destruct Z as [|z [|]]; cbn in L; try discriminate. now exists z. }
  destruct (W X SX) as (x & ->), (W Y SY) as (y & ->). clear W.
  apply (std_solves p f P WF NC STD IVS MAPS) in SX, SY. destruct SX as (OX & BX & rx & EX & RX). destruct SY as (OY & BY & ry & EY & RY).
  pose proof (res_ok p f P WF NC STD IVS MAPS x OX) as EX'. rewrite EX in EX'. injection EX' as EX'.
  pose proof (res_ok p f P WF NC STD IVS MAPS y OY) as EY'. rewrite EY in EY'. injection EY' as EY'.
  set (d := along (K := Rops) x y (-1)). assert (OD : sol_ok p [d]) by exact (along_ok p x OX y (-1) OY).
  pose proof (mm_shape p f NC STD x) as MX. pose proof (mm_shape p f NC STD y) as MY. apply MX in OX as HX. apply MY in OY as HY. clear MX MY.
  assert (DV : forall n k, (n < length (points f))%nat -> (k < vec f)%nat -> get2 (@zero Rops) d n k = get2 (@zero Rops) x n k - get2 (@zero Rops) y n k).
  { intros n k Hn Hk. unfold d. rewrite (nth_along p f x STD OX y (-1) n k OY Hn Hk). cbn [add mul Rops]. req. ring. }
  assert (DZ : held_zero f d). { intros n k b Hn Hk Hb. rewrite DV, (BX n k b Hn Hk Hb), (BY n k b Hn Hk Hb) by assumption. apply Rminus_diag_eq. reflexivity. }
  assert (WZ : forall r, (forall n k, (n < length (points f))%nat -> (k < vec f)%nat -> prescribed f n k = None -> get2 (@zero Rops) r n k = 0) -> work (K := Rops) (length (points f)) (vec f) d r = 0).
  { intros r Hr. unfold work. apply sum_all_zero. intros n Hn. apply sum_all_zero. intros k Hk. destruct (prescribed f n k) as [b|] eqn:Q.
    - rewrite (DZ n k b Hn Hk Q). cbn. req. ring.
    - rewrite (Hr n k Hn Hk Q). cbn. req. ring. }
  pose proof (work_diff p f P WF NC STD IVS MAPS DT x y d OX OY OD) as WD. rewrite <- EX', <- EY', (WZ rx RX), (WZ ry RY), Rminus_diag_eq in WD by reflexivity. symmetry in WD.
  assert (LE : forall c q, (c < p_num_cells p)%nat -> (q < num_quads f)%nat -> e c q (field_at f P d c q) (field_at f P d c q) <=
    lwork (vec f) (dim f) (lminus (flux_at p f P c q (field_at f P x c q)) (flux_at p f P c q (field_at f P y c q))) (field_at f P d c q)).
  { intros c q Hc Hq. pose proof (field_along p f P WF NC STD x y (-1) c q OX OY Hc) as FA. fold d in FA.
    destruct (EI c q Hc Hq) as (E1 & E2 & E3 & E4). rewrite (E4 _ _ _ FA), E2, (E4 _ _ _ FA), (lwork_same f _ _ _ FA). apply G; assumption. }
  assert (ZE : forall c q, (c < p_num_cells p)%nat -> (q < num_quads f)%nat -> e c q (field_at f P d c q) (field_at f P d c q) = 0).
  { intros c q Hc Hq. pose proof (LE c q Hc Hq) as H1. destruct (EI c q Hc Hq) as (_ & _ & E3 & _). pose proof (E3 (field_at f P d c q)) as H2.
    assert (NN : forall c0 q0, (c0 < p_num_cells p)%nat -> (q0 < num_quads f)%nat -> 0 <= lwork (vec f) (dim f) (lminus (flux_at p f P c0 q0 (field_at f P x c0 q0)) (flux_at p f P c0 q0 (field_at f P y c0 q0))) (field_at f P d c0 q0)).
    { intros c0 q0 H0 H0'. destruct (EI c0 q0 H0 H0') as (_ & _ & E3' & _). eapply Rle_trans; [apply E3'|apply LE; assumption]. }
    pose proof (over_cells_nonneg_zero p f P _ JP NN WD c q Hc Hq) as H3. cbv beta in H3. lra. }
  pose proof (SEEN d OD DZ ZE) as Z. f_equal. apply (shaped_ext (@zero Rops) (length (points f)) (vec f) x y HX HY). intros n k Hn Hk. pose proof (Z n k Hn Hk) as Q. rewrite DV in Q by assumption. req. lra.
Qed.
