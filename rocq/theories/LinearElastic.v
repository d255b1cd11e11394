(** Linear elasticity is affine: proofs (C80). *)
From Coq Require Import String List Arith Lia Bool Reals Lra.
From Verif Require Import Num Arr ArrFacts Fe Problem BatchFacts SpecAssembly AssemblyFacts ProblemFacts ResidualFacts DerivFacts FeFacts
  SolverBc SpecBc BcFacts BcMain SpecWeak KernelFacts SpecEnergy EnergyFacts Elastic ElasticFacts SpecElastic ElasticMain LinAlg SpecWave SpecSolve SolveFacts
  XNum PyDict Options LinSolve Newton SpecNewton NewtonFacts ArcLength DynRelax Solver SpecLift LiftFacts SpecLinear LinearFacts.
Import ListNotations.
Local Open Scope R_scope.

Section One.
  Context {V : Type}.
  Variables (p : problem Rops V) (f : fe Rops) (P : list (list Rops)).
  Hypothesis STD : standard_problem p f.
  Local Notation N := (length (points f)).

  Lemma sol_one sol : sol_ok p sol -> exists x, sol = [x] /\ shaped N (vec f) x.
  Proof.
    intros [L H]. rewrite (fes_f p f STD) in L, H. destruct sol as [|x [|y s]]; cbn in L; try discriminate. exists x. split; auto.
    specialize (H 0%nat). cbn in H. unfold fe_of in H. rewrite (fes_f p f STD) in H. cbn in H. apply H. lia.
  Qed.
End One.

Section Elastic.
  Context {V : Type}.
  Variables (lam mu : R) (p : problem Rops V) (f : fe Rops) (P : list (list Rops)).
  Hypothesis WF : wf_problem p.
  Hypothesis NC : (0 < p_num_cells p)%nat.
  Hypothesis EL : elastic_problem lam mu p f.
  Hypothesis IVS : ivs_ok p.
  Hypothesis MAPS : maps_ok (vec f) (dim f) (maps p).
  Local Notation N := (length (points f)).
  Let STD : standard_problem p f := proj1 EL.
  Local Notation elres := (elres sqrt p P).

  Lemma el_solves x : solves p [P] [x] <-> solved sqrt p f P x.
  Proof.
    unfold solves, solved. split.
    - intros (SO & res & E & H). split; auto. rewrite (elres_ok lam mu sqrt p f P WF NC EL IVS MAPS x SO) in E. injection E as <-.
      unfold fe_of in H. rewrite (fes_f p f STD) in H. cbn [length nth] in H. split.
      + intros n k b Hn Hk Q. specialize (H 0%nat n k). cbn [nth] in H. specialize (H ltac:(lia) Hn Hk). now rewrite Q in H.
      + exists (elres x). split; [now apply (elres_ok lam mu sqrt p f P WF NC EL IVS MAPS)|].
        intros n k Hn Hk Q. specialize (H 0%nat n k). cbn [nth] in H. specialize (H ltac:(lia) Hn Hk). now rewrite Q in H.
    - intros (SO & HP & r & E & H). split; auto. exists [r]. split; auto. unfold fe_of. rewrite (fes_f p f STD). cbn [length].
      intros v n j Hv Hn Hj. assert (v = 0)%nat as -> by lia. cbn [nth] in *.
      destruct (prescribed f n j) as [b|] eqn:Q; auto.
  Qed.
  Lemma elres_entry x n k : sol_ok p [x] -> (n < N)%nat -> (k < vec f)%nat ->
    get2 (@zero Rops) (elres x) n k = elform lam mu p f P x (fld N (vec f) (unit_at (n * vec f + k))) - elload sqrt p f P (fld N (vec f) (unit_at (n * vec f + k))).
  Proof.
    intros SX Hn Hk. assert (Hg : (n * vec f + k < N * vec f)%nat) by nia.
    rewrite <- (elwork lam mu sqrt p f P WF NC EL IVS MAPS x _ SX) by (apply (el_shape lam mu p f NC EL), fld_shaped).
    rewrite work_unit by auto. f_equal; [rewrite Nat.div_add_l, Nat.div_small by lia; lia|].
    rewrite Nat.add_comm, Nat.mod_add by lia. symmetry. now apply Nat.mod_small.
  Qed.
  Theorem elastic_affine : affine_residual p [P].
  Proof.
    intros sol dsol t r0 r1 r SX SD E0 E1 E g.
    destruct (sol_one p f STD sol SX) as (x & -> & HX). destruct (sol_one p f STD dsol SD) as (d & -> & HD).
    change (line3 [x] [d] 1) with [along (K := Rops) x d 1] in E1. change (line3 [x] [d] t) with [along (K := Rops) x d t] in E.
    assert (OK : forall s, sol_ok p [along (K := Rops) x d s]) by (intros; apply along_ok; auto).
    rewrite (elres_ok lam mu sqrt p f P WF NC EL IVS MAPS) in E0, E1, E by auto. injection E0 as <-. injection E1 as <-. injection E as <-.
    assert (SH : forall y, sol_ok p [y] -> has_shapes (global_shapes p) [elres y]).
    { intros y SY. pose proof (residual_shapes sqrt p [P] [y] (std_kf p) WF NC SY (std_kernels p f STD)) as S.
      pose proof (compute_residual_ok sqrt p [P] [y] (std_kf p) WF NC SY IVS (std_kernels p f STD)) as E.
      rewrite (elres_ok lam mu sqrt p f P WF NC EL IVS MAPS) in E by auto. injection E as E. exact (eq_ind_r (has_shapes (global_shapes p)) S E). }
    assert (LN : forall y, sol_ok p [y] -> length (ravel [elres y]) = all_dofs (global_shapes p)) by (intros y SY; rewrite all_dofs_total; now apply ravel_length, SH).
    destruct (Nat.lt_ge_cases g (all_dofs (global_shapes p))) as [Hg|Hg].
    - destruct (dof_number_surj _ _ Hg) as (v & k & j & Hv & <-).
      rewrite !(nth_ravel_dof (@zero Rops) (global_shapes p)) by auto.
      pose proof Hv as (Hv1 & Hv2 & Hv3). rewrite (global_one lam mu p f EL) in Hv1, Hv2, Hv3. cbn in Hv1. assert (v = 0)%nat as -> by lia. cbn in Hv2, Hv3. cbn [nth].
      rewrite !elres_entry by auto. rewrite !(elform_linear lam mu p f P WF NC EL) by (auto; apply (el_shape lam mu p f NC EL), fld_shaped). Req. ring.
    - rewrite !nth_overflow by (rewrite LN; auto). cbn. Req. ring.
  Qed.
End Elastic.

(** the top level *)
Theorem solver_one_step : forall (O V : Type) ravel_obj obj_of_sol (B : backends O) jvp1 jvp2 (p : problem Rops V) m2 pts kf,
  wf_problem p -> (0 < p_num_cells p)%nat -> ivs_ok p -> kernels_ok p kf -> bcs_ok p -> (forall f, In f (fes p) -> bc_in_range f) ->
  affine_residual p pts -> right_jvp jvp1 p pts kf ->
  maps_agree Fin (fe0 p) (maps p) m2 -> jvp_agree (K1 := Rops) (K2 := Xops) Fin jvp1 jvp2 -> regular_mesh p pts ->
  (exists sol, solves p pts sol) ->
  let pX := lift_problem Fin m2 p in
  forall cb mk lk nk so m fuel (cfg : dict O) lin tol rtol (u0 : list Rops),
  resolve_solver_options mk lk nk so = Ok (m, cfg) -> m <> "arc_length"%string -> m <> "dynamic_relax"%string -> exact_linear B lin ->
  (lookup cfg "linear" = None /\ lin = [] \/ lookup cfg "linear" = Some (VDict lin)) ->
  option_value cfg "tol" (/ 10 ^ 6) tol -> 0 <= tol -> option_value cfg "rel_tol" (/ 10 ^ 8) rtol ->
  starts_from ravel_obj pX None cfg (lift1 Fin u0) -> length u0 = all_dofs (global_shapes p) ->
  exists sol, solver ravel_obj obj_of_sol B jvp2 pX (lift3 Fin pts) None cb mk lk nk (S fuel) so = Done (Ok (SolOnly (lift3 Fin sol))) /\
    (solves p pts sol \/ sol = unravel (sol_shapes p) u0 /\
       exists r x, newton_residual pX (lift3 Fin pts) None (lift1 Fin u0) r /\ xnorm r = Fin x /\ (x <= tol \/ x <= rtol * x)).
Proof.
  intros O V ravel_obj obj_of_sol B jvp1 jvp2 p m2 pts kf WF NC IVS KER BC RNG AFF RJ MA JA RM SOLV pX cb mk lk nk so m fuel cfg lin tol rtol u0 RES M1 M2 EX LIN TOL T0 RTOL ST L0.
  destruct (newton_one_step O V ravel_obj B jvp1 jvp2 p m2 pts kf WF NC IVS KER BC RNG AFF RJ MA JA RM SOLV fuel cfg lin tol rtol u0 EX LIN TOL T0 RTOL ST L0)
    as (out & sol & E & EO & CASE). exists sol. split.
  - unfold solver. rewrite RES. apply String.eqb_neq in M1, M2. rewrite M1, M2. unfold pX. rewrite E. cbn [omap]. now rewrite EO.
  - destruct CASE as [(_ & A & C)|(_ & A)]; auto.
Qed.

Lemma shaped_eq N m (x y : list (list Rops)) : shaped N m x -> shaped N m y ->
  (forall n k, (n < N)%nat -> (k < m)%nat -> get2 (@zero Rops) y n k = get2 (@zero Rops) x n k) -> y = x.
Proof.
  intros [L1 H1] [L2 H2] E. apply (list_ext []); [congruence|]. intros n Hn. rewrite L2 in Hn.
  assert (In (nth n x []) x /\ In (nth n y []) y) as [I1 I2] by (split; apply nth_In; congruence).
  apply (list_ext (@zero Rops)); [now rewrite (H1 _ I1), (H2 _ I2)|]. intros k Hk. rewrite (H2 _ I2) in Hk. now apply E.
Qed.

Theorem elastic_solver : forall (O V : Type) ravel_obj obj_of_sol (B : backends O) jvp1 jvp2 lam mu (p : problem Rops V) f P m2 kf,
  wf_problem p -> (0 < p_num_cells p)%nat -> elastic_problem lam mu p f -> ivs_ok p -> maps_ok (vec f) (dim f) (maps p) -> 0 <= lam -> 0 < mu ->
  (forall c q, (c < p_num_cells p)%nat -> (q < num_quads f)%nat -> 0 < get_JxW P f c q) -> no_free_motion p f P ->
  kernels_ok p kf -> bcs_ok p -> bc_in_range f -> right_jvp jvp1 p [P] kf ->
  maps_agree Fin f (maps p) m2 -> jvp_agree (K1 := Rops) (K2 := Xops) Fin jvp1 jvp2 -> regular_mesh p [P] ->
  let pX := lift_problem Fin m2 p in
  exists x, solved sqrt p f P x /\ (forall y, solved sqrt p f P y -> y = x) /\
  forall cb mk lk nk so m fuel (cfg : dict O) lin tol rtol (u0 : list Rops),
  resolve_solver_options mk lk nk so = Ok (m, cfg) -> m <> "arc_length"%string -> m <> "dynamic_relax"%string -> exact_linear B lin ->
  (lookup cfg "linear" = None /\ lin = [] \/ lookup cfg "linear" = Some (VDict lin)) ->
  option_value cfg "tol" (/ 10 ^ 6) tol -> 0 <= tol -> option_value cfg "rel_tol" (/ 10 ^ 8) rtol ->
  starts_from ravel_obj pX None cfg (lift1 Fin u0) -> length u0 = all_dofs (global_shapes p) ->
  solver ravel_obj obj_of_sol B jvp2 pX (lift3 Fin [P]) None cb mk lk nk (S fuel) so = Done (Ok (SolOnly (lift3 Fin [x]))) \/
  solver ravel_obj obj_of_sol B jvp2 pX (lift3 Fin [P]) None cb mk lk nk (S fuel) so = Done (Ok (SolOnly (lift3 Fin (unravel (sol_shapes p) u0)))) /\
    exists r x, newton_residual pX (lift3 Fin [P]) None (lift1 Fin u0) r /\ xnorm r = Fin x /\ (x <= tol \/ x <= rtol * x).
Proof.
  intros O V ravel_obj obj_of_sol B jvp1 jvp2 lam mu p f P m2 kf WF NC EL IVS MAPS LAM MU JP RIGID KER BC RNG RJ MA JA RM pX.
  destruct (elastic_one_solution lam mu sqrt p f P WF NC EL IVS MAPS LAM MU JP RIGID) as (x & SX & UX).
  exists x. split; [exact SX|].
  assert (UQ : forall y, solved sqrt p f P y -> y = x).
  { intros y SY. apply (shaped_eq (length (points f)) (vec f)); [apply (el_shape lam mu p f NC EL), SX|apply (el_shape lam mu p f NC EL), SY|]. now apply UX. }
  split; [exact UQ|]. intros cb mk lk nk so m fuel cfg lin tol rtol u0 RES M1 M2 EX LIN TOL T0 RTOL ST L0.
  assert (F0 : fe0 p = f) by (unfold fe0; now rewrite (fes_f p f (proj1 EL))).
  destruct (solver_one_step O V ravel_obj obj_of_sol B jvp1 jvp2 p m2 [P] kf WF NC IVS KER BC) with (cb := cb) (mk := mk) (lk := lk) (nk := nk) (so := so) (m := m) (fuel := fuel)
    (cfg := cfg) (lin := lin) (tol := tol) (rtol := rtol) (u0 := u0) as (sol & E & CASE); auto.
  - intros g Hg. rewrite (fes_f p f (proj1 EL)) in Hg. destruct Hg as [<-|[]]. exact RNG.
  - exact (elastic_affine lam mu p f P WF NC EL IVS MAPS).
  - now rewrite F0.
  - exists [x]. now apply (el_solves lam mu p f P WF NC EL IVS MAPS).
  - destruct CASE as [HS|(-> & HR)]; [left|right; auto].
    destruct (sol_one p f (proj1 EL) sol (proj1 HS)) as (y & -> & _). apply (el_solves lam mu p f P WF NC EL IVS MAPS) in HS.
    rewrite (UQ y HS) in E. exact E.
Qed.
