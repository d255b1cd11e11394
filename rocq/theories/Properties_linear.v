(** C80: solver() on linear problems. *)
From Coq Require Import String Reals List Arith Lia Lra Bool ClassicalEpsilon.
From Verif Require Import Num Arr ArrFacts Fe Problem SpecAssembly Basis SpecBasis SpecFe FeFacts SolverBc SpecBc BcFacts SpecWeak KernelFacts ProblemFacts GeomFacts SpecEnergy Elastic ElasticFacts SpecElastic
  Init SpecPatch PatchFacts Mesh MeshFe SpecDynamics DynamicsEnergy LinAlg SpecWave SpecSolve SolveFacts SolveBox XNum PyDict Options LinSolve Newton SpecNewton ArcLength DynRelax Solver
  SpecLift LiftFacts SpecLinear LinearFacts LinearElastic Examples_energy.
Import ListNotations.
Local Open Scope R_scope.

(** C80. The solver computes with extended reals; the problem it is given is the image of a problem p over the reals.  If the residual of p is
    affine in the solution, jax.jvp is right, no Jacobian is singular, the linear solver is exact and p has a solution, then solver()
    terminates after at most one Newton step, with and without line search, whatever the initial guess: it returns a solution of p, or
    the initial guess if that already meets the tolerances. *)
Theorem C80_one_step : forall (O V : Type) ravel_obj (B : backends O) jvp1 jvp2 (p : problem Rops V) m2 pts kf,
  wf_problem p -> (0 < p_num_cells p)%nat -> ivs_ok p -> kernels_ok p kf -> bcs_ok p -> (forall f, In f (fes p) -> bc_in_range f) ->
  affine_residual p pts -> right_jvp jvp1 p pts kf ->
  maps_agree Fin (fe0 p) (maps p) m2 -> jvp_agree (K1 := Rops) (K2 := Xops) Fin jvp1 jvp2 -> regular_mesh p pts ->
  (exists sol, solves p pts sol) ->
  let pX := lift_problem Fin m2 p in
  forall fuel (cfg : dict O) lin tol rtol (u0 : list Rops), exact_linear B lin ->
  (lookup cfg "linear" = None /\ lin = [] \/ lookup cfg "linear" = Some (VDict lin)) ->
  option_value cfg "tol" (/ 10 ^ 6) tol -> 0 <= tol -> option_value cfg "rel_tol" (/ 10 ^ 8) rtol ->
  starts_from ravel_obj pX None cfg (lift1 Fin u0) -> List.length u0 = all_dofs (global_shapes p) ->
  exists out sol, solve_newton ravel_obj B jvp2 pX (lift3 Fin pts) None (S fuel) cfg = Done (Ok out) /\ out_sol out = lift3 Fin sol /\
    (out_iters out = 0%nat /\ sol = unravel (sol_shapes p) u0 /\
       (exists r x, newton_residual pX (lift3 Fin pts) None (lift1 Fin u0) r /\ xnorm r = Fin x /\ (x <= tol \/ x <= rtol * x)) \/
     out_iters out = 1%nat /\ solves p pts sol).
Proof. exact newton_one_step. Qed.
Print Assumptions C80_one_step.

(** The same from the top level, for every form of the options that selects Newton's method. *)
Theorem C80_solver : forall (O V : Type) ravel_obj obj_of_sol (B : backends O) jvp1 jvp2 (p : problem Rops V) m2 pts kf,
  wf_problem p -> (0 < p_num_cells p)%nat -> ivs_ok p -> kernels_ok p kf -> bcs_ok p -> (forall f, In f (fes p) -> bc_in_range f) ->
  affine_residual p pts -> right_jvp jvp1 p pts kf ->
  maps_agree Fin (fe0 p) (maps p) m2 -> jvp_agree (K1 := Rops) (K2 := Xops) Fin jvp1 jvp2 -> regular_mesh p pts ->
  (exists sol, solves p pts sol) ->
  let pX := lift_problem Fin m2 p in
  forall cb mk lk nk so m fuel (cfg : dict O) lin tol rtol (u0 : list Rops),
  resolve_solver_options mk lk nk so = Ok (m, cfg) -> m <> "arc_length"%string -> m <> "dynamic_relax"%string -> exact_linear B lin ->
  (lookup cfg "linear" = None /\ lin = [] \/ lookup cfg "linear" = Some (VDict lin)) ->
  option_value cfg "tol" (/ 10 ^ 6) tol -> 0 <= tol -> option_value cfg "rel_tol" (/ 10 ^ 8) rtol ->
  starts_from ravel_obj pX None cfg (lift1 Fin u0) -> List.length u0 = all_dofs (global_shapes p) ->
  exists sol, solver ravel_obj obj_of_sol B jvp2 pX (lift3 Fin pts) None cb mk lk nk (S fuel) so = Done (Ok (SolOnly (lift3 Fin sol))) /\
    (solves p pts sol \/ sol = unravel (sol_shapes p) u0 /\
       exists r x, newton_residual pX (lift3 Fin pts) None (lift1 Fin u0) r /\ xnorm r = Fin x /\ (x <= tol \/ x <= rtol * x)).
Proof. exact solver_one_step. Qed.
Print Assumptions C80_solver.

(** The linear solver is exact, for every choice of the back-end in the options, if the external methods are: none of the checks behind
    the options rejects or changes an exact solution. *)
Theorem C80_backends : forall (O : Type) (B : backends O) lin c, exact_backends B -> snd (linear_dispatch lin) = Ok c ->
  (forall o, c = CAmgx o -> b_pyamgx_available B = true) -> exact_linear B lin.
Proof. exact (@backends_linear). Qed.
Print Assumptions C80_backends.

(** The residual of linear elasticity with dead loads is affine. *)
Theorem C80_elastic_affine : forall (V : Type) lam mu (p : problem Rops V) f P,
  wf_problem p -> (0 < p_num_cells p)%nat -> elastic_problem lam mu p f -> ivs_ok p -> maps_ok (vec f) (dim f) (maps p) -> affine_residual p [P].
Proof. exact (@elastic_affine). Qed.
Print Assumptions C80_elastic_affine.

(** Linear elasticity without free motion has one solution, and solver() returns it (or the initial guess if that meets the tolerances). *)
Theorem C80_elastic : forall (O V : Type) ravel_obj obj_of_sol (B : backends O) jvp1 jvp2 lam mu (p : problem Rops V) f P m2 kf,
  wf_problem p -> (0 < p_num_cells p)%nat -> elastic_problem lam mu p f -> ivs_ok p -> maps_ok (vec f) (dim f) (maps p) -> 0 <= lam -> 0 < mu ->
  (forall c q, (c < p_num_cells p)%nat -> (q < num_quads f)%nat -> 0 < get_JxW P f c q) -> no_free_motion p f P ->
  kernels_ok p kf -> bcs_ok p -> bc_in_range f -> right_jvp jvp1 p [P] kf ->
  maps_agree Fin f (maps p) m2 -> jvp_agree (K1 := Rops) (K2 := Xops) Fin jvp1 jvp2 -> regular_mesh p [P] ->
  let pX := lift_problem Fin m2 p in
  exists x, solved sqrt p f P x /\ (forall y, solved sqrt p f P y -> y = x) /\
  forall cb mk lk nk so m fuel (cfg : dict O) lin tol rtol (u0 : list Rops),
  resolve_solver_options mk lk nk so = Ok (m, cfg) -> m <> "arc_length"%string -> m <> "dynamic_relax"%string -> exact_linear B lin ->
  (lookup cfg "linear" = None /\ lin = [] \/ lookup cfg "linear" = Some (VDict lin)) ->
  option_value cfg "tol" (/ 10 ^ 6) tol -> 0 <= tol -> option_value cfg "rel_tol" (/ 10 ^ 8) rtol ->
  starts_from ravel_obj pX None cfg (lift1 Fin u0) -> List.length u0 = all_dofs (global_shapes p) ->
  solver ravel_obj obj_of_sol B jvp2 pX (lift3 Fin [P]) None cb mk lk nk (S fuel) so = Done (Ok (SolOnly (lift3 Fin [x]))) \/
  solver ravel_obj obj_of_sol B jvp2 pX (lift3 Fin [P]) None cb mk lk nk (S fuel) so = Done (Ok (SolOnly (lift3 Fin (unravel (sol_shapes p) u0)))) /\
    exists r x, newton_residual pX (lift3 Fin [P]) None (lift1 Fin u0) r /\ xnorm r = Fin x /\ (x <= tol \/ x <= rtol * x).
Proof. exact elastic_solver. Qed.
Print Assumptions C80_elastic.

(** The hypotheses are met: the constructed elastic problem on every box clamped at x = 0, with the stress computed in the solver's numbers,
    differences of step one for jax.jvp (exact here) and exact back-ends, called without options. *)
Definition x_difference (f : list Xops -> list Xops) (x v : list Xops) : list Xops :=
  map2 (fun a b => sub a b) (f (line1 x v (one : Xops))) (f x).
Definition x_strain (G : nat -> nat -> Xops) (i j : nat) : Xops := mul (Fin (/ 2) : Xops) (add (G i j) (G j i)).
Definition x_elastic {V} (lam mu : R) (d : nat) (G : nat -> nat -> Xops) (_ : list V) (i j : nat) : Xops :=
  add (mul (mul (Fin lam : Xops) (sum_n d (fun m => x_strain G m m))) (if (i =? j)%nat then one else zero))
      (mul (Fin (2 * mu) : Xops) (x_strain G i j)).
Definition exact_solution (A : pmat) (b : list Xops) : list Xops := epsilon (inhabits []) (exactly A b).
Definition ideal (O : Type) : backends O :=
  mkBackends (fun _ A b _ _ => Ok (exact_solution A b)) (fun _ A b _ _ => Ok (exact_solution A b)) (fun _ A b => Ok (exact_solution A b))
    (fun _ _ _ _ A b _ => (Ok tt, exact_solution A b)) (fun _ _ A b _ _ => Ok (exact_solution A b)) true.
Lemma ideal_exact O : exact_backends (ideal O).
Proof.
  intros t A b SQ FB EX. assert (E : exactly A b (exact_solution A b)) by (exact (epsilon_spec (inhabits []) (exactly A b) EX)).
  repeat split; intros; eexists; (split; [reflexivity|exact E]).
Qed.
Lemma difference_agree : jvp_agree (K1 := Rops) (K2 := Xops) Fin difference x_difference.
Proof.
  intros f1 f2 x v E. unfold x_difference, difference, lift1.
  assert (L : line1 (K := Xops) (map Fin x) (map Fin v) one = map Fin (line1 (K := Rops) x v 1)) by (unfold line1; apply map2_map; reflexivity).
  assert (E1 : f2 (line1 (K := Xops) (map Fin x) (map Fin v) one) = map Fin (f1 (line1 (K := Rops) x v 1))) by (rewrite L; exact (E _)).
  assert (E2 : f2 (map Fin x) = map Fin (f1 x)) by exact (E x).
  refine (eq_trans (f_equal2 (map2 (fun a b : Xops => sub a b)) E1 E2) _). unfold map2. now rewrite combine_map, !map_map.
Qed.

Example C80_nonvacuous : forall (O V : Type) (ravel_obj : O -> list Xops) (obj_of_sol : list (list (list Xops)) -> O) cb Nx Ny Nz Lx Ly Lz,
  (0 < Nx)%nat -> (0 < Ny)%nat -> (0 < Nz)%nat -> 0 < Lx -> 0 < Ly -> 0 < Lz ->
  let P := m_points (box_mesh Nx Ny Nz Lx Ly Lz) in
  forall fquad normals A b g lam mu, (forall x, nth 0 x (@zero Rops) = 0 -> g x = true) -> 0 <= lam -> 0 < mu ->
  let rule := (flat_map (fun x => flat_map (fun y => map (fun z => [x; y; z]) [/ 4; 3 / 4]) [/ 4; 3 / 4]) [/ 4; 3 / 4], repeat (/ 8) 8) : list (list Rops) * list Rops in
  exists (p : problem Rops V) f x,
  problem_init sqrt 3 [mkVar P (m_cells (box_mesh Nx Ny Nz Lx Ly Lz)) 3 "HEX8" rule fquad normals (hold_affine 3 3 A b g)] None
    (only_tensor_map (elastic_stress lam mu 3)) (fun x y => (x, y)) = Ok p /\
  solved sqrt p f P x /\ (forall y, solved sqrt p f P y -> y = x) /\
  let pX := lift_problem Fin (only_tensor_map (x_elastic lam mu 3)) p in
  let run := solver ravel_obj obj_of_sol (ideal O) x_difference pX (lift3 Fin [P]) None cb METHOD_KEYS LINEAR_OPTION_KEYS NEWTON_OPTION_KEYS 1 None in
  run = Done (Ok (SolOnly (lift3 Fin [x]))) \/
  run = Done (Ok (SolOnly (lift3 Fin (unravel (sol_shapes p) (repeat 0 (all_dofs (global_shapes p))))))) /\
    exists r e, newton_residual pX (lift3 Fin [P]) None (lift1 Fin (repeat 0 (all_dofs (global_shapes p)))) r /\ xnorm r = Fin e /\ (e <= / 10 ^ 6 \/ e <= / 10 ^ 8 * e).
Proof.
  intros O V ravel_obj obj_of_sol cb Nx Ny Nz Lx Ly Lz HX HY HZ LX LY LZ P fquad normals A b g lam mu HG LAM MU rule.
  destruct (proj2 (patch_constructor V Nx Ny Nz Lx Ly Lz sqrt rule fquad normals 3 A b g (elastic_stress lam mu 3))) as (p & INIT).
  destruct (constructed _ _ _ _ _ _ _ _ _ _ _ _ _ _ INIT) as (f & B & PE).
  pose proof (constructed_wf _ _ f PE (box_mesh_ok Nx Ny Nz Lx Ly Lz HX HY HZ _ _ _ _ _ _ f B)) as WF.
  pose proof (constructed_std _ _ f PE) as STD.
  assert (Ev : vec f = 3%nat) by exact (built_vec _ _ _ _ _ _ _ _ _ _ _ B).
  assert (Ed : dim f = 3%nat) by exact (built_dim _ _ _ _ _ _ _ _ _ _ _ B).
  assert (EP : P = points f) by (symmetry; exact (built_points _ _ _ _ _ _ _ _ _ _ _ B)).
  assert (TM : tensor_map (maps p) = Some (elastic_stress lam mu (dim f))) by (rewrite Ed, PE; reflexivity).
  assert (FE : free_elastic p f lam mu) by (split; [exact STD|]; split; [congruence|]; split; [exact TM|]; rewrite PE; split; reflexivity).
  assert (EL : elastic_problem lam mu p f) by (split; [exact STD|]; split; [congruence|]; split; [exact TM|]; rewrite PE; split; intros; discriminate).
  pose proof (constructed_ivs _ _ f PE) as IVS. pose proof (fe_maps lam mu p f FE) as MAPS.
  pose proof (SelectFacts.dirichlet_prescribed f _ _ _ (built_bc _ _ _ _ _ _ _ _ _ _ _ _ f B)) as (_ & PR & RNG).
  assert (HELD : left_held f).
  { intros n k Hn Hk X. rewrite Ev in Hk. rewrite <- EP in Hn, X, PR. specialize (PR n k). rewrite dirichlet_value_hold in PR by auto. rewrite (HG _ X) in PR. eexists. exact PR. }
  destruct (box_clamped Nx Ny Nz Lx Ly Lz HX HY HZ LX LY LZ sqrt rule fquad normals _ f p lam mu B) as (NC & JP & RIGID & _); auto.
  { intros q Hq. change (q < 8)%nat in Hq. destruct q as [|[|[|[|[|[|[|[|q]]]]]]]]; [..|lia]; cbn; lra. }
  { exists (/ 4), (3 / 4). split; [lra|]. intros y z [->| ->] [->| ->]; [exists [/ 4; / 4; / 4]|exists [/ 4; / 4; 3 / 4]|exists [/ 4; 3 / 4; / 4]|exists [/ 4; 3 / 4; 3 / 4]];
    (split; [cbn; tauto|]; split; [reflexivity|]; split; [reflexivity|]; intros; reflexivity). }
  destruct (C80_elastic O V ravel_obj obj_of_sol (ideal O) difference x_difference lam mu p f P (only_tensor_map (x_elastic lam mu 3)) (std_kf p) WF NC EL IVS MAPS LAM MU JP RIGID (std_kernels p f STD))
    as (x & SX & UX & RUN).
  - exact (constructed_bcs _ _ _ _ _ _ _ _ _ _ _ _ _ _ f B PE).
  - apply RNG; [now rewrite seq_length, repeat_length|]. intros v Hv. apply in_seq in Hv. rewrite Ev. lia.
  - intros sol S. destruct (sol_one p f STD sol S) as (y & -> & _). split.
    + intros c Hc. apply (elastic_difference lam mu p f P y STD TM); [now rewrite PE|]. now apply cell_values_length.
    + intros s i Hs. rewrite PE in Hs. cbn in Hs. lia.
  - rewrite PE. cbn [maps]. split; [|cbn; auto]. cbn [tensor_map only_tensor_map both]. intros G G' iv E k j Hk Hj. unfold x_elastic, x_strain, elastic_stress, trace, strain.
    rewrite (lift_sum_n Fin Fin_hom 3 (fun m => mul (/ 2 : Rops) (add (G m m) (G m m)))) by (intros i Hi; rewrite E; reflexivity).
    rewrite !E. destruct (k =? j)%nat; reflexivity.
  - exact difference_agree.
  - split.
    + intros f' P' c q Hin Hc Hq Z. rewrite (fes_f p f STD) in Hin. destruct Hin as [Q|[]]. injection Q as <- <-.
      assert (F0 : fe0 p = f) by (unfold fe0; now rewrite (fes_f p f STD)). rewrite F0 in Hq.
      specialize (JP c q Hc Hq). unfold get_JxW in JP. fold P in JP. rewrite Z in JP. cbn in JP. rewrite Rmult_0_l in JP. lra.
    + intros f' P' s c fc q _ Hs. rewrite PE in Hs. destruct Hs.
  - exists p, f, x. split; [exact INIT|]. split; [exact SX|]. split; [exact UX|]. intros pX run.
    apply (RUN cb METHOD_KEYS LINEAR_OPTION_KEYS NEWTON_OPTION_KEYS None "newton"%string 0%nat [] [] (/ 10 ^ 6) (/ 10 ^ 8)); auto; try discriminate.
    + apply (C80_backends O (ideal O) [] (CJax (VBool true))); [apply ideal_exact|reflexivity|discriminate].
    + reflexivity.
    + apply Rlt_le, Rinv_0_lt_compat. lra.
    + reflexivity.
    + unfold starts_from. cbn [lookup]. unfold lift1. rewrite map_repeat'. f_equal. rewrite AssemblyFacts.all_dofs_total. symmetry. exact (lift_total Fin p _).
    + now rewrite repeat_length.
Qed.
Print Assumptions C80_nonvacuous.
