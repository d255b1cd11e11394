(** C81: linear problems with exactly one solution. *)
From Coq Require Import String Reals List Arith Lia Lra Bool.
From Verif Require Import Num Arr ArrFacts Fe Problem SpecAssembly BatchFacts ProblemFacts Basis SpecBasis SpecFe FeFacts GeomFacts SolverBc SpecBc BcFacts SpecWeak KernelFacts
  SpecEnergy EnergyFacts Mesh MeshFacts MeshMain MeshFe Init SpecInit SpecPatch PatchFacts XNum Options LinSolve Newton SpecNewton ArcLength DynRelax Solver SpecLift LiftFacts SpecLinear LinearFacts
  SpecPosed PosedFacts AffineFacts DiffusionFacts FieldFacts Quiet SpecQuiet Thermal SpecThermal PosedMain.
From Verif Require Import PyDict.
Import ListNotations.
Local Open Scope R_scope.

(** C81. A problem whose residual is affine in the solution, with any number of variables and any kernels, has exactly one solution if and only if
    no change that is zero at the prescribed dofs leaves the other residuals as they were. *)
Theorem C81_alternative : forall (V : Type) (p : problem Rops V) pts kf, wf_problem p -> (0 < p_num_cells p)%nat -> ivs_ok p -> kernels_ok p kf -> bcs_ok p ->
  affine_residual p pts -> (one_solution p pts <-> no_free_change p pts).
Proof.
  intros V p pts kf WF NC IVS KER BC AFF. split; [exact (free_from_one p pts kf WF NC IVS KER BC AFF)|exact (one_from_free p pts kf WF NC IVS KER BC AFF)].
Qed.
Print Assumptions C81_alternative.

(** Then the linear system of every Newton step, from every iterate, has exactly one solution for every right-hand side, *)
Theorem C81_regular : forall (V : Type) (p : problem Rops V) pts kf, wf_problem p -> (0 < p_num_cells p)%nat -> ivs_ok p -> kernels_ok p kf -> bcs_ok p ->
  affine_residual p pts -> forall jvp, (forall f, In f (fes p) -> bc_in_range f) -> right_jvp jvp p pts kf -> no_free_change p pts ->
  forall sol r0 W, sol_ok p sol -> newton_update jvp sqrt p pts sol = Ok (r0, W) -> let n := all_dofs (global_shapes p) in
  forall b : nat -> Rops, exists x : nat -> Rops, (forall g, (g < n)%nat -> matvec (K := Rops) n (tangent p W) x g = b g) /\
    forall y : nat -> Rops, (forall g, (g < n)%nat -> matvec (K := Rops) n (tangent p W) y g = b g) -> forall g, (g < n)%nat -> y g = x g.
Proof. intros V p pts kf WF NC IVS KER BC AFF jvp RNG RJ NF. exact (free_regular p pts kf WF NC IVS KER BC AFF jvp RNG RJ NF). Qed.
Print Assumptions C81_regular.

(** and solver() returns the solution (or the initial guess if that meets the tolerances). *)
Theorem C81_solver : forall (O V : Type) ravel_obj obj_of_sol (B : backends O) jvp1 jvp2 (p : problem Rops V) m2 pts kf,
  wf_problem p -> (0 < p_num_cells p)%nat -> ivs_ok p -> kernels_ok p kf -> bcs_ok p -> (forall f, In f (fes p) -> bc_in_range f) ->
  affine_residual p pts -> no_free_change p pts -> right_jvp jvp1 p pts kf ->
  maps_agree Fin (fe0 p) (maps p) m2 -> jvp_agree (K1 := Rops) (K2 := Xops) Fin jvp1 jvp2 -> regular_mesh p pts ->
  let pX := lift_problem Fin m2 p in
  exists x, solves p pts x /\ (forall y, solves p pts y -> y = x) /\
  forall cb mk lk nk so m fuel (cfg : dict O) lin tol rtol (u0 : list Rops),
  resolve_solver_options mk lk nk so = Ok (m, cfg) -> m <> "arc_length"%string -> m <> "dynamic_relax"%string -> exact_linear B lin ->
  (lookup cfg "linear" = None /\ lin = [] \/ lookup cfg "linear" = Some (VDict lin)) ->
  option_value cfg "tol" (/ 10 ^ 6) tol -> 0 <= tol -> option_value cfg "rel_tol" (/ 10 ^ 8) rtol ->
  starts_from ravel_obj pX None cfg (lift1 Fin u0) -> List.length u0 = all_dofs (global_shapes p) ->
  solver ravel_obj obj_of_sol B jvp2 pX (lift3 Fin pts) None cb mk lk nk (S fuel) so = Done (Ok (SolOnly (lift3 Fin x))) \/
  solver ravel_obj obj_of_sol B jvp2 pX (lift3 Fin pts) None cb mk lk nk (S fuel) so = Done (Ok (SolOnly (lift3 Fin (unravel (sol_shapes p) u0)))) /\
    exists r x, newton_residual pX (lift3 Fin pts) None (lift1 Fin u0) r /\ xnorm r = Fin x /\ (x <= tol \/ x <= rtol * x).
Proof. exact posed_solver. Qed.
Print Assumptions C81_solver.

(** Stress, source and tractions that are affine in the solution make the residual affine, and if only the zero field has no energy there is
    exactly one solution. *)
Theorem C81_definite : forall (V : Type) (p : problem Rops V) f P D, wf_problem p -> (0 < p_num_cells p)%nat -> standard_problem p f -> ivs_ok p ->
  maps_ok (vec f) (dim f) (maps p) -> affine_maps p f P D ->
  affine_residual p [P] /\ (bcs_ok p -> definite p f P D -> no_free_change p [P] /\ one_solution p [P]).
Proof.
  intros V p f P D WF NC STD IVS MAPS AM. pose proof (affine_from_maps p f P D WF NC STD IVS MAPS AM) as AFF. split; [exact AFF|]. intros BC DEF.
  pose proof (definite_free p f P D WF NC STD IVS MAPS AM DEF) as NF. split; [exact NF|]. exact (one_from_free p [P] (std_kf p) WF NC IVS (std_kernels p f STD) BC AFF NF).
Qed.
Print Assumptions C81_definite.

(** Diffusion with reaction and Robin conditions and nonnegative coefficients: exactly one solution if no field is free. *)
Theorem C81_diffusion : forall (V : Type) (p : problem Rops V) f P kappa alpha beta, wf_problem p -> (0 < p_num_cells p)%nat -> standard_problem p f -> ivs_ok p ->
  maps_ok (vec f) (dim f) (maps p) -> bcs_ok p -> diffusion_maps kappa alpha beta (maps p) -> diffusive kappa alpha beta p f P -> no_free_field kappa alpha beta p f P ->
  affine_residual p [P] /\ no_free_change p [P] /\ one_solution p [P].
Proof.
  intros V p f P kappa alpha beta WF NC STD IVS MAPS BC DM DIFF NF. split; [exact (diffusion_affine p f P kappa alpha beta WF NC STD IVS MAPS DM)|].
  split; [exact (diffusion_free p f P kappa alpha beta WF NC STD IVS MAPS DM DIFF NF)|exact (diffusion_one p f P kappa alpha beta WF NC STD IVS MAPS DM DIFF BC NF)].
Qed.
Print Assumptions C81_diffusion.

(** On every mesh of first-order elements where chains of cells lead from each node to a held one, whatever the shape of the cells; *)
Theorem C81_connected : forall (V : Type) s sqrtK quad fquad normals pts cls v dir f (p : problem Rops V) P kappa alpha beta,
  fe_init (K := Rops) sqrtK s quad fquad normals pts cls v (element_dim s) dir = Ok f -> mesh_ok f -> sharp_rule s (fst quad) ->
  wf_problem p -> (0 < p_num_cells p)%nat -> standard_problem p f -> ivs_ok p -> maps_ok (vec f) (dim f) (maps p) -> bcs_ok p ->
  diffusion_maps kappa alpha beta (maps p) -> diffusive kappa alpha beta p f P ->
  (forall c q, (c < p_num_cells p)%nat -> (q < num_quads f)%nat -> 0 < kappa (iv_at p c q)) -> anchored f ->
  no_free_change p [P] /\ one_solution p [P].
Proof. exact anchored_one. Qed.
Print Assumptions C81_connected.

(** without reaction and Robin conditions every component must be held somewhere, with any element; *)
Theorem C81_held_needed : forall (V : Type) s sqrtK quad fquad normals pts cls v dir f (p : problem Rops V) P kappa alpha beta,
  fe_init (K := Rops) sqrtK s quad fquad normals pts cls v (element_dim s) dir = Ok f -> In s nine_names -> mesh_ok f ->
  wf_problem p -> (0 < p_num_cells p)%nat -> standard_problem p f -> ivs_ok p -> maps_ok (vec f) (dim f) (maps p) -> bcs_ok p ->
  diffusion_maps kappa alpha beta (maps p) -> (forall x iv, alpha x iv = 0) -> (forall s x iv, beta s x iv = 0) -> (0 < List.length (points f))%nat ->
  one_solution p [P] -> some_held f.
Proof. exact held_needed. Qed.
Print Assumptions C81_held_needed.

(** one held node per component is enough on a box or a rectangle of any size. *)
Theorem C81_box : forall (V : Type) Nx Ny Nz Lx Ly Lz, (0 < Nx)%nat -> (0 < Ny)%nat -> (0 < Nz)%nat -> 0 < Lx -> 0 < Ly -> 0 < Lz ->
  let M := box_mesh Nx Ny Nz Lx Ly Lz in let P := m_points M in
  forall sqrtK quad fquad normals v dir f (p : problem Rops V) kappa alpha beta,
  fe_init (K := Rops) sqrtK "HEX8" quad fquad normals P (m_cells M) v 3 dir = Ok f ->
  (forall q, (q < List.length (fst quad))%nat -> 0 < nth q (snd quad) (@zero Rops)) -> full_grid 3 (fst quad) -> some_held f ->
  wf_problem p -> standard_problem p f -> ivs_ok p -> maps_ok (vec f) (dim f) (maps p) -> bcs_ok p ->
  diffusion_maps kappa alpha beta (maps p) -> boundary_inds_list p = [] ->
  (forall iv, 0 < kappa iv) -> (forall x iv, 0 <= alpha x iv) -> one_solution p [P].
Proof. exact box_one. Qed.
Print Assumptions C81_box.
Theorem C81_rectangle : forall (V : Type) Nx Ny Lx Ly, (0 < Nx)%nat -> (0 < Ny)%nat -> 0 < Lx -> 0 < Ly ->
  let M := rectangle_mesh Nx Ny Lx Ly in let P := m_points M in
  forall sqrtK quad fquad normals v dir f (p : problem Rops V) kappa alpha beta,
  fe_init (K := Rops) sqrtK "QUAD4" quad fquad normals P (m_cells M) v 2 dir = Ok f ->
  (forall q, (q < List.length (fst quad))%nat -> 0 < nth q (snd quad) (@zero Rops)) -> full_grid 2 (fst quad) -> some_held f ->
  wf_problem p -> standard_problem p f -> ivs_ok p -> maps_ok (vec f) (dim f) (maps p) -> bcs_ok p ->
  diffusion_maps kappa alpha beta (maps p) -> boundary_inds_list p = [] ->
  (forall iv, 0 < kappa iv) -> (forall x iv, 0 <= alpha x iv) -> one_solution p [P].
Proof. exact rect_one. Qed.
Print Assumptions C81_rectangle.

(** Every pass of the simulation with quiet elements, over any toolpath and whatever the earlier passes computed, poses a heat problem with
    exactly one solution, although quiet cells have no stiffness at all: their own nodes are held. *)
Theorem C81_thermal : forall quad fquad normals pts cls p solve tab,
  problem_init sqrt 3 [thermal_var "HEX8" quad fquad normals pts cls] (Some [Loc1 (fun _ => true)]) thermal_maps (fun a b => (a, b)) = Ok p ->
  mesh_arg_ok (thermal_var "HEX8" quad fquad normals pts cls) -> List.length tab = List.length cls -> cls <> [] -> full_grid 3 (fst quad) ->
  forall passes r rest ps f, quiet_element_simulation solve thermal_bc p tab passes = Ok r -> passes = (rest ++ [ps])%list -> fes (sm_problem (fst r)) = [f] ->
  0 < ps_dt ps ->
  (forall c q, (c < List.length cls)%nat -> nth c (active_after (List.length cls) tab passes) false = true -> (q < num_quads f)%nat -> 0 < get_JxW pts f c q) ->
  no_free_change (sm_problem (fst r)) [pts] /\ affine_residual (sm_problem (fst r)) [pts] /\ one_solution (sm_problem (fst r)) [pts].
Proof. exact thermal_one. Qed.
Print Assumptions C81_thermal.

(** The hypotheses are met: the constructed Laplace problem on every box has exactly one solution if and only if the location function selects a
    node. *)
Example C81_nonvacuous : forall (V : Type) Nx Ny Nz Lx Ly Lz, (0 < Nx)%nat -> (0 < Ny)%nat -> (0 < Nz)%nat -> 0 < Lx -> 0 < Ly -> 0 < Lz ->
  let P := m_points (box_mesh Nx Ny Nz Lx Ly Lz) in
  forall sqrtK fquad normals A b g,
  let rule := (flat_map (fun x => flat_map (fun y => map (fun z => [x; y; z]) [/ 4; 3 / 4]) [/ 4; 3 / 4]) [/ 4; 3 / 4], repeat (/ 8) 8) : list (list Rops) * list Rops in
  exists p : problem Rops V,
  problem_init sqrtK 3 [mkVar P (m_cells (box_mesh Nx Ny Nz Lx Ly Lz)) 1 "HEX8" rule fquad normals (hold_affine 3 1 A b g)] None
    (only_tensor_map (fun G _ k j => G k j)) (fun x y => (x, y)) = Ok p /\
  (one_solution p [P] <-> exists n, (n < List.length P)%nat /\ g (nth n P []) = true).
Proof.
  intros V Nx Ny Nz Lx Ly Lz HX HY HZ LX LY LZ P sqrtK fquad normals A b g rule.
  destruct (proj2 (patch_constructor V Nx Ny Nz Lx Ly Lz sqrtK rule fquad normals 1 A b g (fun G _ k j => G k j))) as (p & INIT).
  exists p. split; [exact INIT|]. destruct (constructed _ _ _ _ _ _ _ _ _ _ _ _ _ _ INIT) as (f & B & PE).
  pose proof (box_mesh_ok Nx Ny Nz Lx Ly Lz HX HY HZ _ _ _ _ _ _ f B) as MO.
  pose proof (constructed_wf _ _ f PE MO) as WF.
  pose proof (constructed_std _ _ f PE) as STD. pose proof (constructed_ivs _ _ f PE) as IVS.
  assert (Ev : vec f = 1%nat) by exact (built_vec _ _ _ _ _ _ _ _ _ _ _ B).
  assert (EP : points f = P) by (exact (built_points _ _ _ _ _ _ _ _ _ _ _ B)).
  assert (MAPS : maps_ok (vec f) (dim f) (maps p)).
  { rewrite PE. cbn. split; [|split]; [|discriminate|discriminate]. intros tm E. injection E as <-. intros G G' iv H k j Hk Hj. now apply H. }
  assert (DM : diffusion_maps (fun _ : list V => 1) (fun _ _ => 0) (fun _ _ _ => 0) (maps p)).
  { rewrite PE. split; [intros G iv k j; symmetry; apply Rmult_1_l|]. cbn [maps mass_map surface_maps only_tensor_map]. split; [intros; reflexivity|]. intros; discriminate. }
  pose proof (constructed_bcs _ _ _ _ _ _ _ _ _ _ _ _ _ _ f B PE) as BC.
  assert (PR : forall n, (n < List.length P)%nat -> prescribed f n 0 = if g (nth n P []) then Some (affine (K := Rops) 3 A b (fun i => nth i (nth n P []) (@zero Rops)) 0) else None).
  { intros n Hn. pose proof (SelectFacts.dirichlet_prescribed f _ _ _ (built_bc _ _ _ _ _ _ _ _ _ _ _ _ f B)) as (_ & PR & _). rewrite EP in PR. rewrite PR. now rewrite dirichlet_value_hold by auto. }
  split.
  - intros ONE. destruct (C81_held_needed V "HEX8" sqrtK rule fquad normals P _ 1 _ f p P (fun _ => 1) (fun _ _ => 0) (fun _ _ _ => 0) B) with (k := 0%nat) as (n & v & Hn & Q); auto.
    + cbn; tauto.
    + unfold p_num_cells, fe0. rewrite (fes_f p f STD). cbn [hd]; change (0 < num_cells f)%nat; rewrite (box_num_cells Nx Ny Nz Lx Ly Lz HX HY HZ _ _ _ _ _ _ f B). nia.
    + rewrite EP. unfold P. rewrite box_points_len by auto. nia.
    + rewrite Ev. lia.
    + exists n. rewrite EP in Hn. split; auto. rewrite PR in Q by auto. destruct (g (nth n P [])); [reflexivity|discriminate].
  - intros (n & Hn & Q). apply (C81_box V Nx Ny Nz Lx Ly Lz HX HY HZ LX LY LZ sqrtK rule fquad normals 1 _ f p (fun _ => 1) (fun _ _ => 0) (fun _ _ _ => 0) B); auto; try (intros; lra).
    + intros q Hq. change (q < 8)%nat in Hq. destruct q as [|[|[|[|[|[|[|[|q]]]]]]]]; [..|lia]; cbn; lra.
    + exists (/ 4), (3 / 4). split; [lra|]. intros x L H. destruct x as [|a [|c [|e [|]]]]; try discriminate.
      pose proof (H 0%nat ltac:(lia)) as H0. pose proof (H 1%nat ltac:(lia)) as H1. pose proof (H 2%nat ltac:(lia)) as H2. cbn in H0, H1, H2.
      destruct H0 as [->| ->], H1 as [->| ->], H2 as [->| ->]; cbn; tauto.
    + intros k Hk. rewrite Ev in Hk. assert (k = 0)%nat as -> by lia. exists n. rewrite EP. rewrite PR by auto. rewrite Q. eauto.
    + rewrite PE. reflexivity.
Qed.
Print Assumptions C81_nonvacuous.
