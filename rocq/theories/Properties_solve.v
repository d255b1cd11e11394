(** C79: linear elasticity is well posed. *)
From Coq Require Import String Reals List Arith Lia Lra Bool.
From Verif Require Import Num Arr Fe Problem SpecAssembly Basis SpecBasis SpecFe SolverBc SpecBc BcFacts SpecWeak KernelFacts GeomFacts SpecEnergy Elastic ElasticFacts SpecElastic Init SpecPatch PatchFacts Mesh MeshFe
  SpecDynamics DynamicsEnergy LinAlg SpecWave SpecSolve SolveFacts SolveBox.
Import ListNotations.
Local Open Scope R_scope.

(** C79. With non-negative lambda, positive mu, positive weights and no free motion there is exactly one displacement that takes every
    prescribed value and has no residual elsewhere, whatever the dead loads; *)
Theorem C79_one_solution : forall (V : Type) lam mu sqrtK (p : problem Rops V) (f : fe Rops) P,
  wf_problem p -> (0 < p_num_cells p)%nat -> elastic_problem lam mu p f -> ivs_ok p -> maps_ok (vec f) (dim f) (maps p) -> 0 <= lam -> 0 < mu ->
  (forall c q, (c < p_num_cells p)%nat -> (q < num_quads f)%nat -> 0 < get_JxW P f c q) -> no_free_motion p f P ->
  exists x, solved sqrtK p f P x /\ forall y, solved sqrtK p f P y ->
    forall n k, (n < List.length (points f))%nat -> (k < vec f)%nat -> get2 (@zero Rops) y n k = get2 (@zero Rops) x n k.
Proof. exact (@elastic_one_solution). Qed.
Print Assumptions C79_one_solution.

(** it has the least potential energy of all displacements that take the prescribed values; *)
Theorem C79_minimum : forall (V : Type) lam mu sqrtK (p : problem Rops V) (f : fe Rops) P,
  wf_problem p -> (0 < p_num_cells p)%nat -> elastic_problem lam mu p f -> ivs_ok p -> maps_ok (vec f) (dim f) (maps p) -> 0 <= lam -> 0 < mu ->
  (forall c q, (c < p_num_cells p)%nat -> (q < num_quads f)%nat -> 0 < get_JxW P f c q) ->
  forall x y, solved sqrtK p f P x -> sol_ok p [y] ->
  (forall n k b, (n < List.length (points f))%nat -> (k < vec f)%nat -> prescribed f n k = Some b -> get2 (@zero Rops) y n k = b) ->
  potential_energy lam mu sqrtK p f P x <= potential_energy lam mu sqrtK p f P y.
Proof. exact (@elastic_least). Qed.
Print Assumptions C79_minimum.

(** the matrix of the Newton step, with its rows replaced at the prescribed dofs, is regular at every state: every right hand side has
    exactly one solution; *)
Theorem C79_regular : forall (V : Type) lam mu sqrtK (p : problem Rops V) (f : fe Rops) P,
  wf_problem p -> (0 < p_num_cells p)%nat -> elastic_problem lam mu p f -> ivs_ok p -> maps_ok (vec f) (dim f) (maps p) -> 0 <= lam -> 0 < mu ->
  (forall c q, (c < p_num_cells p)%nat -> (q < num_quads f)%nat -> 0 < get_JxW P f c q) -> no_free_motion p f P ->
  forall jvp kf sol r0 W, sol_ok p [sol] -> kernels_ok p kf ->
  (forall c, (c < p_num_cells p)%nat -> jvp_correct jvp (cell_fun p [P] [sol] c) (cell_values p [sol] c)) ->
  (forall s i, (s < List.length (boundary_inds_list p))%nat -> (i < num_sel_faces p s)%nat ->
     jvp_correct jvp (face_fun sqrtK p [P] [sol] kf s i) (cell_values p [sol] (face_cell p s i))) ->
  bcs_ok p -> (forall f, In f (fes p) -> bc_in_range f) -> newton_update jvp sqrtK p [P] [sol] = Ok (r0, W) ->
  let n := all_dofs (global_shapes p) in
  forall b : nat -> Rops, exists x : nat -> Rops, (forall g, (g < n)%nat -> matvec (K := Rops) n (tangent p W) x g = b g) /\
    forall y : nat -> Rops, (forall g, (g < n)%nat -> matvec (K := Rops) n (tangent p W) y g = b g) -> forall g, (g < n)%nat -> y g = x g.
Proof. exact (@elastic_solve). Qed.
Print Assumptions C79_regular.

(** a box of hexahedra clamped on one side has no free motion, for every number of cells and every rule with two points per axis or more,
    so everything above holds of it; *)
Theorem C79_clamped_box : forall (V : Type) Nx Ny Nz Lx Ly Lz, (0 < Nx)%nat -> (0 < Ny)%nat -> (0 < Nz)%nat -> 0 < Lx -> 0 < Ly -> 0 < Lz ->
  let P := m_points (box_mesh Nx Ny Nz Lx Ly Lz) in
  forall sqrtK quad fquad normals dir f (p : problem Rops V) lam mu,
  fe_init (K := Rops) sqrtK "HEX8" quad fquad normals P (m_cells (box_mesh Nx Ny Nz Lx Ly Lz)) 3 3 dir = Ok f ->
  (forall q, (q < List.length (fst quad))%nat -> 0 < nth q (snd quad) (@zero Rops)) -> grid_rule 3 (fst quad) -> left_held f ->
  elastic_problem lam mu p f -> ivs_ok p -> maps_ok (vec f) (dim f) (maps p) -> 0 <= lam -> 0 < mu -> wf_problem p ->
  (0 < p_num_cells p)%nat /\ (forall c q, (c < p_num_cells p)%nat -> (q < num_quads f)%nat -> 0 < get_JxW P f c q) /\ no_free_motion p f P /\
  exists x, solved sqrtK p f P x /\ forall y, solved sqrtK p f P y ->
    forall n k, (n < List.length (points f))%nat -> (k < vec f)%nat -> get2 (@zero Rops) y n k = get2 (@zero Rops) x n k.
Proof. exact (@box_clamped). Qed.
Print Assumptions C79_clamped_box.

(** and so has a rectangle of quadrilaterals. *)
Theorem C79_clamped_rectangle : forall (V : Type) Nx Ny Lx Ly, (0 < Nx)%nat -> (0 < Ny)%nat -> 0 < Lx -> 0 < Ly ->
  let P := m_points (rectangle_mesh Nx Ny Lx Ly) in
  forall sqrtK quad fquad normals dir f (p : problem Rops V) lam mu,
  fe_init (K := Rops) sqrtK "QUAD4" quad fquad normals P (m_cells (rectangle_mesh Nx Ny Lx Ly)) 2 2 dir = Ok f ->
  (forall q, (q < List.length (fst quad))%nat -> 0 < nth q (snd quad) (@zero Rops)) -> grid_rule 2 (fst quad) -> left_held f ->
  elastic_problem lam mu p f -> ivs_ok p -> maps_ok (vec f) (dim f) (maps p) -> 0 <= lam -> 0 < mu -> wf_problem p ->
  (0 < p_num_cells p)%nat /\ (forall c q, (c < p_num_cells p)%nat -> (q < num_quads f)%nat -> 0 < get_JxW P f c q) /\ no_free_motion p f P /\
  exists x, solved sqrtK p f P x /\ forall y, solved sqrtK p f P y ->
    forall n k, (n < List.length (points f))%nat -> (k < vec f)%nat -> get2 (@zero Rops) y n k = get2 (@zero Rops) x n k.
Proof. exact (@rect_clamped). Qed.
Print Assumptions C79_clamped_rectangle.

(** The constructed elastic problem on every box whose held nodes include those of the plane x = 0 meets all the hypotheses, with the
    eight-point rule with points y, z in {1/4, 3/4} for example. *)
Example C79_nonvacuous : forall (V : Type) Nx Ny Nz Lx Ly Lz, (0 < Nx)%nat -> (0 < Ny)%nat -> (0 < Nz)%nat -> 0 < Lx -> 0 < Ly -> 0 < Lz ->
  let P := m_points (box_mesh Nx Ny Nz Lx Ly Lz) in
  forall sqrtK fquad normals A b g lam mu, (forall x, nth 0 x (@zero Rops) = 0 -> g x = true) ->
  let rule := (flat_map (fun x => flat_map (fun y => map (fun z => [x; y; z]) [/ 4; 3 / 4]) [/ 4; 3 / 4]) [/ 4; 3 / 4], repeat (/ 8) 8) : list (list Rops) * list Rops in
  exists (p : problem Rops V) f,
  problem_init sqrtK 3 [mkVar P (m_cells (box_mesh Nx Ny Nz Lx Ly Lz)) 3 "HEX8" rule fquad normals (hold_affine 3 3 A b g)] None
    (only_tensor_map (elastic_stress lam mu 3)) (fun x y => (x, y)) = Ok p /\
  fe_init (K := Rops) sqrtK "HEX8" rule fquad normals P (m_cells (box_mesh Nx Ny Nz Lx Ly Lz)) 3 3 (hold_affine 3 3 A b g) = Ok f /\
  (forall q, (q < List.length (fst rule))%nat -> 0 < nth q (snd rule) (@zero Rops)) /\ grid_rule 3 (fst rule) /\ left_held f /\
  elastic_problem lam mu p f /\ ivs_ok p /\ maps_ok (vec f) (dim f) (maps p) /\ wf_problem p /\ bcs_ok p.
Proof.
  intros V Nx Ny Nz Lx Ly Lz HX HY HZ LX LY LZ P sqrtK fquad normals A b g lam mu HG rule.
  destruct (proj2 (patch_constructor V Nx Ny Nz Lx Ly Lz sqrtK rule fquad normals 3 A b g (elastic_stress lam mu 3))) as (p & INIT).
  exists p. destruct (constructed _ _ _ _ _ _ _ _ _ _ _ _ _ _ INIT) as (f & B & PE). exists f. split; [exact INIT|]. split; [exact B|].
  pose proof (constructed_wf _ _ f PE (box_mesh_ok Nx Ny Nz Lx Ly Lz HX HY HZ _ _ _ _ _ _ f B)) as WF.
  pose proof (constructed_std _ _ f PE) as STD.
  assert (Ev : vec f = 3%nat) by exact (built_vec _ _ _ _ _ _ _ _ _ _ _ B).
  assert (Ed : dim f = 3%nat) by exact (built_dim _ _ _ _ _ _ _ _ _ _ _ B).
  assert (TM : tensor_map (maps p) = Some (elastic_stress lam mu (dim f))) by (rewrite Ed, PE; reflexivity).
  assert (FE : free_elastic p f lam mu) by (split; [exact STD|]; split; [congruence|]; split; [exact TM|]; rewrite PE; split; reflexivity).
  split. { intros q Hq. change (q < 8)%nat in Hq. destruct q as [|[|[|[|[|[|[|[|q]]]]]]]]; [..|lia]; cbn; lra. }
  split. { exists (/ 4), (3 / 4). split; [lra|]. intros y z [->| ->] [->| ->]; [exists [/ 4; / 4; / 4]|exists [/ 4; / 4; 3 / 4]|exists [/ 4; 3 / 4; / 4]|exists [/ 4; 3 / 4; 3 / 4]];
    (split; [cbn; tauto|]; split; [reflexivity|]; split; [reflexivity|]; intros; reflexivity). }
  split. { intros n k Hn Hk X. rewrite Ev in Hk. assert (EP : P = points f) by (symmetry; exact (built_points _ _ _ _ _ _ _ _ _ _ _ B)). rewrite <- EP in Hn, X.
    pose proof (proj1 (proj2 (SelectFacts.dirichlet_prescribed f _ _ _ (built_bc _ _ _ _ _ _ _ _ _ _ _ _ f B)))) as PR.
    rewrite <- EP in PR. specialize (PR n k). rewrite dirichlet_value_hold in PR by auto. rewrite (HG _ X) in PR. eexists. exact PR. }
  split. { split; [exact STD|]. split; [congruence|]. split; [exact TM|]. rewrite PE. split; intros; discriminate. }
  split; [exact (constructed_ivs _ _ f PE)|]. split; [exact (fe_maps lam mu p f FE)|]. split; [exact WF|].
  exact (constructed_bcs _ _ _ _ _ _ _ _ _ _ _ _ _ _ f B PE).
Qed.
Print Assumptions C79_nonvacuous.
