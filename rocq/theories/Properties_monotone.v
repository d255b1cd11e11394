(** C85: nonlinear problems with exactly one solution. *)
From Coq Require Import String Reals List Arith Lia Lra Bool.
From Verif Require Import Num Arr ArrFacts Fe Problem SpecAssembly BatchFacts ProblemFacts Basis SpecBasis SpecFe FeFacts GeomFacts SolverBc SpecBc BcFacts SpecWeak KernelFacts
  SpecEnergy EnergyFacts ElasticFacts EigenFacts Mesh MeshFacts MeshMain MeshFe Init SpecInit SpecPatch PatchFacts SpecSolve SolveBox SpecLinear SpecPosed PosedMain SpecMonotone MonoMain MonoUse.
Import ListNotations.
Local Open Scope R_scope.

(** C85. If at every quadrature point the stress and the source together grow at least k > 0 times and at most L times as fast as the field, measured in
    an inner product that may be degenerate, the surface loads are dead, and only the zero field has no size and is zero at the prescribed dofs, there is
    exactly one solution. *)
Theorem C85_one_solution : forall (V : Type) (p : problem Rops V) f P e k L,
  wf_problem p -> (0 < p_num_cells p)%nat -> standard_problem p f -> ivs_ok p -> maps_ok (vec f) (dim f) (maps p) ->
  (forall c q, (c < p_num_cells p)%nat -> (q < num_quads f)%nat -> 0 < get_JxW P f c q) ->
  (forall c q, (c < p_num_cells p)%nat -> (q < num_quads f)%nat -> semi_inner (vec f) (dim f) (e c q)) ->
  0 < k -> grows p f P e k L -> dead_tractions p -> all_seen p f P e -> one_solution p [P].
Proof. exact monotone_one. Qed.
Print Assumptions C85_one_solution.

(** If the maps derive from an energy, the solution has the least energy of all fields with the prescribed values, and by how much others have more
    is at least k / 2 times the square of their distance. *)
Theorem C85_minimum : forall (V : Type) (p : problem Rops V) f P e k L,
  wf_problem p -> (0 < p_num_cells p)%nat -> standard_problem p f -> ivs_ok p -> maps_ok (vec f) (dim f) (maps p) ->
  (forall c q, (c < p_num_cells p)%nat -> (q < num_quads f)%nat -> 0 <= get_JxW P f c q) ->
  (forall c q, (c < p_num_cells p)%nat -> (q < num_quads f)%nat -> semi_inner (vec f) (dim f) (e c q)) ->
  grows p f P e k L -> dead_tractions p ->
  forall (E : densities V) x y, densities_ok (vec f) (dim f) E -> (forall z, sol_ok p [z] -> derives_from p f P z E) ->
  solves p [P] [x] -> sol_ok p [y] -> meets_bcs f y ->
  total_energy sqrt p f P E x + k / 2 * size_of p f P e (along (K := Rops) y x (-1)) <= total_energy sqrt p f P E y.
Proof. intros V p f P e k L WF NC STD IVS MAPS JP EI G DT. exact (grows_minimum p f P WF NC STD IVS MAPS JP e k L EI G DT). Qed.
Print Assumptions C85_minimum.

(** A field with the prescribed values whose residual is small is close to the solution: what a converged Newton iterate guarantees. *)
Theorem C85_residual_bound : forall (V : Type) (p : problem Rops V) f P e k L,
  wf_problem p -> (0 < p_num_cells p)%nat -> standard_problem p f -> ivs_ok p -> maps_ok (vec f) (dim f) (maps p) ->
  (forall c q, (c < p_num_cells p)%nat -> (q < num_quads f)%nat -> 0 <= get_JxW P f c q) ->
  (forall c q, (c < p_num_cells p)%nat -> (q < num_quads f)%nat -> semi_inner (vec f) (dim f) (e c q)) ->
  0 < k -> grows p f P e k L -> dead_tractions p ->
  forall x y r, solves p [P] [x] -> sol_ok p [y] -> meets_bcs f y -> compute_residual sqrt p [P] [y] = Ok [r] ->
  k * size_of p f P e (along (K := Rops) y x (-1)) <= work (K := Rops) (List.length (points f)) (vec f) (along (K := Rops) y x (-1)) r /\
  forall c, 0 < c -> (forall d, sol_ok p [d] -> held_zero f d -> c * squares f d <= size_of p f P e d) ->
    (k * c) * (k * c) * squares f (along (K := Rops) y x (-1)) <= free_squares f r.
Proof. intros V p f P e k L WF NC STD IVS MAPS JP EI K0 G DT. exact (grows_bound p f P WF NC STD IVS MAPS JP e k L EI K0 G DT). Qed.
Print Assumptions C85_residual_bound.

(** Nonlinear diffusion: a flux that grows with the gradient, on a mesh of first-order elements on which every node is linked to a held one. *)
Theorem C85_flux : forall (V : Type) s sqrtK quad fquad normals pts cls v dir f (p : problem Rops V) P tm k L,
  fe_init (K := Rops) sqrtK s quad fquad normals pts cls v (element_dim s) dir = Ok f -> mesh_ok f -> sharp_rule s (fst quad) ->
  wf_problem p -> (0 < p_num_cells p)%nat -> standard_problem p f -> ivs_ok p -> maps_ok (vec f) (dim f) (maps p) ->
  tensor_map (maps p) = Some tm -> dead_source (maps p) -> dead_tractions p ->
  (forall c q, (c < p_num_cells p)%nat -> (q < num_quads f)%nat -> 0 < get_JxW P f c q) -> 0 < k ->
  (forall c q, (c < p_num_cells p)%nat -> (q < num_quads f)%nat -> flux_grows (vec f) (dim f) (fun G => tm G (iv_at p c q)) k L) ->
  anchored f -> one_solution p [P].
Proof. exact flux_one. Qed.
Print Assumptions C85_flux.

(** Nonlinear elasticity at small strains: a symmetric stress that grows with the strain, and no free motion. *)
Theorem C85_stress : forall (V : Type) (p : problem Rops V) f P tm k L,
  wf_problem p -> (0 < p_num_cells p)%nat -> standard_problem p f -> ivs_ok p -> maps_ok (vec f) (dim f) (maps p) ->
  vec f = dim f -> tensor_map (maps p) = Some tm -> dead_source (maps p) -> dead_tractions p ->
  (forall c q, (c < p_num_cells p)%nat -> (q < num_quads f)%nat -> 0 < get_JxW P f c q) -> 0 < k ->
  (forall c q, (c < p_num_cells p)%nat -> (q < num_quads f)%nat -> stress_grows (dim f) (fun G => tm G (iv_at p c q)) k L) ->
  no_free_motion p f P -> one_solution p [P].
Proof. exact stress_one. Qed.
Print Assumptions C85_stress.

(** The hypotheses are met: on every box, with any location function that selects a node, the problem with the flux 2 g + |g| entry by entry, which is
    nowhere differentiable where an entry of the gradient is zero, has exactly one solution. *)
Example C85_nonvacuous : forall (V : Type) Nx Ny Nz Lx Ly Lz, (0 < Nx)%nat -> (0 < Ny)%nat -> (0 < Nz)%nat -> 0 < Lx -> 0 < Ly -> 0 < Lz ->
  let P := m_points (box_mesh Nx Ny Nz Lx Ly Lz) in
  forall sqrtK fquad normals A b g, (exists n, (n < List.length P)%nat /\ g (nth n P []) = true) ->
  let rule := (flat_map (fun x => flat_map (fun y => map (fun z => [x; y; z]) [/ 4; 3 / 4]) [/ 4; 3 / 4]) [/ 4; 3 / 4], repeat (/ 8) 8) : list (list Rops) * list Rops in
  exists p : problem Rops V,
  problem_init sqrtK 3 [mkVar P (m_cells (box_mesh Nx Ny Nz Lx Ly Lz)) 1 "HEX8" rule fquad normals (hold_affine 3 1 A b g)] None
    (only_tensor_map (fun G _ k j => 2 * G k j + Rabs (G k j))) (fun x y => (x, y)) = Ok p /\ one_solution p [P].
Proof.
  intros V Nx Ny Nz Lx Ly Lz HX HY HZ LX LY LZ P sqrtK fquad normals A b g (n & Hn & Q) rule.
  destruct (proj2 (patch_constructor V Nx Ny Nz Lx Ly Lz sqrtK rule fquad normals 1 A b g (fun G _ k j => 2 * G k j + Rabs (G k j)))) as (p & INIT).
  exists p. split; [exact INIT|]. destruct (constructed _ _ _ _ _ _ _ _ _ _ _ _ _ _ INIT) as (f & B & PE).
  pose proof (box_mesh_ok Nx Ny Nz Lx Ly Lz HX HY HZ _ _ _ _ _ _ f B) as MO.
  pose proof (constructed_wf _ _ f PE MO) as WF.
  pose proof (constructed_std _ _ f PE) as STD. pose proof (constructed_ivs _ _ f PE) as IVS.
  assert (Ev : vec f = 1%nat) by exact (built_vec _ _ _ _ _ _ _ _ _ _ _ B).
  assert (EP : points f = P) by (exact (built_points _ _ _ _ _ _ _ _ _ _ _ B)).
  pose proof (box_num_cells Nx Ny Nz Lx Ly Lz HX HY HZ _ _ _ _ _ _ f B) as NCE.
  assert (CE : p_num_cells p = num_cells f) by (unfold p_num_cells, fe0; now rewrite (fes_f p f STD)).
  assert (PR : forall n, (n < List.length P)%nat -> prescribed f n 0 = if g (nth n P []) then Some (affine (K := Rops) 3 A b (fun i => nth i (nth n P []) (@zero Rops)) 0) else None).
  { intros n' Hn'. pose proof (SelectFacts.dirichlet_prescribed f _ _ _ (built_bc _ _ _ _ _ _ _ _ _ _ _ _ f B)) as (_ & PR & _). rewrite EP in PR. rewrite PR. now rewrite dirichlet_value_hold by auto. }
  refine (C85_flux V "HEX8" sqrtK rule fquad normals P _ 1 _ f p P (fun G _ k j => 2 * G k j + Rabs (G k j)) 1 3 B MO _ WF _ STD IVS _ _ _ _ _ _ _ _).
  - left. split; [reflexivity|]. exists (/ 4), (3 / 4). split; [lra|]. intros x L H. destruct x as [|a [|c [|e [|]]]]; try discriminate.
    pose proof (H 0%nat ltac:(lia)) as H0. pose proof (H 1%nat ltac:(lia)) as H1. pose proof (H 2%nat ltac:(lia)) as H2. cbn in H0, H1, H2.
    destruct H0 as [->| ->], H1 as [->| ->], H2 as [->| ->]; cbn; tauto.
  - rewrite CE, NCE. nia.
  - rewrite PE. cbn. split; [|split]; [|discriminate|discriminate]. intros tm E. injection E as <-. intros G G' iv H k j Hk Hj. now rewrite H.
  - rewrite PE. reflexivity.
  - intros mm u u' x iv k E. rewrite PE in E. discriminate.
  - intros sms sm u u' x iv k E. rewrite PE in E. discriminate.
  - intros c q Hc Hq. rewrite CE, NCE in Hc.
    refine (eq_ind_r (fun t : R => 0 < t) _ (box_JxW Nx Ny Nz Lx Ly Lz HX HY HZ _ _ _ _ _ _ f B c q Hc)).
    refine (eq_ind_r (fun t : R => 0 < Lx / INR Nx * (Ly / INR Ny) * (Lz / INR Nz) * t) _ (built_weights _ _ _ _ _ _ _ _ _ _ _ B q)).
    assert (0 < INR Nx /\ 0 < INR Ny /\ 0 < INR Nz) as (X & Y & Z) by (repeat split; apply lt_0_INR; auto).
    rewrite (built_quads _ _ _ _ _ _ _ _ _ _ _ B) in Hq.
    assert (QW : forall q, (q < 8)%nat -> 0 < nth q (repeat (/ 8) 8) (@zero Rops)) by (intros q' Hq'; destruct q' as [|[|[|[|[|[|[|[|q']]]]]]]]; [..|lia]; cbn; lra). pose proof (QW q Hq).
    repeat apply Rmult_lt_0_compat; try (apply Rinv_0_lt_compat; assumption); auto.
  - lra.
  - intros c q Hc Hq G G'. cbv beta. unfold minus2.
    assert (LOC : forall a b : R, (a - b) * (a - b) <= (2 * a + Rabs a - (2 * b + Rabs b)) * (a - b) /\
       (2 * a + Rabs a - (2 * b + Rabs b)) * (2 * a + Rabs a - (2 * b + Rabs b)) <= 9 * ((a - b) * (a - b))).
    { intros a c0. unfold Rabs. destruct (Rcase_abs a) as [X|X], (Rcase_abs c0) as [Y|Y]; pose proof (Rle_0_sqr (a - c0)) as S; pose proof (Rle_0_sqr a) as SA; pose proof (Rle_0_sqr c0) as SC; unfold Rsqr in *.
      - split; lra.
      - assert (0 <= - a * c0) by (apply Rmult_le_pos; lra). split; lra.
      - assert (0 <= a * - c0) by (apply Rmult_le_pos; lra). split; lra.
      - split; lra. }
    split; unfold dot2; rewrite <- Rsum_mul; apply EigenFacts.Rsum_le; intros i Hi; rewrite <- Rsum_mul; apply EigenFacts.Rsum_le; intros j Hj;
      destruct (LOC (G i j) (G' i j)) as (L1 & L2); cbn [mul Rops]; lra.
  - intros n' k Hn' Hk. rewrite Ev in Hk. assert (k = 0)%nat as -> by lia. exists n. rewrite EP. rewrite PR by auto. rewrite Q. eexists. split; [auto|]. split; [reflexivity|].
    rewrite (built_cells _ _ _ _ _ _ _ _ _ _ _ B). rewrite EP in Hn'. now apply box_linked.
Qed.
Print Assumptions C85_nonvacuous.
