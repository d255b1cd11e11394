(** C75: explicit dynamics. *)
From Coq Require Import String Reals List Arith Lia Lra Bool.
From Verif Require Import Num Arr Fe Problem SpecAssembly Basis SpecBasis SpecFe SolverBc SpecBc SpecWeak KernelFacts GeomFacts FeFacts SpecEnergy Elastic ElasticFacts SpecElastic Init SpecPatch PatchFacts Mesh MeshFe
  Dynamics SpecDynamics DynamicsFacts DynamicsMain DynamicsEnergy DynamicsBox DynamicsStable.
Import ListNotations.
Local Open Scope R_scope.

(** C75. The mass used for every component of a node is the lumped mass of the node, and the lumped masses of an element
    whose shape functions sum to one add up to rho times the volume; *)
Theorem C75_mass : forall (V : Type) (p : problem Rops V) (f : fe Rops) P rho, wf_problem p -> standard_problem p f ->
  shaped (length (points f)) (vec f) (mass f P rho) /\
  (forall n k, (n < length (points f))%nat -> (k < vec f)%nat -> get2 (@zero Rops) (mass f P rho) n k = lumped_mass f P rho n) /\
  (forall s, built_element s (dim f) f -> sum_n (K := Rops) (length (points f)) (fun n => lumped_mass f P rho n) = rho * volume f P).
Proof.
  intros V p f P rho WF STD. split; [exact (mass_shaped f P rho)|]. split; [exact (mass_entry p f P rho WF STD)|exact (mass_total p f P rho WF STD)].
Qed.
Print Assumptions C75_mass.

(** on a box mesh with HEX8 elements the volume is that of the box, times the sum of the weights, and every mass is positive if the
    quadrature points lie inside the reference cell and their weights are positive. *)
Theorem C75_box_mass : forall Nx Ny Nz Lx Ly Lz, (0 < Nx)%nat -> (0 < Ny)%nat -> (0 < Nz)%nat -> 0 < Lx -> 0 < Ly -> 0 < Lz ->
  let M := box_mesh Nx Ny Nz Lx Ly Lz in
  forall sqrtK (quad fquad : list (list Rops) * list Rops) normals v dir (f : fe Rops),
  fe_init (K := Rops) sqrtK "HEX8" quad fquad normals (m_points M) (m_cells M) v 3 dir = Ok f ->
  volume f (m_points M) = Lx * Ly * Lz * sum_n (K := Rops) (List.length (fst quad)) (fun q => nth q (snd quad) (@zero Rops)) /\
  ((0 < List.length (fst quad))%nat ->
   (forall q, (q < List.length (fst quad))%nat -> 0 < nth q (snd quad) (@zero Rops) /\ forall j, (j < 3)%nat -> 0 < nth j (nth q (fst quad) []) (@zero Rops) < 1) ->
   forall rho n, 0 < rho -> (n < List.length (points f))%nat -> 0 < lumped_mass f (m_points M) rho n).
Proof.
  intros Nx Ny Nz Lx Ly Lz HX HY HZ LX LY LZ M sqrtK quad fquad normals v dir f B. split.
  - exact (box_volume Nx Ny Nz Lx Ly Lz HX HY HZ _ _ _ _ _ _ f B).
  - intros Q0 QX. exact (box_mass_positive Nx Ny Nz Lx Ly Lz HX HY HZ LX LY LZ _ _ _ _ _ _ f B Q0 QX).
Qed.
Print Assumptions C75_box_mass.

(** Any standard problem: the run of n steps yields n + 1 states, the first is u0, all have the shape of the solution, and from the
    first step on the held dofs are zero. *)
Theorem C75_runs : forall (V : Type) sqrtK (p : problem Rops V) (f : fe Rops) P rho dt,
  wf_problem p -> (0 < p_num_cells p)%nat -> standard_problem p f -> ivs_ok p -> maps_ok (vec f) (dim f) (maps p) -> bc_ok f -> masses_ok f P rho ->
  forall n u0 v0, is_field f u0 -> is_field f v0 ->
  exists h, history sqrtK p f P rho dt n u0 v0 = Ok h /\ length h = S n /\ nth 0 h [] = u0 /\
    (forall i, (i <= n)%nat -> is_field f (nth i h [])) /\ (forall i, (0 < i <= n)%nat -> zero_on_held f (nth i h [])).
Proof.
  intros V sqrtK p f P rho dt WF NC STD IVS MAPS BC MASS n u0 v0 S1 S2.
  destruct (history_spec sqrtK p f P rho dt WF NC STD IVS MAPS BC MASS n u0 v0 S1 S2) as (h & up & E & _). exists h. split; [exact E|].
  exact (history_fields sqrtK p f P rho dt WF NC STD IVS MAPS BC MASS n u0 v0 h S1 S2 E).
Qed.
Print Assumptions C75_runs.

(** At every dof that is not held, mass times second difference is minus the residual of the problem, and the first step is the Taylor step. *)
Theorem C75_motion : forall (V : Type) sqrtK (p : problem Rops V) (f : fe Rops) P rho dt,
  wf_problem p -> (0 < p_num_cells p)%nat -> standard_problem p f -> ivs_ok p -> maps_ok (vec f) (dim f) (maps p) -> bc_ok f -> masses_ok f P rho ->
  forall n u0 v0 h, is_field f u0 -> is_field f v0 -> zero_on_held f u0 -> zero_on_held f v0 -> history sqrtK p f P rho dt n u0 v0 = Ok h ->
  (forall i, (S i < n)%nat -> exists res, compute_residual sqrtK p [P] [nth (S i) h []] = Ok [res] /\
     forall m k, (m < length (points f))%nat -> (k < vec f)%nat -> ~ constrained f m k ->
     lumped_mass f P rho m * (at_dof (nth (S (S i)) h []) m k - 2 * at_dof (nth (S i) h []) m k + at_dof (nth i h []) m k) = - (dt * dt) * at_dof res m k) /\
  ((0 < n)%nat -> exists res, compute_residual sqrtK p [P] [u0] = Ok [res] /\
     forall m k, (m < length (points f))%nat -> (k < vec f)%nat -> ~ constrained f m k ->
     at_dof (nth 1 h []) m k = at_dof u0 m k + dt * at_dof v0 m k + / 2 * (dt * dt) * (- at_dof res m k / lumped_mass f P rho m)).
Proof.
  intros V sqrtK p f P rho dt WF NC STD IVS MAPS BC MASS n u0 v0 h S1 S2 Z1 Z2 E. split.
  - intros i Hi. destruct (history_spec sqrtK p f P rho dt WF NC STD IVS MAPS BC MASS n u0 v0 S1 S2) as (h' & up & E' & _ & _ & _ & _ & _ & Q).
    rewrite E in E'. injection E' as <-. destruct (Q (S i) Hi) as (_ & _ & res & ER & _ & QF). cbn [nth] in ER, QF. exists res. split; [exact ER|exact QF].
  - intros Hn. destruct n as [|n]; [lia|].
    destruct (first_step sqrtK p f P rho dt WF NC STD IVS MAPS BC MASS n u0 v0 h S1 S2 Z1 Z2 E) as (a & (SA & ZA & res & ER & QA) & _ & H1).
    exists res. split; [exact ER|]. intros m k Hm Hk C. rewrite H1 by auto. specialize (QA m k Hm Hk C). specialize (MASS m k Hm Hk C).
    replace (- at_dof res m k / lumped_mass f P rho m) with (at_dof a m k); [reflexivity|]. rewrite <- QA. field. exact MASS.
Qed.
Print Assumptions C75_motion.

(** Started from its last two states in the other order, the scheme runs back through the same states. *)
Theorem C75_reversal : forall (V : Type) sqrtK (p : problem Rops V) (f : fe Rops) P rho dt,
  wf_problem p -> (0 < p_num_cells p)%nat -> standard_problem p f -> ivs_ok p -> maps_ok (vec f) (dim f) (maps p) -> bc_ok f -> masses_ok f P rho ->
  forall n u_previous u h x y t, is_field f u_previous -> is_field f u -> zero_on_held f u_previous -> zero_on_held f u ->
  scan sqrtK p f P rho dt n u_previous u = Ok h -> rev (u_previous :: u :: h) = x :: y :: t -> scan sqrtK p f P rho dt n x y = Ok t.
Proof. exact (@reversal). Qed.
Print Assumptions C75_reversal.

(** Without body forces and surface loads, the momentum of a component that no node holds never changes; *)
Theorem C75_momentum : forall (V : Type) sqrtK (p : problem Rops V) (f : fe Rops) P rho dt,
  wf_problem p -> (0 < p_num_cells p)%nat -> standard_problem p f -> ivs_ok p -> maps_ok (vec f) (dim f) (maps p) -> bc_ok f -> masses_ok f P rho ->
  mass_map (maps p) = None -> surface_maps (maps p) = None -> forall s, built_element s (dim f) f ->
  forall n u0 v0 h k i, is_field f u0 -> is_field f v0 -> zero_on_held f u0 -> zero_on_held f v0 -> dt <> 0 -> (k < vec f)%nat ->
  (forall m, (m < length (points f))%nat -> ~ constrained f m k) -> history sqrtK p f P rho dt n u0 v0 = Ok h -> (i < n)%nat ->
  momentum f P rho (comb (/ dt) (nth (S i) h []) (- / dt) (nth i h [])) k = momentum f P rho v0 k.
Proof. exact (@momentum_kept). Qed.
Print Assumptions C75_momentum.

(** in linear elasticity neither does the moment of momentum of two such components (about the undeformed positions), *)
Theorem C75_spin : forall (V : Type) lam mu sqrtK (p : problem Rops V) (f : fe Rops) P rho dt,
  wf_problem p -> (0 < p_num_cells p)%nat -> free_elastic p f lam mu -> ivs_ok p -> bc_ok f -> masses_ok f P rho -> dt <> 0 ->
  forall s, built_element s (dim f) f -> length P = length (points f) ->
  (forall c q, (c < p_num_cells p)%nat -> (q < num_quads f)%nat -> get_JxW P f c q <> 0) ->
  forall n u0 v0 h k1 k2 i, is_field f u0 -> is_field f v0 -> zero_on_held f u0 -> zero_on_held f v0 -> (k1 < dim f)%nat -> (k2 < dim f)%nat ->
  (forall m, (m < length (points f))%nat -> ~ constrained f m k1 /\ ~ constrained f m k2) -> history sqrtK p f P rho dt n u0 v0 = Ok h -> (i < n)%nat ->
  spin f P rho (comb (/ dt) (nth (S i) h []) (- / dt) (nth i h [])) k1 k2 = spin f P rho v0 k1 k2.
Proof. exact (@spin_kept). Qed.
Print Assumptions C75_spin.

(** and the energy between two states is the same for every step, whatever the time step. *)
Theorem C75_energy : forall (V : Type) lam mu sqrtK (p : problem Rops V) (f : fe Rops) P rho dt,
  wf_problem p -> (0 < p_num_cells p)%nat -> free_elastic p f lam mu -> ivs_ok p -> bc_ok f -> masses_ok f P rho -> dt <> 0 ->
  forall n u0 v0 h i a, is_field f u0 -> is_field f v0 -> zero_on_held f u0 -> zero_on_held f v0 -> history sqrtK p f P rho dt n u0 v0 = Ok h -> (i < n)%nat ->
  acceleration sqrtK p f P rho u0 = Ok a ->
  half_step_energy p f P lam mu rho dt (nth i h []) (nth (S i) h []) = kinetic f P rho v0 + strain_energy lam mu p f P u0 - dt * dt / 8 * mass_dot f P rho a a.
Proof. exact (@energy_kept). Qed.
Print Assumptions C75_energy.

(** If dt^2 / 4 times the strain energy of a velocity never exceeds theta times its kinetic energy, what the run holds after any number of
    steps is bounded by the energy it was given, *)
Theorem C75_stability : forall (V : Type) lam mu sqrtK (p : problem Rops V) (f : fe Rops) P rho dt,
  wf_problem p -> (0 < p_num_cells p)%nat -> free_elastic p f lam mu -> ivs_ok p -> bc_ok f -> masses_ok f P rho -> dt <> 0 ->
  forall n u0 v0 h i a theta, is_field f u0 -> is_field f v0 -> zero_on_held f u0 -> zero_on_held f v0 -> history sqrtK p f P rho dt n u0 v0 = Ok h -> (i < n)%nat ->
  acceleration sqrtK p f P rho u0 = Ok a ->
  (forall w, is_field f w -> zero_on_held f w -> dt * dt / 4 * strain_energy lam mu p f P w <= theta * kinetic f P rho w) ->
  strain_energy lam mu p f P (comb (/ 2) (nth i h []) (/ 2) (nth (S i) h [])) + (1 - theta) * kinetic f P rho (comb (/ dt) (nth (S i) h []) (- / dt) (nth i h []))
  <= kinetic f P rho v0 + strain_energy lam mu p f P u0 - dt * dt / 8 * mass_dot f P rho a a.
Proof. exact (@stable). Qed.
Print Assumptions C75_stability.

(** and with positive masses this holds for every dt below some positive bound. *)
Theorem C75_small_steps : forall (V : Type) lam mu (p : problem Rops V) (f : fe Rops) P rho,
  wf_problem p -> (0 < p_num_cells p)%nat -> free_elastic p f lam mu ->
  forall theta, 0 < theta -> (forall n, (n < length (points f))%nat -> 0 < lumped_mass f P rho n) ->
  exists dt0, 0 < dt0 /\ forall dt w, 0 < dt <= dt0 -> is_field f w -> dt * dt / 4 * strain_energy lam mu p f P w <= theta * kinetic f P rho w.
Proof. exact (@small_step). Qed.
Print Assumptions C75_small_steps.

(** On every box mesh, with any nodes held and any quadrature with points inside the cell and positive weights: the constructed elastic
    problem meets the hypotheses above; the fields with values c wherever no node is held are a start. *)
Example C75_nonvacuous : forall (V : Type) Nx Ny Nz Lx Ly Lz, (0 < Nx)%nat -> (0 < Ny)%nat -> (0 < Nz)%nat -> 0 < Lx -> 0 < Ly -> 0 < Lz ->
  let P := m_points (box_mesh Nx Ny Nz Lx Ly Lz) in
  forall sqrtK quad fquad normals A b g lam mu rho, 0 < rho -> (0 < List.length (fst quad))%nat ->
  (forall q, (q < List.length (fst quad))%nat -> 0 < nth q (snd quad) (@zero Rops) /\ forall j, (j < 3)%nat -> 0 < nth j (nth q (fst quad) []) (@zero Rops) < 1) ->
  exists (p : problem Rops V) f,
  problem_init sqrtK 3 [mkVar P (m_cells (box_mesh Nx Ny Nz Lx Ly Lz)) 3 "HEX8" quad fquad normals (hold_affine 3 3 A b g)] None
    (only_tensor_map (elastic_stress lam mu 3)) (fun x y => (x, y)) = Ok p /\
  wf_problem p /\ (0 < p_num_cells p)%nat /\ standard_problem p f /\ free_elastic p f lam mu /\ ivs_ok p /\ maps_ok (vec f) (dim f) (maps p) /\ bc_ok f /\
  masses_ok f P rho /\ (forall n, (n < length (points f))%nat -> 0 < lumped_mass f P rho n) /\ built_element "HEX8" (dim f) f /\ length P = length (points f) /\
  (forall c q, (c < p_num_cells p)%nat -> (q < num_quads f)%nat -> get_JxW P f c q <> 0) /\
  (forall n k, (n < length (points f))%nat -> (k < vec f)%nat -> (constrained f n k <-> g (nth n P []) = true)) /\
  (forall c, exists u, is_field f u /\ zero_on_held f u /\ forall n k, (n < length (points f))%nat -> (k < vec f)%nat -> ~ constrained f n k -> at_dof u n k = c).
Proof.
  intros V Nx Ny Nz Lx Ly Lz HX HY HZ LX LY LZ P sqrtK quad fquad normals A b g lam mu rho HR Q0 QX.
  destruct (proj2 (patch_constructor V Nx Ny Nz Lx Ly Lz sqrtK quad fquad normals 3 A b g (elastic_stress lam mu 3))) as (p & INIT).
  exists p. destruct (constructed _ _ _ _ _ _ _ _ _ _ _ _ _ _ INIT) as (f & B & PE). exists f. split; [exact INIT|].
  pose proof (constructed_wf _ _ f PE (box_mesh_ok Nx Ny Nz Lx Ly Lz HX HY HZ _ _ _ _ _ _ f B)) as WF.
  pose proof (constructed_std _ _ f PE) as STD.
  assert (Ev : vec f = 3%nat) by exact (built_vec _ _ _ _ _ _ _ _ _ _ _ B).
  assert (Ed : dim f = 3%nat) by exact (built_dim _ _ _ _ _ _ _ _ _ _ _ B).
  assert (En : p_num_cells p = (Nx * Ny * Nz)%nat) by (rewrite PE; exact (box_num_cells Nx Ny Nz Lx Ly Lz HX HY HZ _ _ _ _ _ _ f B)).
  assert (EN : num_cells f = (Nx * Ny * Nz)%nat) by exact (box_num_cells Nx Ny Nz Lx Ly Lz HX HY HZ _ _ _ _ _ _ f B).
  assert (TM : tensor_map (maps p) = Some (elastic_stress lam mu (dim f))) by (rewrite Ed, PE; reflexivity).
  assert (FE : free_elastic p f lam mu) by (split; [exact STD|]; split; [congruence|]; split; [exact TM|]; rewrite PE; split; reflexivity).
  assert (MP : forall n, (n < length (points f))%nat -> 0 < lumped_mass f P rho n).
  { intros n Hn. exact (box_mass_positive Nx Ny Nz Lx Ly Lz HX HY HZ LX LY LZ _ _ _ _ _ _ f B Q0 QX rho n HR Hn). }
  assert (EP : P = points f) by (symmetry; exact (built_points _ _ _ _ _ _ _ _ _ _ _ B)).
  assert (BC : bc_ok f) by (apply (constructed_bcs _ _ _ _ _ _ _ _ _ _ _ _ _ _ f B PE); rewrite PE; now left).
  assert (HELD : forall n k, (n < length (points f))%nat -> (k < vec f)%nat -> (constrained f n k <-> g (nth n P []) = true)).
  { intros n k Hn Hk. rewrite Ev in Hk. rewrite <- EP in Hn. pose proof (proj1 (proj2 (SelectFacts.dirichlet_prescribed f _ _ _ (built_bc _ _ _ _ _ _ _ _ _ _ _ _ f B)))) as PR.
    rewrite <- EP in PR. specialize (PR n k). rewrite dirichlet_value_hold in PR by auto. assert (PR' : prescribed f n k = if g (nth n P []) then Some (affine (K := Rops) 3 A b (fun i => nth i (nth n P []) (@zero Rops)) k) else None) by exact PR.
    rewrite BcFacts.prescribed_constrained, PR'. destruct (g (nth n P [])); split; intros H; [reflexivity|eexists; reflexivity|destruct H as (y & H); discriminate H|discriminate H]. }
  split; [exact WF|]. split; [rewrite En; nia|]. split; [exact STD|]. split; [exact FE|]. split; [exact (constructed_ivs _ _ f PE)|]. split; [exact (fe_maps lam mu p f FE)|].
  split; [exact BC|]. split; [intros n k Hn _ _; apply Rgt_not_eq; now apply MP|]. split; [exact MP|].
  split; [rewrite Ed; exact (box_element Nx Ny Nz Lx Ly Lz HX HY HZ _ _ _ _ _ _ f B)|]. split; [now rewrite EP|]. split; [|split; [exact HELD|]].
  - intros c q Hc Hq. apply Rgt_not_eq. apply (box_JxW_positive Nx Ny Nz Lx Ly Lz HX HY HZ LX LY LZ _ _ _ _ _ _ f B QX); [rewrite EN, <- En; exact Hc|exact Hq].
  - intros c. set (u := map (fun x => repeat (if g x then 0 else c) (vec f)) P : list (list Rops)). exists u.
    assert (AT : forall n k, (n < length (points f))%nat -> (k < vec f)%nat -> at_dof u n k = if g (nth n P []) then 0 else c).
    { intros n k Hn Hk. unfold at_dof, get2, u. rewrite (nth_indep _ _ (repeat (if g [] then 0 else c) (vec f))) by (rewrite map_length, EP; exact Hn).
      rewrite (map_nth (fun x => repeat (if g x then 0 else c) (vec f))). rewrite (nth_indep _ _ (if g (nth n P []) then 0 else c)) by (rewrite repeat_length; exact Hk). apply nth_repeat. }
    split; [|split].
    + split; [unfold u; now rewrite map_length, EP|]. intros row I. unfold u in I. apply in_map_iff in I as (x & <- & _). apply repeat_length.
    + intros n k Hn Hk C. rewrite AT by auto. apply HELD in C; auto. now rewrite C.
    + intros n k Hn Hk C. rewrite AT by auto. destruct (g (nth n P [])) eqn:E; [|reflexivity]. exfalso. apply C. now apply HELD.
Qed.
Print Assumptions C75_nonvacuous.
