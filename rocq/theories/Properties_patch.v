(** C69: the patch test on the structured meshes. *)
From Coq Require Import String List Arith Bool Reals Lra Lia.
From Verif Require Import Num Arr Fe Problem SpecAssembly Basis SpecFe SolverBc SpecBc SpecWeak Init Mesh SpecMesh MeshFacts MeshMain MeshFe SpecPatch PatchFacts.
Import ListNotations.

(** C69. On rectangle_mesh with QUAD4 elements, for any stress law without position dependence, any quadrature rule and any affine field, the residual at
    every node inside the rectangle is the uniform load times the area of one cell times the sum of the weights. *)
Theorem C69_rectangle : forall (V : Type) Nx Ny Lx Ly, (0 < Nx)%nat -> (0 < Ny)%nat -> Lx <> 0%R -> Ly <> 0%R -> let P := m_points (rectangle_mesh Nx Ny Lx Ly) in
  forall sqrtK quad fquad normals v dir (f : fe Rops),
  fe_init sqrtK "QUAD4" quad fquad normals P (m_cells (rectangle_mesh Nx Ny Lx Ly)) v 2 dir = Ok f ->
  (forall q, (q < num_quads f)%nat -> quad_weights f q <> 0%R) ->
  forall (p : problem Rops V) sol A b load,
  wf_problem p -> standard_problem p f -> boundary_inds_list p = [] -> sol_ok p [sol] -> ivs_ok p -> maps_ok (vec f) 2 (maps p) ->
  homogeneous p -> samples 2 (vec f) A b P sol -> uniform_load p f P sol load ->
  exists res, compute_residual sqrtK p [P] [sol] = Ok [res] /\ shaped (List.length P) (vec f) res /\
  forall n k, (n < List.length P)%nat -> (k < vec f)%nat ->
    interior_node 2 (fun i => match i with 0%nat => Lx | _ => Ly end) P n ->
    get2 (@zero Rops) res n k = (load k * (Lx / INR Nx * (Ly / INR Ny)) * sum_n (K := Rops) (num_quads f) (quad_weights f))%R.
Proof.
  intros V Nx Ny Lx Ly HX HY LX LY P sqrtK quad fquad normals v dir f B W p sol A b load WF STD NS SOL IVS MAPS HOM SAMP LOAD.
  exact (rect_patch Nx Ny Lx Ly HX HY sqrtK quad fquad normals v dir f B p sol WF STD NS SOL IVS MAPS HOM A b SAMP W LX LY load LOAD).
Qed.
Print Assumptions C69_rectangle.

(** The same on box_mesh with HEX8 elements. *)
Theorem C69_box : forall (V : Type) Nx Ny Nz Lx Ly Lz, (0 < Nx)%nat -> (0 < Ny)%nat -> (0 < Nz)%nat -> Lx <> 0%R -> Ly <> 0%R -> Lz <> 0%R ->
  let P := m_points (box_mesh Nx Ny Nz Lx Ly Lz) in
  forall sqrtK quad fquad normals v dir (f : fe Rops),
  fe_init sqrtK "HEX8" quad fquad normals P (m_cells (box_mesh Nx Ny Nz Lx Ly Lz)) v 3 dir = Ok f ->
  (forall q, (q < num_quads f)%nat -> quad_weights f q <> 0%R) ->
  forall (p : problem Rops V) sol A b load,
  wf_problem p -> standard_problem p f -> boundary_inds_list p = [] -> sol_ok p [sol] -> ivs_ok p -> maps_ok (vec f) 3 (maps p) ->
  homogeneous p -> samples 3 (vec f) A b P sol -> uniform_load p f P sol load ->
  exists res, compute_residual sqrtK p [P] [sol] = Ok [res] /\ shaped (List.length P) (vec f) res /\
  forall n k, (n < List.length P)%nat -> (k < vec f)%nat ->
    interior_node 3 (fun i => match i with 0%nat => Lx | 1%nat => Ly | _ => Lz end) P n ->
    get2 (@zero Rops) res n k = (load k * (Lx / INR Nx * (Ly / INR Ny) * (Lz / INR Nz)) * sum_n (K := Rops) (num_quads f) (quad_weights f))%R.
Proof.
  intros V Nx Ny Nz Lx Ly Lz HX HY HZ LX LY LZ P sqrtK quad fquad normals v dir f B W p sol A b load WF STD NS SOL IVS MAPS HOM SAMP LOAD.
  exact (box_patch Nx Ny Nz Lx Ly Lz HX HY HZ sqrtK quad fquad normals v dir f B p sol WF STD NS SOL IVS MAPS HOM A b SAMP W LX LY LZ load LOAD).
Qed.
Print Assumptions C69_box.

(** From the constructor: a problem that only defines get_tensor_map, held at an affine field on (at least) the boundary nodes, is solved exactly by that field:
    the residual with Dirichlet rows, as the Newton solver forms it, is the zero vector. *)
Theorem C69_rectangle_solved : forall (V : Type) Nx Ny Lx Ly, (0 < Nx)%nat -> (0 < Ny)%nat -> Lx <> 0%R -> Ly <> 0%R ->
  let P := m_points (rectangle_mesh Nx Ny Lx Ly) in
  forall sqrtK quad fquad normals v A b g (tm : (nat -> nat -> Rops) -> list V -> nat -> nat -> Rops) (p : problem Rops V),
  problem_init sqrtK 2 [mkVar P (m_cells (rectangle_mesh Nx Ny Lx Ly)) v "QUAD4" quad fquad normals (hold_affine 2 v A b g)] None (only_tensor_map tm) (fun x y => (x, y)) = Ok p ->
  (forall q, (q < List.length (fst quad))%nat -> nth q (snd quad) (@zero Rops) <> 0%R) -> tensor_map_ok v 2 tm ->
  (forall n, (n < List.length P)%nat -> ~ interior_node 2 (fun i => match i with 0%nat => Lx | _ => Ly end) P n -> g (nth n P []) = true) ->
  exists res, compute_residual sqrtK p [P] [affine_values 2 v A b P] = Ok [res] /\
    apply_bc_vec (ravel [res]) (ravel [affine_values 2 v A b P]) p (@one Rops) = repeat (@zero Rops) (List.length P * v).
Proof.
  intros V Nx Ny Lx Ly HX HY LX LY P sqrtK quad fquad normals v A b g tm p INIT W TM G.
  exact (rect_constructed Nx Ny Lx Ly HX HY LX LY sqrtK quad fquad normals v A b g tm p INIT W TM G).
Qed.
Print Assumptions C69_rectangle_solved.

Theorem C69_box_solved : forall (V : Type) Nx Ny Nz Lx Ly Lz, (0 < Nx)%nat -> (0 < Ny)%nat -> (0 < Nz)%nat -> Lx <> 0%R -> Ly <> 0%R -> Lz <> 0%R ->
  let P := m_points (box_mesh Nx Ny Nz Lx Ly Lz) in
  forall sqrtK quad fquad normals v A b g (tm : (nat -> nat -> Rops) -> list V -> nat -> nat -> Rops) (p : problem Rops V),
  problem_init sqrtK 3 [mkVar P (m_cells (box_mesh Nx Ny Nz Lx Ly Lz)) v "HEX8" quad fquad normals (hold_affine 3 v A b g)] None (only_tensor_map tm) (fun x y => (x, y)) = Ok p ->
  (forall q, (q < List.length (fst quad))%nat -> nth q (snd quad) (@zero Rops) <> 0%R) -> tensor_map_ok v 3 tm ->
  (forall n, (n < List.length P)%nat -> ~ interior_node 3 (fun i => match i with 0%nat => Lx | 1%nat => Ly | _ => Lz end) P n -> g (nth n P []) = true) ->
  exists res, compute_residual sqrtK p [P] [affine_values 3 v A b P] = Ok [res] /\
    apply_bc_vec (ravel [res]) (ravel [affine_values 3 v A b P]) p (@one Rops) = repeat (@zero Rops) (List.length P * v).
Proof.
  intros V Nx Ny Nz Lx Ly Lz HX HY HZ LX LY LZ P sqrtK quad fquad normals v A b g tm p INIT W TM G.
  exact (box_constructed Nx Ny Nz Lx Ly Lz HX HY HZ LX LY LZ sqrtK quad fquad normals v A b g tm p INIT W TM G).
Qed.
Print Assumptions C69_box_solved.

(** The constructor returns for every mesh, rule, field and stress law, whatever nodes are held. *)
Theorem C69_nonvacuous : forall (V : Type) Nx Ny Nz Lx Ly Lz sqrtK quad fquad normals v A b g (tm : (nat -> nat -> Rops) -> list V -> nat -> nat -> Rops),
  (exists p, problem_init sqrtK 2 [mkVar (m_points (rectangle_mesh Nx Ny Lx Ly)) (m_cells (rectangle_mesh Nx Ny Lx Ly)) v "QUAD4" quad fquad normals
     (hold_affine 2 v A b g)] None (only_tensor_map tm) (fun x y => (x, y)) = Ok p) /\
  (exists p, problem_init sqrtK 3 [mkVar (m_points (box_mesh Nx Ny Nz Lx Ly Lz)) (m_cells (box_mesh Nx Ny Nz Lx Ly Lz)) v "HEX8" quad fquad normals
     (hold_affine 3 v A b g)] None (only_tensor_map tm) (fun x y => (x, y)) = Ok p).
Proof. exact (@patch_constructor). Qed.
Print Assumptions C69_nonvacuous.

(** A 2 x 2 mesh of the unit square has an inside node, number 4. *)
Example C69_inside : interior_node 2 (fun i => match i with 0%nat => 1%R | _ => 1%R end) (m_points (rectangle_mesh 2 2 1 1)) 4.
Proof.
  assert (E : nth 4 (m_points (rectangle_mesh 2 2 1 1)) [] = [(INR 1 * 1 / INR 2)%R; (INR 1 * 1 / INR 2)%R])
    by (apply (rect_point 2 2 1 1 ltac:(lia) ltac:(lia) 1 1); lia).
  intros i Hi. destruct i as [|[|i]]; [| |lia]; unfold strictly_between; (match goal with |- context [nth 4 ?l []] => change (nth 4 l []) with (nth 4 (m_points (rectangle_mesh 2 2 1 1)) []) end; rewrite E; cbn; lra).
Qed.
