(** C104: derivatives with respect to the mesh points. *)
From Coq Require Import String Reals List Arith Lia Lra Bool.
From Verif Require Import Num Arr Fe Problem SpecAssembly SpecFe SpecBc SpecLinear SpecPosed SolverBc Init Mesh MeshMain Lagrangian FractureUse DiffMesh SpecDiffMesh DiffMeshMain DiffMeshRun DiffMeshEnd DiffMeshPick DiffMeshFd DiffMeshMet.
Import ListNotations.
Local Open Scope R_scope.

(** As long as every location and value function tells the same of the moved nodes, a problem built anew on the moved points and the old problem evaluated with the moved points are
    one and the same: faces, residual, system of each Newton step, prescribed values, solutions. *)
Theorem C104_rebuilt : forall (V : Type) s quad fquad normals cls v d dir locs (m : user_maps Rops V) init pts pts' p,
  cells_valid cls pts -> same_boundaries dir locs pts pts' ->
  problem_init sqrt d [mkVar pts cls v s quad fquad normals dir] locs m init = Ok p ->
  exists p', problem_init sqrt d [mkVar pts' cls v s quad fquad normals dir] locs m init = Ok p' /\ map points (fes p') = [pts'] /\
    boundary_inds_list p' = boundary_inds_list p /\
    (forall sol, compute_residual sqrt p' [pts'] sol = compute_residual sqrt p [pts'] sol) /\
    (forall jvp sol, newton_update jvp sqrt p' [pts'] sol = newton_update jvp sqrt p [pts'] sol) /\
    (forall n j, prescribed (fe_of p' 0) n j = prescribed (fe_of p 0) n j) /\
    forall sol, solves p' [pts'] sol <-> solves p [pts'] sol.
Proof. exact rebuilt_problem. Qed.
Print Assumptions C104_rebuilt.
(** On every grid of the application these are met for every node of the lower edge moved up or down by the tolerance 1e-3 at most. *)
Example C104_rebuilt_met : forall Nx Ny i t, (0 < Nx)%nat -> (0 < Ny)%nat -> (i <= Nx)%nat -> Rabs t <= / 10 ^ 3 -> forall quad fquad normals, let M := rectangle_mesh Nx Ny 1 1 in
  cells_valid (m_cells M) (m_points M) /\ same_boundaries (Some dm_bc) (Some [Loc1 dm_bottom]) (m_points M) (moved (m_points M) (i * (Ny + 1)) 1 t) /\
  exists p, new_problem quad fquad normals (m_cells M) (m_points M) = Ok p.
Proof.
  intros Nx Ny i t HX HY Hi T quad fquad normals M. split; [exact (cells_ok Nx Ny HX HY)|]. split; [exact (moved_boundaries Nx Ny HX HY i Hi t T)|].
  destruct (dm_built Nx Ny HX HY quad fquad normals (m_points M) eq_refl) as (p & f & B & _). now exists p.
Qed.
Print Assumptions C104_rebuilt_met.
(** It is false without that: the parameters do not reach the prescribed values.  With the middle node of the upper edge moved to the right no field solves both problems. *)
Theorem C104_rebuilt_refuted : forall quad fquad normals, let M := rectangle_mesh 2 1 1 1 in
  exists p p', new_problem quad fquad normals (m_cells M) (m_points M) = Ok p /\ new_problem quad fquad normals (m_cells M) (moved (m_points M) 3 0 (/ 4)) = Ok p' /\
    nth 3 (m_points M) [] = [/ 2; 1] /\ forall sol, solves p [moved (m_points M) 3 0 (/ 4)] sol -> ~ solves p' [moved (m_points M) 3 0 (/ 4)] sol.
Proof. exact top_stale. Qed.
Print Assumptions C104_rebuilt_refuted.

(** The node chosen lies on the lower edge, is no corner, and no other such node is nearer to x = 0.35. *)
Theorem C104_node : forall Nx Ny, (1 < Nx)%nat -> (0 < Ny)%nat -> let P := m_points (rectangle_mesh Nx Ny 1 1) in
  exists r, pick_fd_node_on_neumann_edge P = Ok r /\
    exists i, r = (i * (Ny + 1))%nat /\ (0 < i < Nx)%nat /\ nth r P [] = [INR i / INR Nx; 0] /\
      forall k, (k <= Nx)%nat -> / 10 ^ 4 < INR k / INR Nx < 1 - / 10 ^ 4 -> Rabs (INR i / INR Nx - 35 / 100) <= Rabs (INR k / INR Nx - 35 / 100).
Proof.
  intros Nx Ny HX HY P. destruct (pick_ok Nx Ny HX HY) as (r & E). exists r. split; [exact E|]. destruct (pick_spec Nx Ny HX HY r E) as (i & -> & Hi & _ & H). exists i. split; [reflexivity|]. split; [exact Hi|].
  split; [|exact H]. pose proof (pk_point Nx Ny HX HY i 0 ltac:(lia) ltac:(lia)) as Q. rewrite Nat.add_0_r in Q. unfold P. cbn [INR] in Q. unfold Rdiv in Q at 2. now rewrite Rmult_0_l in Q.
Qed.
Print Assumptions C104_node.
(** With a single column of cells there is no such node, and the routine returns a corner without a word. *)
Theorem C104_node_refuted : forall Ny, (0 < Ny)%nat -> let P := m_points (rectangle_mesh 1 Ny 1 1) in pick_fd_node_on_neumann_edge P = Ok 0%nat /\ nth 0 P [] = [0; 0].
Proof.
  intros Ny HY P. split; [exact (pick_narrow Ny HY)|]. pose proof (n0_point 1 Ny ltac:(lia) HY 0 ltac:(lia)) as Q. cbn [Nat.mul INR] in Q. unfold Rdiv in Q. now rewrite !Rmult_0_l in Q.
Qed.
Print Assumptions C104_node_refuted.

(** The check of the numbers of faces decides exactly: with a solver that always returns, the run ends well for steps up to the tolerance 1e-3 and stops with RuntimeError for longer ones. *)
Theorem C104_check : forall Nx Ny, (0 < Nx)%nat -> (0 < Ny)%nat -> forall quad fquad normals solver, (forall p, exists sol, solver p = Ok sol) -> forall eps,
  (Rabs eps <= / 10 ^ 3 -> exists r, dm_main quad fquad normals solver Nx Ny eps = Ok r) /\ (/ 10 ^ 3 < Rabs eps -> dm_main quad fquad normals solver Nx Ny eps = Err RuntimeErr).
Proof. intros Nx Ny HX HY quad fquad normals. exact (main_outcome Nx Ny HX HY quad fquad normals). Qed.
Print Assumptions C104_check.

(** The nonlinear problem has one solution at most, on the mesh with a node of the lower edge moved by less than a cell as well. *)
Theorem C104_unique : forall Nx Ny, (0 < Nx)%nat -> (0 < Ny)%nat -> forall quad fquad normals, good_rule quad -> let M := rectangle_mesh Nx Ny 1 1 in
  forall p i t, (i <= Nx)%nat -> Rabs t < / INR Ny -> new_problem quad fquad normals (m_cells M) (m_points M) = Ok p ->
  forall x y, solves p [moved (m_points M) (i * (Ny + 1)) 1 t] x -> solves p [moved (m_points M) (i * (Ny + 1)) 1 t] y -> x = y.
Proof. intros Nx Ny HX HY quad fquad normals RULE M p i t Hi T B x y. exact (one_at_most Nx Ny HX HY quad fquad normals RULE p i t x y Hi T B). Qed.
Print Assumptions C104_unique.

(** The number returned by the finite difference is the difference quotient of the sum of the squares of THE solutions of the problem itself, evaluated with the moved points. *)
Theorem C104_finite_difference : forall Nx Ny, (0 < Nx)%nat -> (0 < Ny)%nat -> forall quad fquad normals solver, good_rule quad -> let M := rectangle_mesh Nx Ny 1 1 in
  exact_solver (new_problem quad fquad normals (m_cells M)) solver -> forall eps p node fd, Rabs eps < / INR Ny -> dm_main quad fquad normals solver Nx Ny eps = Ok (p, node, fd) ->
  (exists xm xp, solves p [moved (m_points M) node 1 (- eps)] [xm] /\ solves p [moved (m_points M) node 1 eps] [xp]) /\
  forall xm xp, solves p [moved (m_points M) node 1 (- eps)] [xm] -> solves p [moved (m_points M) node 1 eps] [xp] ->
    fd = (sum_of_squares (length (m_points M)) xp - sum_of_squares (length (m_points M)) xm) / (2 * eps).
Proof. intros Nx Ny HX HY quad fquad normals solver RULE M EX. exact (main_fd Nx Ny HX HY quad fquad normals solver RULE EX). Qed.
Print Assumptions C104_finite_difference.
(** Where the sum of squares J(t) of the solution of the problem with the points moved by t has a derivative, the finite differences tend to it. *)
Theorem C104_limit : forall Nx Ny, (0 < Nx)%nat -> (0 < Ny)%nat -> forall quad fquad normals solver, good_rule quad -> let M := rectangle_mesh Nx Ny 1 1 in
  exact_solver (new_problem quad fquad normals (m_cells M)) solver -> forall p node F J l r, 0 < r ->
  (forall eps, 0 < eps < r -> dm_main quad fquad normals solver Nx Ny eps = Ok (p, node, F eps)) ->
  (forall t, Rabs t < r -> exists x, solves p [moved (m_points M) node 1 t] [x] /\ J t = sum_of_squares (length (m_points M)) x) ->
  derivable_pt_lim J 0 l -> tends_to F l.
Proof. intros Nx Ny HX HY quad fquad normals solver RULE M EX. exact (main_limit Nx Ny HX HY quad fquad normals solver RULE EX). Qed.
Print Assumptions C104_limit.
(** An exact solver and runs that end: one column of cells, all nodes of which are prescribed. *)
Example C104_finite_difference_met : forall Ny fquad normals eps, (0 < Ny)%nat -> Rabs eps <= / 10 ^ 3 -> let M := rectangle_mesh 1 Ny 1 1 in let solver := prescribed_solver (length (m_points M)) in
  good_rule two_by_two /\ exact_solver (new_problem two_by_two fquad normals (m_cells M)) solver /\ exists r, dm_main two_by_two fquad normals solver 1 Ny eps = Ok r.
Proof.
  intros Ny fquad normals eps HY T M solver. split; [exact two_good|]. split; [exact (prescribed_exact 1 Ny ltac:(lia) HY two_by_two fquad normals)|exact (narrow_run Ny HY two_by_two fquad normals eps T)].
Qed.
Print Assumptions C104_finite_difference_met.

(** The source, the flux and the prescribed values belong to the exact solution of example.py: -(u_xx + u_yy) + u^3 - g = 0 with flux -u_y (outward normal (0, -1)) on the lower edge. *)
Theorem C104_manufactured : exists ux uy uxx uyy : R -> R -> R,
  (forall x y, derivable_pt_lim (fun x => u_exact_fn x y) x (ux x y) /\ derivable_pt_lim (fun y => u_exact_fn x y) y (uy x y) /\
     derivable_pt_lim (fun x => ux x y) x (uxx x y) /\ derivable_pt_lim (fun y => uy x y) y (uyy x y)) /\
  (forall u x, u 0%nat = u_exact_fn (x 0%nat) (x 1%nat) -> dm_mass u x 0%nat = uxx (x 0%nat) (x 1%nat) + uyy (x 0%nat) (x 1%nat)) /\
  (forall u x, neumann_flux u x 0%nat = uy (x 0%nat) 0) /\
  (forall y, u_exact_fn 0 y = u0 [0; y] /\ u_exact_fn 1 y = u0 [1; y]) /\ (forall x, u_exact_fn x 1 = u0_top [x; 1]).
Proof. exact manufactured. Qed.
Print Assumptions C104_manufactured.
