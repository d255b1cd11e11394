(** Model of applications/arc_length/beam2d_force.py, beam2d_displacement.py and hyperelastic_models.py: the two buckling examples, and the balance which the
    force controlled arc length solver of jax_fem/solver.py drives to zero.  Simplifications: real arithmetic; jax.grad is an argument. *)
From Coq Require Import String List Arith Bool Reals.
From Verif Require Import Num Arr Fe Problem SolverBc Mesh Lagrangian Elastic Plasticity HyperElastic.
Import ListNotations.
Local Open Scope R_scope.

(** hyperelastic_models.py:9-19 *)
Definition beam_Lx : R := 50.
Definition beam_Ly : R := 2.
Definition beam_mesh : mesh := rectangle_mesh 50 2 beam_Lx beam_Ly.
(** hyperelastic_models.py:22-29 *)
Definition location_left (point : list Rops) : bool := isclose (nth 0 point 0) 0 (/ 10 ^ 5).
Definition location_right (point : list Rops) : bool := isclose (nth 0 point 0) beam_Lx (/ 10 ^ 5).
(** beam2d_force.py:25-26, beam2d_displacement.py:28-29 *)
Definition Rltb (x y : R) : bool := if Rlt_dec x y then true else false.
Definition location_midspan_bottom (point : list Rops) : bool :=
  isclose (nth 1 point 0) 0 (/ 10 ^ 5) && Rltb (beam_Lx / 2 - 2) (nth 0 point 0) && Rltb (nth 0 point 0) (beam_Lx / 2 + 2).
(** beam2d_force.py:22 *)
Definition END_TRACTION : R := 5.
(** beam2d_displacement.py:25 *)
Definition END_COMPRESSION : R := - (5 / 100) * beam_Lx.
(** beam2d_force.py:29-37 *)
Definition beam_zero (point : list Rops) : Rops := 0.
Definition clamped_left_dirichlet_bc_info : list (location_fn Rops) * list nat * list (list Rops -> Rops) :=
  ([Loc1 location_left; Loc1 location_left], [0; 1]%nat, [beam_zero; beam_zero]).
(** beam2d_displacement.py:32-43 *)
Definition compression_dirichlet_bc_info : list (location_fn Rops) * list nat * list (list Rops -> Rops) :=
  ([Loc1 location_left; Loc1 location_left; Loc1 location_right; Loc1 location_right], [0; 1; 0; 1]%nat, [beam_zero; beam_zero; (fun _ => END_COMPRESSION); beam_zero]).

Definition smap := (nat -> Rops) -> (nat -> Rops) -> list unit -> nat -> Rops.
(** beam2d_force.py:44-45, 47-48, 72-73 *)
Definition imperfection : smap := fun _ _ _ k => nth k [0; / 10 ^ 5] 0.
Definition end_traction : smap := fun _ _ _ k => nth k [END_TRACTION; 0] 0.
Definition counter_traction : smap := fun _ _ _ k => nth k [- END_TRACTION; 0] 0.
(** the maps of a problem with a stress and surface loads *)
Definition beam_maps (stress : tensor -> tensor) (loads : list smap) : user_maps Rops unit := mkMaps (Some (fun G _ => stress G)) None None (Some loads) None.
(** the problem of the variable f with the selected faces (problem.py:72-132; no internal variables) *)
Definition beam_problem (f : fe Rops) (stress : tensor -> tensor) (locs : list (location_fn Rops)) (loads : list smap) : result (problem Rops unit) :=
  bind (get_boundary_conditions_inds f (Some locs)) (fun inds => Ok (mkProblem [f] inds (beam_maps stress loads) [] (map (fun _ => []) inds))).
(** hyperelastic_models.py:32-52 *)
Definition beam_stress (grad : (tensor -> R) -> tensor -> tensor) : tensor -> tensor := first_PK_stress grad (psi 2 (10 ^ 3) (3 / 10)).
(** beam2d_force.py:40-50, 82-86 *)
Definition force_problem (grad : (tensor -> R) -> tensor -> tensor) (f : fe Rops) : result (problem Rops unit) :=
  beam_problem f (beam_stress grad) [Loc1 location_midspan_bottom; Loc1 location_right] [imperfection; end_traction].
(** beam2d_force.py:53-74, 87-90; f has no Dirichlet conditions here *)
Definition counter_problem (f : fe Rops) : result (problem Rops unit) := beam_problem f (fun _ _ _ => 0) [Loc1 location_right] [counter_traction].
(** beam2d_displacement.py:46-50, 58-62 *)
Definition displacement_problem (grad : (tensor -> R) -> tensor -> tensor) (f : fe Rops) : result (problem Rops unit) :=
  beam_problem f (beam_stress grad) [Loc1 location_midspan_bottom] [imperfection].
(** beam2d_displacement.py:64-68: the assertion on the numbers of nodes of the edges *)
Definition edges_checked (f : fe Rops) : bool := forallb (fun node_inds => (length node_inds =? 3)%nat) (node_inds_list f).

(** solver.py:637-642: the residual at zero, flat *)
Definition beam_q (P : list (list Rops)) (p : problem Rops unit) : result (list Rops) :=
  bind (compute_residual sqrt p [P] (unravel (sol_shapes p) (zeros (num_total_dofs_all_vars p)))) (fun r => Ok (ravel r)).
(** solver.py:647-651, 661, 669-671: res_vec + load_term at the solution sol and the parameter lamda *)
Definition beam_balance (P : list (list Rops)) (p : problem Rops unit) (q_aux : list Rops) (lamda : R) (sol : list (list Rops)) : result (list Rops) :=
  let q_aux_mapped := assign_zeros_bc q_aux p in
  bind (compute_residual sqrt p [P] [sol]) (fun res =>
  let res_vec := apply_bc_vec (ravel res) (ravel [sol]) p (1 : Rops) in
  let load_term := vscale ((1 - lamda) : Rops) q_aux_mapped in
  Ok (vadd res_vec load_term)).
(** solver.py:561-565, 583: res_vec of displacement control at the parameter lamda *)
Definition disp_balance (P : list (list Rops)) (p : problem Rops unit) (lamda : R) (sol : list (list Rops)) : result (list Rops) :=
  bind (compute_residual sqrt p [P] [sol]) (fun res => Ok (apply_bc_vec (ravel res) (ravel [sol]) p (lamda : Rops))).
