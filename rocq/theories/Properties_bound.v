(** C113. Boundaries selected by coordinates and by node numbers (applications/boundary_index). *)
From Coq Require Import Reals String List Arith Lia Lra Bool.
From Verif Require Import Num Fe Problem SpecFe Basis Mesh SelectFacts BoundIndex SpecBound BoundMain.
Import ListNotations.
Local Open Scope R_scope.

(** Location functions of one and of two arguments that accept the same nodes give the same variable, and raise in the same cases; *)
Theorem C113_same_nodes : forall (K : ops) sqrtK s quad fquad normals pts cls v d locs locs' vecs values, Forall2 (agree pts) locs locs' ->
  fe_init (K := K) sqrtK s quad fquad normals pts cls v d (Some (locs, vecs, values)) = fe_init (K := K) sqrtK s quad fquad normals pts cls v d (Some (locs', vecs, values)).
Proof. intros K. exact agree_init. Qed.
Print Assumptions C113_same_nodes.
(** and the same faces in the same order. *)
Theorem C113_same_faces : forall (K : ops) s d (f : fe K) locs locs', built_element s d f -> Forall2 (agree (points f)) locs locs' ->
  get_boundary_conditions_inds f (Some locs) = get_boundary_conditions_inds f (Some locs').
Proof. intros K s d f locs locs' (_ & _ & MO & sq & qd & fq & nm & p0 & cl & v & dr & BB). apply agree_faces. exact (built_faces_ok _ _ _ _ _ _ _ _ _ _ _ BB MO). Qed.
Print Assumptions C113_same_faces.

(** On every rectangle whose cells are wider than the tolerance the four sides have these numbers, so both ways of selecting them give the same variable and the same faces. *)
Theorem C113_sides : forall Nx Ny Lx Ly, (0 < Nx)%nat -> (0 < Ny)%nat -> wider Nx Lx -> wider Ny Ly ->
  forall n, (n < (Nx + 1) * (Ny + 1))%nat -> let x := nth n (m_points (rectangle_mesh Nx Ny Lx Ly)) [] in
  at_coordinate 0 0 x = (n <? Ny + 1)%nat /\ at_coordinate 0 Lx x = (Nx * (Ny + 1) <=? n)%nat /\ at_coordinate 1 0 x = (n mod (Ny + 1) =? 0)%nat /\ at_coordinate 1 Ly x = (n mod (Ny + 1) =? Ny)%nat.
Proof. intros Nx Ny Lx Ly HX HY WX WY n Hn. exact (grid Nx Ny Lx Ly HX HY WX WY n Hn). Qed.
Print Assumptions C113_sides.
Theorem C113_sides_select : forall sq quad fquad normals Nx Ny Lx Ly v vecs values, (0 < Nx)%nat -> (0 < Ny)%nat -> wider Nx Lx -> wider Ny Ly -> let M := rectangle_mesh Nx Ny Lx Ly in
  let by_coordinates := [Loc1 (at_coordinate 0 0); Loc1 (at_coordinate 0 Lx); Loc1 (at_coordinate 1 0); Loc1 (at_coordinate 1 Ly)] in
  let by_numbers := [Loc2 (fun _ n => (n <? Ny + 1)%nat); Loc2 (fun _ n => (Nx * (Ny + 1) <=? n)%nat); Loc2 (fun _ n => (n mod (Ny + 1) =? 0)%nat); Loc2 (fun _ n => (n mod (Ny + 1) =? Ny)%nat)] in
  fe_init (K := Rops) sq "QUAD4" quad fquad normals (m_points M) (m_cells M) v 2 (Some (by_coordinates, vecs, values)) = fe_init (K := Rops) sq "QUAD4" quad fquad normals (m_points M) (m_cells M) v 2 (Some (by_numbers, vecs, values)) /\
  forall dir f, fe_init (K := Rops) sq "QUAD4" quad fquad normals (m_points M) (m_cells M) v 2 dir = Ok f -> get_boundary_conditions_inds f (Some by_coordinates) = get_boundary_conditions_inds f (Some by_numbers).
Proof. exact side_swap. Qed.
Print Assumptions C113_sides_select.

(** The number sets of the example belong to its mesh: of all these rectangles they are the right and the top side together for the 2 x 2 mesh only. *)
Theorem C113_sets : forall Nx Ny Lx Ly, (0 < Nx)%nat -> (0 < Ny)%nat -> wider Nx Lx -> wider Ny Ly -> let pts := m_points (rectangle_mesh Nx Ny Lx Ly) : list (list Rops) in
  (agree pts (Loc1 (at_coordinate 0 Lx)) (Loc2 bi_right) <-> (Nx = 2 /\ Ny = 2 \/ Nx = 3 /\ Ny = 1)%nat) /\ (agree pts (Loc1 (at_coordinate 1 Ly)) (Loc2 bi_top) <-> (Nx <= 2 /\ Ny = 2)%nat).
Proof. exact grid_sets. Qed.
Print Assumptions C113_sets.

(** What the example prints, for all quadrature rules and normals. *)
Theorem C113_printed : forall quad fquad normals, exists f p, fe_init (K := Rops) sqrt "QUAD4" quad fquad normals (m_points bi_mesh) (m_cells bi_mesh) 1 2 (Some bi_info) = Ok f /\ bi_problem f = Ok p /\ built_element "QUAD4" 2 f /\
  node_inds_list f = [[0; 1; 2]; [6; 7; 8]]%nat /\ vec_inds_list f = [[0; 0; 0]; [0; 0; 0]]%nat /\ vals_list f = [[0; 0; 0]; [0; 0; 0]] /\ boundary_inds_list p = [[(0, 0); (2, 0)]; [(1, 3); (3, 3)]]%nat.
Proof. exact bi_main. Qed.
Print Assumptions C113_printed.

(** The hypotheses are met by the mesh of the example, and by functions that differ away from the nodes. *)
Example C113_met : wider 2 1 /\ Forall2 (agree (m_points bi_mesh : list (list Rops))) [Loc1 (at_coordinate 0 1); Loc1 (at_coordinate 1 1)] [Loc2 bi_right; Loc2 bi_top].
Proof.
  split; [exact bi_wider|]. destruct (grid_sets 2 2 1 1 ltac:(lia) ltac:(lia) bi_wider bi_wider) as ((_ & H1) & (_ & H2)). constructor; [apply H1; left; split; reflexivity|]. constructor; [apply H2; split; [lia|reflexivity]|constructor].
Qed.
Print Assumptions C113_met.
