(** C108: one displacement variable of three components or two variables of one and two components. *)
From Coq Require Import Reals String List Arith Lia Lra Bool.
From Verif Require Import Num Arr Fe Problem SpecAssembly ResidualFacts Basis SpecBasis SpecBc SpecInit SpecElastic SpecLinear SpecWave SpecSolve Mesh SolveBox SpecMesh TwoVars SpecTwoVars TwoVarsMain TwoVarsEnd TwoVarsBox.
Import ListNotations.
Local Open Scope R_scope.

(** Both problems are built on every mesh of three dimensional points whose cells fit the element. *)
Theorem C108_built : forall {V} s quad fquad normals pts cls, In s nine_names ->
  (forall cell, In cell cls -> length cell = node_count s /\ forall n, In n cell -> (n < length pts)%nat) ->
  (exists p1, one_var_problem (V := V) s quad fquad normals pts cls = Ok p1) /\ (exists p2, two_vars_problem (V := V) s quad fquad normals pts cls = Ok p2).
Proof.
  intros V s quad fquad normals pts cls N C. destruct (one_make (V := V) s quad fquad normals pts cls N C) as (f & p1 & _ & E1 & _). destruct (two_make (V := V) s quad fquad normals pts cls N C) as (f0 & f1 & p2 & _ & _ & E2 & _). split; eauto.
Qed.
Print Assumptions C108_built.

(** The conditions: a tenth in the first direction and nothing else at the right side, zero at the left side, free elsewhere; the two variables hold the same values. *)
Theorem C108_bc : forall {V} s quad fquad normals pts cls, In s nine_names ->
  (forall cell, In cell cls -> length cell = node_count s /\ forall n, In n cell -> (n < length pts)%nat) ->
  forall p1 p2, one_var_problem (V := V) s quad fquad normals pts cls = Ok p1 -> two_vars_problem (V := V) s quad fquad normals pts cls = Ok p2 ->
  forall n, (n < length pts)%nat -> let x := nth 0 (nth n pts []) 0 in
  (forall k, (k < 3)%nat -> (at_right x -> prescribed (fe_of p1 0) n k = Some (if (k =? 0)%nat then / 10 else 0)) /\ (at_left x -> prescribed (fe_of p1 0) n k = Some 0) /\ (~ at_left x -> ~ at_right x -> prescribed (fe_of p1 0) n k = None)) /\
  prescribed (fe_of p2 0) n 0 = prescribed (fe_of p1 0) n 0 /\ prescribed (fe_of p2 1) n 0 = prescribed (fe_of p1 0) n 1 /\ prescribed (fe_of p2 1) n 1 = prescribed (fe_of p1 0) n 2.
Proof. intros V. exact (bc_both (V := V)). Qed.
Print Assumptions C108_bc.

(** The one variable problem is linear elasticity with the Lame parameters of E = 70000, nu = 0.3 and no loads: it has the residual of the standard problem. *)
Theorem C108_elastic : forall {V} s quad fquad normals pts cls (p1 : problem Rops V), In s nine_names -> (forall cell, In cell cls -> length cell = node_count s /\ forall n, In n cell -> (n < length pts)%nat) ->
  one_var_problem s quad fquad normals pts cls = Ok p1 -> exists f (e : problem Rops V),
  elastic_problem (70000 * (3 / 10) / ((1 + 3 / 10) * (1 - 2 * (3 / 10)))) (70000 / (2 * (1 + 3 / 10))) e f /\ mass_map (maps e) = None /\ surface_maps (maps e) = None /\ fes p1 = fes e /\
  forall P u, compute_residual sqrt p1 P u = compute_residual sqrt e P u.
Proof. intros V. exact (one_is_elastic (V := V)). Qed.
Print Assumptions C108_elastic.

(** The residual of the split field is the split residual, at any points. *)
Theorem C108_residual : forall {V} s quad fquad normals pts cls, In s nine_names ->
  (forall cell, In cell cls -> length cell = node_count s /\ forall n, In n cell -> (n < length pts)%nat) -> cls <> [] ->
  forall p1 p2, one_var_problem (V := V) s quad fquad normals pts cls = Ok p1 -> two_vars_problem (V := V) s quad fquad normals pts cls = Ok p2 ->
  forall P u, length P = length pts -> shaped (length pts) 3 u -> forall x y, split3 u x y ->
  exists r r0 r1, compute_residual sqrt p1 [P] [u] = Ok [r] /\ compute_residual sqrt p2 [P; P] [x; y] = Ok [r0; r1] /\ shaped (length pts) 3 r /\ split3 r r0 r1.
Proof. intros V. exact (both_residual (V := V)). Qed.
Print Assumptions C108_residual.

(** The solutions of the one are the solutions of the other, split. *)
Theorem C108_solves : forall {V} s quad fquad normals pts cls, In s nine_names ->
  (forall cell, In cell cls -> length cell = node_count s /\ forall n, In n cell -> (n < length pts)%nat) -> cls <> [] ->
  forall p1 p2, one_var_problem (V := V) s quad fquad normals pts cls = Ok p1 -> two_vars_problem (V := V) s quad fquad normals pts cls = Ok p2 ->
  (forall u x y, shaped (length pts) 3 u -> split3 u x y -> (solves p1 [pts] [u] <-> solves p2 [pts; pts] [x; y])) /\
  (forall sol, solves p1 [pts] sol -> exists u x y, sol = [u] /\ shaped (length pts) 3 u /\ split3 u x y /\ solves p2 [pts; pts] [x; y]) /\
  (forall sol, solves p2 [pts; pts] sol -> exists u x y, sol = [x; y] /\ shaped (length pts) 3 u /\ split3 u x y /\ solves p1 [pts] [u]).
Proof. intros V. exact (solves_same (V := V)). Qed.
Print Assumptions C108_solves.

(** On every box mesh, with a rule of positive weights that integrates the element, both have exactly one solution and it is the same displacement. *)
Theorem C108_box : forall {V} Nx Ny Nz Lx Ly Lz (quad fquad : list (list Rops) * list Rops) normals, (0 < Nx)%nat -> (0 < Ny)%nat -> (0 < Nz)%nat -> 0 < Lx -> 0 < Ly -> 0 < Lz ->
  (forall q, (q < length (fst quad))%nat -> 0 < nth q (snd quad) 0) -> grid_rule 3 (fst quad) ->
  let M := box_mesh Nx Ny Nz Lx Ly Lz in exists (p1 p2 : problem Rops V) u x y,
  one_var_problem "HEX8" quad fquad normals (m_points M) (m_cells M) = Ok p1 /\ two_vars_problem "HEX8" quad fquad normals (m_points M) (m_cells M) = Ok p2 /\
  split3 u x y /\ solves p1 [m_points M] [u] /\ (forall sol, solves p1 [m_points M] sol -> sol = [u]) /\
  solves p2 [m_points M; m_points M] [x; y] /\ (forall sol, solves p2 [m_points M; m_points M] sol -> sol = [x; y]).
Proof. intros V. exact (box_both (V := V)). Qed.
Print Assumptions C108_box.

(** The hypotheses are met: the rule with two points per axis at any two different places has the grid of [C108_box]. *)
Example C108_nonvacuous : grid_rule 3 [[1/4; 1/4; 1/4]; [1/4; 1/4; 3/4]; [1/4; 3/4; 1/4]; [1/4; 3/4; 3/4]; [3/4; 1/4; 1/4]; [3/4; 1/4; 3/4]; [3/4; 3/4; 1/4]; [3/4; 3/4; 3/4]].
Proof.
  exists (1/4), (3/4). split; [lra|]. intros y z [-> | ->] [-> | ->]; [exists [1/4; 1/4; 1/4]|exists [1/4; 1/4; 3/4]|exists [1/4; 3/4; 1/4]|exists [1/4; 3/4; 3/4]]; (split; [cbn; tauto|split; [reflexivity|split; [reflexivity|intros; reflexivity]]]).
Qed.
