(** Vocabulary for C77. *)
From Coq Require Import List Arith Bool Reals.
From Verif Require Import Num Arr Fe Problem SpecAssembly SpecBc SpecWeak SpecPatch SpecEnergy Plasticity Lagrangian.
Import ListNotations.
Local Open Scope R_scope.

(** deformation gradient I + grad u of the nodal displacements u, from the points P *)
Definition deformation (P : list (list Rops)) (f : fe Rops) (u : list (list Rops)) (c q : nat) : tensor := fun i j =>
  (if (i =? j)%nat then 1 else 0) + sol_to_grad P f u c q i j.
(** a (nodes, 3) array *)
Definition nodal (f : fe Rops) (u : list (list Rops)) : Prop := shaped (length (points f)) 3 u.
(** every quadrature point of every cell has an invertible Jacobian *)
Definition nonsingular (P : list (list Rops)) (f : fe Rops) : Prop :=
  forall c q, (c < num_cells f)%nat -> (q < num_quads f)%nat -> det (K := Rops) 3 (jacobian_dx_deta P f c q) <> 0.
(** compressible neo-Hooke with mu = 1, lambda = 2: stored energy and first Piola-Kirchhoff stress of a deformation gradient *)
Definition neo_hooke_energy (F : tensor) : R :=
  1 / 2 * (sum_n (K := Rops) 3 (fun i => sum_n (K := Rops) 3 (fun j => F i j * F i j)) - 3) - ln (det (K := Rops) 3 F) + 2 / 2 * ln (det (K := Rops) 3 F) ^ 2.
Definition neo_hooke_stress (F : tensor) : tensor := fun i j =>
  F i j - inv_mat (K := Rops) 3 F j i + 2 * ln (det (K := Rops) 3 F) * inv_mat (K := Rops) 3 F j i.
(** the material point with a displacement gradient G and internal variables (anything, rho), weighted with rho^3 *)
Definition rho_of (iv : list ul_var) : R := as_scal (nth 1 iv (Scal 0)).
Definition gradient_to_deformation (G : tensor) : tensor := fun i j => (if (i =? j)%nat then 1 else 0) + G i j.
Definition reference_map (G : tensor) (iv : list ul_var) : tensor := fun i j =>
  rho_of iv ^ 3 * neo_hooke_stress (gradient_to_deformation G) i j.
Definition reference_densities : densities ul_var :=
  mkDensities (fun G iv => rho_of iv ^ 3 * neo_hooke_energy (gradient_to_deformation G)) (fun _ _ _ => 0) (fun _ _ _ _ => 0).
(** the same body described from its initial state: a subclass with a tensor map *)
Definition reference_problem (p : problem Rops ul_var) : problem Rops ul_var :=
  mkProblem (fes p) (boundary_inds_list p) (only_tensor_map reference_map) (internal_vars p) (internal_vars_surfaces p).

(** the problem of the application on some mesh of three-dimensional cells *)
Definition ul_problem (p : problem Rops ul_var) (f : fe Rops) : Prop :=
  wf_problem p /\ (0 < p_num_cells p)%nat /\ fes p = [f] /\ maps p = ul_maps f /\ boundary_inds_list p = [] /\ internal_vars_surfaces p = [] /\
  vec f = 3%nat /\ dim f = 3%nat.
(** the solver returns nodal arrays *)
Definition returns_nodal (f : fe Rops) (solve : nat -> problem Rops ul_var -> list (list Rops) -> result (list (list Rops))) : Prop :=
  forall i p P u, solve i p P = Ok u -> nodal f u.
(** the solver meets the prescribed values *)
Definition meets_prescribed (solve : nat -> problem Rops ul_var -> list (list Rops) -> result (list (list Rops))) : Prop :=
  forall i p P u n k b, solve i p P = Ok u -> prescribed (fe0 p) n k = Some b -> get2 0 u n k = b.
(** rotation of the section (y, z) by the angle th *)
Definition rotated (th : R) (y z : R) : R * R := (y * cos th - z * sin th, y * sin th + z * cos th).
(** a rotation matrix *)
Definition rotation (F : tensor) : Prop := det (K := Rops) 3 F = 1 /\
  forall i j, (i < 3)%nat -> (j < 3)%nat -> sum_n (K := Rops) 3 (fun k => F i k * F j k) = if (i =? j)%nat then 1 else 0.
(** displacement before pass i: the sum of the increments of the earlier passes *)
Definition no_step : ul_step := mkStep (mkProblem [] [] (mkMaps None None None None None) [] []) [] [] [] [].
Definition displacement (points0 : list (list Rops)) (steps : list ul_step) (i : nat) : list (list Rops) :=
  fold_left add2 (map us_delta (firstn i steps)) (zeros_like points0).
(** F_prev and rho kept by a problem at quadrature point q of cell c *)
Definition kept_F (p : problem Rops ul_var) (c q : nat) : tensor := as_tens (nth c (nth 0 (internal_vars p) []) (fun _ => Scal 0) q).
Definition kept_rho (p : problem Rops ul_var) (c q : nat) : R := as_scal (nth c (nth 1 (internal_vars p) []) (fun _ => Scal 0) q).
(** no cell is inverted at the start of pass i or of an earlier one *)
Definition valid_until (f : fe Rops) (points0 : list (list Rops)) (steps : list ul_step) (i : nat) : Prop :=
  nonsingular points0 f /\ forall j, (j <= i)%nat -> nonsingular (add2 points0 (displacement points0 steps j)) f.
