(** Model of applications/dynamic_relaxation/beam2d_displacement.py: the compressed beam with and without its small load.  The mesh, the location functions, the conditions and the
    loaded problem are those of Beam.v (beam_mesh, compression_dirichlet_bc_info, displacement_problem): lines 16-43, 73-76, 81-101, 105-108.  Simplifications: as there; the solver is not modelled here (DynRelax.v). *)
From Coq Require Import String List Arith Bool Reals.
From Verif Require Import Num Arr Fe Problem Lagrangian Plasticity HyperElastic Beam.
Import ListNotations.
Local Open Scope R_scope.

(** beam2d_displacement.py:46-67, 117-120: the same material, no surface maps and no location functions *)
Definition relax_aux (grad : (tensor -> R) -> tensor -> tensor) (f : fe Rops) : result (problem Rops unit) :=
  bind (get_boundary_conditions_inds f None) (fun inds => Ok (mkProblem [f] inds (mkMaps (K := Rops) (Some (fun G _ => beam_stress grad G)) None None None None) [] (map (fun _ => []) inds))).
