(** C115. The compressed beam of applications/dynamic_relaxation with and without the small load which picks the branch. *)
From Coq Require Import Reals String List Arith Lia Lra Bool Permutation.
From Verif Require Import Num Arr ArrFacts BatchFacts Fe FeFacts GeomFacts Basis SpecBasis SpecFe Problem SpecAssembly AssemblyFacts ProblemFacts ResidualFacts SpecWeak KernelFacts ElasticFacts SolverBc SpecBc BcFacts BcMain SpecLinear Mesh MeshFacts MeshMain MeshFe SpecVolume Lagrangian Plasticity HyperElastic SpecHyper  Beam SpecBeam BeamMain BeamRun BeamEnd BeamMet RelaxBeam RelaxBeamMain.
Import ListNotations.
Local Open Scope R_scope.

(** The residuals of the two problems differ, for every field, by the small load across the beam spread over the nodes of the loaded cells. *)
Theorem C115_load : forall s (f : fe Rops) P grad p b1 pa, built_element s 2 f -> vec f = 2%nat -> (0 < num_cells f)%nat -> length P = length (points f) -> plane_map (beam_stress grad) ->
  displacement_problem grad f = Ok p -> boundary_inds_list p = [b1] -> relax_aux grad f = Ok pa -> exists w, sum_n (K := Rops) (length (points f)) w = faces_length P f b1 /\
  (forall n, (forall c fc a, In (c, fc) b1 -> (a < num_nodes f)%nat -> nth a (nth c (cells f) []) 0%nat <> n) -> w n = 0) /\
  forall sol, shaped (length (points f)) 2 sol -> exists res aux, compute_residual sqrt p [P] [sol] = Ok [res] /\ compute_residual sqrt pa [P] [sol] = Ok [aux] /\
    forall n, (n < length (points f))%nat -> get2 (@zero Rops) res n 0 = get2 (@zero Rops) aux n 0 /\ get2 (@zero Rops) res n 1 = get2 (@zero Rops) aux n 1 + / 10 ^ 5 * w n.
Proof. exact load_main. Qed.
Print Assumptions C115_load.

(** So the second solve, started from a solution of the first, starts with its held values in place and with exactly the negative small load as residual. *)
Theorem C115_start : forall s (f : fe Rops) P grad p b1 pa sol, built_element s 2 f -> vec f = 2%nat -> (0 < num_cells f)%nat -> length P = length (points f) -> plane_map (beam_stress grad) ->
  displacement_problem grad f = Ok p -> boundary_inds_list p = [b1] -> relax_aux grad f = Ok pa -> solves p [P] [sol] -> exists w aux, sum_n (K := Rops) (length (points f)) w = faces_length P f b1 /\ compute_residual sqrt pa [P] [sol] = Ok [aux] /\
  forall n k, (n < length (points f))%nat -> (k < 2)%nat -> match prescribed f n k with Some v => get2 (@zero Rops) sol n k = v | None => get2 (@zero Rops) aux n k = match k with 0%nat => 0 | _ => - (/ 10 ^ 5 * w n) end end.
Proof. exact start_main. Qed.
Print Assumptions C115_start.

(** On the mesh of the example no field balances both with and without the small load: the second solve never ends where it began. *)
Theorem C115_different : forall quad fquad normals (f : fe Rops) grad p pa, fe_init (K := Rops) sqrt "QUAD4" quad fquad normals (m_points beam_mesh) (m_cells beam_mesh) 2 2 (Some compression_dirichlet_bc_info) = Ok f -> facet_normals "QUAD4" 2 f -> plane_map (beam_stress grad) ->
  sum_n (K := Rops) (num_face_quads f) (fun q => nth q (snd fquad) 0) <> 0 -> displacement_problem grad f = Ok p -> relax_aux grad f = Ok pa -> forall sol, solves p [m_points beam_mesh] [sol] -> solves pa [m_points beam_mesh] [sol] -> False.
Proof. exact no_common. Qed.
Print Assumptions C115_different.

(** Hypotheses met: the beam of the example, face weights one half each and the derivative of the energy. *)
Example C115_met : forall quad, let fquad := ([[0]; [1]], [1 / 2; 1 / 2]) : list (list Rops) * list Rops in exists f p pa b1, let grad (_ : tensor -> R) := neo_stress 2 (10 ^ 3) (3 / 10) in
  fe_init (K := Rops) sqrt "QUAD4" quad fquad quad_normals (m_points beam_mesh) (m_cells beam_mesh) 2 2 (Some compression_dirichlet_bc_info) = Ok f /\ built_element "QUAD4" 2 f /\ vec f = 2%nat /\ num_cells f = 100%nat /\ facet_normals "QUAD4" 2 f /\
  sum_n (K := Rops) (num_face_quads f) (fun q => nth q (snd fquad) 0) = 1 /\ plane_map (beam_stress grad) /\ displacement_problem grad f = Ok p /\ relax_aux grad f = Ok pa /\ boundary_inds_list p = [b1] /\ length b1 = 2%nat /\ boundary_inds_list pa = [].
Proof. exact relax_met. Qed.
Print Assumptions C115_met.
