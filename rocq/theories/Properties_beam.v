(** C112. The buckling beam of applications/arc_length under force and under displacement control. *)
From Coq Require Import Reals String List Arith Lia Lra Bool.
From Verif Require Import Num Arr Fe Problem SpecAssembly SpecFe Basis SpecBc SpecLinear SolverBc Mesh MeshFe GeomFacts HyperElastic SpecHyper HyperFacts HyperUse HyperEnd SpecVolume Plasticity ElasticFacts Beam SpecBeam BeamMain BeamRun BeamEnd BeamMet BeamDisp.
Import ListNotations.
Local Open Scope R_scope.

(** The main problem is the beam with the small load in the middle below and the load (5, 0) at the right end; the auxiliary problem finds the same end faces, and displacement control has the small load alone. *)
Theorem C112_problems : forall s (f : fe Rops) grad, built_element s 2 f -> exists b1 b2, selects f middle_below b1 /\ selects f right_end b2 /\
  (exists p, force_problem grad f = Ok p /\ fes p = [f] /\ boundary_inds_list p = [b1; b2]) /\
  (exists p, displacement_problem grad f = Ok p /\ fes p = [f] /\ boundary_inds_list p = [b1]) /\
  (forall sq qd fq nm p0 cl v dir f0, fe_init (K := Rops) sq s qd fq nm p0 cl v 2 dir = Ok f -> fe_init (K := Rops) sq s qd fq nm p0 cl v 2 None = Ok f0 -> exists p, counter_problem f0 = Ok p /\ fes p = [f0] /\ boundary_inds_list p = [b2]).
Proof.
  intros s f grad B. exists (faces_at f location_midspan_bottom), (faces_at f location_right). split; [exact (selects_of f _ _ _ middle_iff (faces_at_spec s 2 f _ B))|]. split; [exact (selects_of f _ _ _ right_iff (faces_at_spec s 2 f _ B))|].
  split; [eexists; split; [reflexivity|]; split; reflexivity|]. split; [eexists; split; [reflexivity|]; split; reflexivity|]. intros sq qd fq nm p0 cl v dir f0 B1 B0. pose proof (bare_init _ _ _ _ _ _ _ _ _ _ _ B1) as E. rewrite B0 in E. injection E as ->. eexists. split; [reflexivity|]. split; reflexivity.
Qed.
Print Assumptions C112_problems.

(** At the parameter lam the vector which the solver drives to zero is, at every free value, the residual of the beam with the end load (5 lam, 0), and at a held value the distance to the prescribed one. *)
Theorem C112_balance : forall s sq qd fq nm p0 cl dir (f f0 : fe Rops) P grad p pc b1 b2, fe_init (K := Rops) sq s qd fq nm p0 cl 2 2 dir = Ok f -> fe_init (K := Rops) sq s qd fq nm p0 cl 2 2 None = Ok f0 ->
  built_element s 2 f -> (0 < num_cells f)%nat -> plane_map (beam_stress grad) -> bc_ok f ->
  force_problem grad f = Ok p -> boundary_inds_list p = [b1; b2] -> counter_problem f0 = Ok pc -> exists q, beam_q P pc = Ok q /\
  forall lam sol, shaped (length (points f)) 2 sol -> exists r res, beam_balance P p q lam sol = Ok r /\ length r = (length (points f) * 2)%nat /\
    compute_residual sqrt (loaded_beam f (beam_stress grad) b1 b2 (lam * 5)) [P] [sol] = Ok [res] /\
    (forall n k, (n < length (points f))%nat -> (k < 2)%nat -> nth (n * 2 + k) r 0 = match prescribed f n k with Some v => get2 (@zero Rops) sol n k - v | None => get2 (@zero Rops) res n k end) /\
    ((forall i, (i < length (points f) * 2)%nat -> nth i r 0 = 0) <-> solves (loaded_beam f (beam_stress grad) b1 b2 (lam * 5)) [P] [sol]).
Proof. exact balance_main. Qed.
Print Assumptions C112_balance.

(** The bounds of the path: at 0 only the small load acts, at 1 the vector is the one of the main problem itself. *)
Theorem C112_ends : forall s sq qd fq nm p0 cl dir (f f0 : fe Rops) P grad p pc b1 b2, fe_init (K := Rops) sq s qd fq nm p0 cl 2 2 dir = Ok f -> fe_init (K := Rops) sq s qd fq nm p0 cl 2 2 None = Ok f0 ->
  built_element s 2 f -> (0 < num_cells f)%nat -> plane_map (beam_stress grad) -> bc_ok f ->
  force_problem grad f = Ok p -> boundary_inds_list p = [b1; b2] -> counter_problem f0 = Ok pc -> exists q, beam_q P pc = Ok q /\
  forall sol, shaped (length (points f)) 2 sol ->
    (forall r, beam_balance P p q 0 sol = Ok r -> ((forall i, (i < length (points f) * 2)%nat -> nth i r 0 = 0) <-> solves (loaded_beam f (beam_stress grad) b1 b2 0) [P] [sol])) /\
    (forall r, beam_balance P p q 1 sol = Ok r -> ((forall i, (i < length (points f) * 2)%nat -> nth i r 0 = 0) <-> solves p [P] [sol])).
Proof. exact ends_main. Qed.
Print Assumptions C112_ends.

(** For every field, in equilibrium or not, the residual adds up to the two loads times the lengths of their faces: the stress adds nothing. *)
Theorem C112_total : forall s (f : fe Rops) P grad p b1 b2 T sol res, built_element s 2 f -> vec f = 2%nat -> (0 < num_cells f)%nat -> length P = length (points f) -> plane_map (beam_stress grad) ->
  force_problem grad f = Ok p -> boundary_inds_list p = [b1; b2] -> shaped (length (points f)) 2 sol -> compute_residual sqrt (loaded_beam f (beam_stress grad) b1 b2 T) [P] [sol] = Ok [res] ->
  sum_n (K := Rops) (length (points f)) (fun n => get2 (@zero Rops) res n 0) = T * faces_length P f b2 /\ sum_n (K := Rops) (length (points f)) (fun n => get2 (@zero Rops) res n 1) = / 10 ^ 5 * faces_length P f b1.
Proof. exact total_main. Qed.
Print Assumptions C112_total.

(** At equilibrium under the end load (T, 0) the held values carry T times the length of the end and 1e-5 times the length of the middle faces: the supports push along +x, so the load (5, 0) presses the beam against the clamp. *)
Theorem C112_support : forall s (f : fe Rops) P grad p b1 b2 T sol, built_element s 2 f -> vec f = 2%nat -> (0 < num_cells f)%nat -> length P = length (points f) -> plane_map (beam_stress grad) ->
  force_problem grad f = Ok p -> boundary_inds_list p = [b1; b2] -> solves (loaded_beam f (beam_stress grad) b1 b2 T) [P] [sol] ->
  exists res, compute_residual sqrt (loaded_beam f (beam_stress grad) b1 b2 T) [P] [sol] = Ok [res] /\
    let held k := sum_n (K := Rops) (length (points f)) (fun n => match prescribed f n k with Some _ => get2 (@zero Rops) res n k | None => 0 end) in
    held 0%nat = T * faces_length P f b2 /\ held 1%nat = / 10 ^ 5 * faces_length P f b1.
Proof. exact support_main. Qed.
Print Assumptions C112_support.

(** The stress of the beam is the derivative of the two-dimensional neo-Hookean energy with E = 1000 and nu = 0.3. *)
Theorem C112_stress : forall grad, grad_correct 2 grad (psi 2 (10 ^ 3) (3 / 10)) -> plane_map (beam_stress grad) /\
  forall G, 0 < det (K := Rops) 2 (fun i j => G i j + identity i j) -> same 2 (beam_stress grad G) (neo_stress 2 (10 ^ 3) (3 / 10) (fun i j => G i j + identity i j)).
Proof. intros grad GC. split; [exact (grad_plane grad GC)|]. intros G D. exact (grad_is 2 _ _ grad _ (lawful_psi 2 (10 ^ 3) (3 / 10) (or_introl eq_refl)) GC D). Qed.
Print Assumptions C112_stress.

(** Force control clamps the left end and holds nothing else; *)
Theorem C112_clamped : forall sq s qd fq nm p0 cl v d (f : fe Rops), fe_init (K := Rops) sq s qd fq nm p0 cl v d (Some clamped_left_dirichlet_bc_info) = Ok f ->
  bc_ok f /\ forall n k, (n < length (points f))%nat -> let x := nth n (points f) [] in
    (left_end (nth 0 x 0) (nth 1 x 0) -> (k < 2)%nat -> prescribed f n k = Some 0) /\ (~ left_end (nth 0 x 0) (nth 1 x 0) -> prescribed f n k = None).
Proof. exact clamped_spec. Qed.
Print Assumptions C112_clamped.
(** displacement control also moves the right end by -2.5 along x and holds it across; *)
Theorem C112_compressed : forall sq s qd fq nm p0 cl v d (f : fe Rops), fe_init (K := Rops) sq s qd fq nm p0 cl v d (Some compression_dirichlet_bc_info) = Ok f ->
  bc_ok f /\ forall n k, (n < length (points f))%nat -> let x := nth n (points f) [] in
    (left_end (nth 0 x 0) (nth 1 x 0) -> (k < 2)%nat -> prescribed f n k = Some 0) /\
    (right_end (nth 0 x 0) (nth 1 x 0) -> prescribed f n 0 = Some (- (5 / 2)) /\ prescribed f n 1 = Some 0) /\
    (~ left_end (nth 0 x 0) (nth 1 x 0) -> ~ right_end (nth 0 x 0) (nth 1 x 0) -> prescribed f n k = None).
Proof. exact compression_spec. Qed.
Print Assumptions C112_compressed.
(** and its assertion that each edge has three nodes holds on the mesh of the example. *)
Theorem C112_edges : forall sq s qd fq nm cl v d (f : fe Rops), fe_init (K := Rops) sq s qd fq nm (m_points beam_mesh) cl v d (Some compression_dirichlet_bc_info) = Ok f ->
  length (node_inds_list f) = 4%nat /\ edges_checked f = true.
Proof. exact beam_edges. Qed.
Print Assumptions C112_edges.

(** On that mesh each load acts on two faces of length one: with a surface rule of total weight one the full end load is 10 and the small one 2e-5. *)
Theorem C112_mesh : forall quad fquad normals dir (f : fe Rops), fe_init (K := Rops) sqrt "QUAD4" quad fquad normals (m_points beam_mesh) (m_cells beam_mesh) 2 2 dir = Ok f ->
  built_element "QUAD4" 2 f /\ num_cells f = 100%nat /\ forall b1 b2, selects f middle_below b1 -> selects f right_end b2 ->
  (forall c fc, In (c, fc) b1 <-> (c = 48 \/ c = 50)%nat /\ fc = 0%nat) /\ (forall c fc, In (c, fc) b2 <-> (c = 98 \/ c = 99)%nat /\ fc = 2%nat) /\
  (facet_normals "QUAD4" 2 f -> let w := sum_n (K := Rops) (num_face_quads f) (fun q => nth q (snd fquad) 0) in
   faces_length (m_points beam_mesh) f b1 = 2 * w /\ faces_length (m_points beam_mesh) f b2 = 2 * w).
Proof. exact mesh_main. Qed.
Print Assumptions C112_mesh.

(** The example as it is set up meets the hypotheses: any rules, the normals of the square, the exact derivative of the energy. *)
Example C112_met : forall quad fquad, exists f f0 p pc b1 b2, let grad (_ : tensor -> R) := neo_stress 2 (10 ^ 3) (3 / 10) in
  fe_init (K := Rops) sqrt "QUAD4" quad fquad quad_normals (m_points beam_mesh) (m_cells beam_mesh) 2 2 (Some clamped_left_dirichlet_bc_info) = Ok f /\
  fe_init (K := Rops) sqrt "QUAD4" quad fquad quad_normals (m_points beam_mesh) (m_cells beam_mesh) 2 2 None = Ok f0 /\ built_element "QUAD4" 2 f /\ num_cells f = 100%nat /\ facet_normals "QUAD4" 2 f /\
  plane_map (beam_stress grad) /\ bc_ok f /\ force_problem grad f = Ok p /\ boundary_inds_list p = [b1; b2] /\ counter_problem f0 = Ok pc /\ length b1 = 2%nat /\ length b2 = 2%nat.
Proof. exact met_main. Qed.
Print Assumptions C112_met.

(** Displacement control: at the parameter lam a held value is driven to lam times the prescribed one, the others to balance under the small load; when all is zero the supports carry nothing along the beam together and the small load across it. *)
Theorem C112_displaced : forall s (f : fe Rops) P grad p b1 lam sol, built_element s 2 f -> vec f = 2%nat -> (0 < num_cells f)%nat -> plane_map (beam_stress grad) -> bc_ok f ->
  displacement_problem grad f = Ok p -> boundary_inds_list p = [b1] -> shaped (length (points f)) 2 sol ->
  exists r res, disp_balance P p lam sol = Ok r /\ length r = (length (points f) * 2)%nat /\ compute_residual sqrt p [P] [sol] = Ok [res] /\
    (forall n k, (n < length (points f))%nat -> (k < 2)%nat -> nth (n * 2 + k) r 0 = match prescribed f n k with Some v => get2 (@zero Rops) sol n k - lam * v | None => get2 (@zero Rops) res n k end) /\
    (length P = length (points f) -> (forall i, (i < length (points f) * 2)%nat -> nth i r 0 = 0) ->
     let held k := sum_n (K := Rops) (length (points f)) (fun n => match prescribed f n k with Some _ => get2 (@zero Rops) res n k | None => 0 end) in
     held 0%nat = 0 /\ held 1%nat = / 10 ^ 5 * faces_length P f b1).
Proof. exact disp_main. Qed.
Print Assumptions C112_displaced.
Example C112_displaced_met : forall quad fquad, exists f p b1, let grad (_ : tensor -> R) := neo_stress 2 (10 ^ 3) (3 / 10) in
  fe_init (K := Rops) sqrt "QUAD4" quad fquad quad_normals (m_points beam_mesh) (m_cells beam_mesh) 2 2 (Some compression_dirichlet_bc_info) = Ok f /\
  built_element "QUAD4" 2 f /\ vec f = 2%nat /\ num_cells f = 100%nat /\ plane_map (beam_stress grad) /\ bc_ok f /\ displacement_problem grad f = Ok p /\ boundary_inds_list p = [b1] /\ length b1 = 2%nat.
Proof. exact disp_met. Qed.
Print Assumptions C112_displaced_met.
