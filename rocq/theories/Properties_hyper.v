(** C102: the neo-Hookean energies of the scripts. *)
From Coq Require Import String Reals List Arith Lia Lra Bool.
From Verif Require Import Num Arr Fe Problem SpecAssembly SpecFe SpecSelect SpecWeak SpecEnergy Init SpecInit Basis SpecBasis Mesh SpecPatch Elastic Plasticity HyperElastic SpecHyper HyperFacts HyperMain HyperUse HyperEnd.
Import ListNotations.
Local Open Scope R_scope.

(** Whatever routine returns the gradient of the energy, the stress is the closed formula, for every deformation gradient with positive determinant. *)
Theorem C102_stress : forall d energy S grad F, code_energy d energy S -> 0 < det (K := Rops) d F ->
  gradient2 d d energy F (S F) /\ (grad_correct d grad energy -> forall G, same d (fun i j => G i j + identity i j) F -> same d (first_PK_stress grad energy G) (S F)).
Proof.
  intros d energy S grad F C P. pose proof (code_lawful d energy S C) as L. split; [exact (law_grad _ _ _ L F P)|]. intros [G1 G2] G H i j Hi Hj.
  rewrite <- (grad_is d energy S grad F L (conj G1 G2) P i j Hi Hj). exact (G2 _ _ H i j Hi Hj).
Qed.
Print Assumptions C102_stress.
(** The energy does not change when the body or the axes are turned, the stress turns with the body, and its moment on the deformed body is balanced. *)
Theorem C102_objective : forall d E nu Q F, d = 2%nat \/ d = 3%nat -> is_rotation d Q -> 0 < det (K := Rops) d F ->
  psi d E nu (product d Q F) = psi d E nu F /\ psi d E nu (product d F Q) = psi d E nu F /\
  same d (neo_stress d E nu (product d Q F)) (product d Q (neo_stress d E nu F)) /\
  same d (product d (neo_stress d E nu F) (transposed F)) (transposed (product d (neo_stress d E nu F) (transposed F))) /\
  same d (neo_stress d E nu Q) (fun _ _ => 0).
Proof.
  intros d E nu Q F D R P. split; [now apply psi_rot_l|]. split; [now apply psi_rot_r|]. split; [apply neo_rot; auto; lra|]. split; [apply kirchhoff_sym; auto; lra|now apply neo_rotation].
Qed.
Print Assumptions C102_objective.
(** The energy is never negative, and vanishes for rotations and for nothing else. *)
Theorem C102_energy : forall E nu F, 0 < E -> -1 < nu < 1 / 2 ->
  (forall d, d = 2%nat \/ d = 3%nat -> 0 < det (K := Rops) d F -> 0 <= psi d E nu F /\ (psi d E nu F = 0 <-> is_rotation d F)) /\
  (0 < det (K := Rops) 2 F -> 0 <= psi_plane E nu F /\ (psi_plane E nu F = 0 <-> is_rotation 2 F)).
Proof.
  intros E nu F PE PN. split; [intros d D P; split; [now apply psi_nonneg|now apply psi_zero]|]. intros P. assert (P3 : 0 < det (K := Rops) 3 (embed F)) by (rewrite embed_det; exact P). unfold psi_plane.
  split; [apply psi_nonneg; auto; now right|]. rewrite (psi_zero 3 E nu (or_intror eq_refl) PE PN _ P3). split; [apply rotation_embed|apply embed_rotation].
Qed.
Print Assumptions C102_energy.
(** Small displacements obey Hooke's law; in three dimensions and in plane strain with the usual constants. *)
Theorem C102_linear : forall E nu H i j, 1 + nu <> 0 -> 1 - 2 * nu <> 0 ->
  ((i < 3)%nat -> (j < 3)%nat -> derivable_pt_lim (fun t => neo_stress 3 E nu (fun k l => identity k l + t * H k l) i j) 0 (hooke 3 (lame E nu) (shear_modulus E nu) H i j)) /\
  ((i < 2)%nat -> (j < 2)%nat -> derivable_pt_lim (fun t => neo_stress 3 E nu (embed (fun k l => identity k l + t * H k l)) i j) 0 (hooke 2 (lame E nu) (shear_modulus E nu) H i j)).
Proof.
  intros E nu H i j A B. split; intros Hi Hj; rewrite <- (lame_bulk E nu A B).
  - pose proof (linear_law 3 E nu H i j (or_intror eq_refl) Hi Hj) as L. replace (INR 3) with 3 in L by (cbn; lra). exact L.
  - exact (plane_linear E nu H i j Hi Hj).
Qed.
Print Assumptions C102_linear.
(** The energy of the two-dimensional beam is not that of plane strain: its law for small displacements has another first parameter, whatever the material. *)
Theorem C102_beam_refuted : forall E nu, 0 < E -> -1 < nu < 1 / 2 ->
  (forall H i j, (i < 2)%nat -> (j < 2)%nat -> derivable_pt_lim (fun t => neo_stress 2 E nu (fun k l => identity k l + t * H k l) i j) 0 (hooke 2 (lame E nu - shear_modulus E nu / 3) (shear_modulus E nu) H i j)) /\
  ~ (forall H i j, (i < 2)%nat -> (j < 2)%nat -> derivable_pt_lim (fun t => neo_stress 2 E nu (fun k l => identity k l + t * H k l) i j) 0 (hooke 2 (lame E nu) (shear_modulus E nu) H i j)).
Proof.
  intros E nu PE PN. assert (L : forall H i j, (i < 2)%nat -> (j < 2)%nat -> derivable_pt_lim (fun t => neo_stress 2 E nu (fun k l => identity k l + t * H k l) i j) 0 (hooke 2 (lame E nu - shear_modulus E nu / 3) (shear_modulus E nu) H i j)).
  { intros H i j Hi Hj. rewrite <- (lame_beam E nu) by lra. pose proof (linear_law 2 E nu H i j (or_introl eq_refl) Hi Hj) as L. replace (INR 2) with 2 in L by (cbn; lra). exact L. }
  split; [exact L|]. intros L'. pose proof (uniqueness_limite _ _ _ _ (L identity 0 0 ltac:(lia) ltac:(lia))%nat (L' identity 0 0 ltac:(lia) ltac:(lia))%nat) as U.
  pose proof (mu_pos E nu PE PN) as M. unfold hooke in U. rewrite rsum2 in U. unfold identity in U. cbn [Nat.eqb] in U. cbn in U. lra.
Qed.
Print Assumptions C102_beam_refuted.
(** The three-dimensional energy of a density rho: where the determinant is above the cut-off the stress is rho times the one above. *)
Theorem C102_density : forall E nu rho grad F, / 10 ^ 14 < det (K := Rops) 3 F -> gradient2 3 3 (psi_rho E nu rho) F (grad (psi_rho E nu rho) F) ->
  same 3 (grad (psi_rho E nu rho) F) (fun i j => rho * neo_stress 3 E nu F i j).
Proof. intros E nu rho grad F P G. exact (gradient_unique 3 _ F _ _ G (rho_gradient E nu rho F P)). Qed.
Print Assumptions C102_density.

(** The residual is the derivative of the potential energy, as long as no quadrature point is crushed. *)
Theorem C102_potential : forall (V : Type) grad energy S sqrtK (p : problem Rops V) f P, wf_problem p -> (0 < p_num_cells p)%nat -> hyper_problem grad energy p f -> code_energy (dim f) energy S ->
  grad_correct (dim f) grad energy -> ivs_ok p -> maps_ok (vec f) (dim f) (maps p) ->
  forall sol v res, sol_ok p [sol] -> sol_ok p [v] -> uncrushed P f sol (p_num_cells p) -> compute_residual sqrtK p [P] [sol] = Ok [res] ->
  derivable_pt_lim (fun t => hyper_potential energy sqrtK p f P (along (K := Rops) sol v t)) 0 (work (K := Rops) (length (points f)) (vec f) v res).
Proof. intros V grad energy S sqrtK p f P WF NC HY C GC IV MP sol v res SO SV UN CR. exact (hy_energy grad energy S sqrtK p f P WF NC HY (code_lawful _ _ _ C) GC IV MP sol SO UN v res SV CR). Qed.
Print Assumptions C102_potential.
(** The nodal forces exert no torque on the deformed body beyond that of the loads. *)
Theorem C102_torque : forall (V : Type) grad energy S sqrtK (p : problem Rops V) f P, wf_problem p -> (0 < p_num_cells p)%nat -> hyper_problem grad energy p f -> code_energy (dim f) energy S ->
  grad_correct (dim f) grad energy -> ivs_ok p -> maps_ok (vec f) (dim f) (maps p) -> length P = length (points f) -> mesh_ok f ->
  (forall c q, (c < p_num_cells p)%nat -> (q < num_quads f)%nat -> det (K := Rops) (dim f) (jacobian_dx_deta P f c q) <> 0) ->
  forall sol res W v, sol_ok p [sol] -> sol_ok p [v] -> uncrushed P f sol (p_num_cells p) -> compute_residual sqrtK p [P] [sol] = Ok [res] -> skew (dim f) W -> turning (dim f) W P sol v ->
  work (K := Rops) (length (points f)) (vec f) v res = load_work sqrtK p f P sol v.
Proof.
  intros V grad energy S sqrtK p f P WF NC HY C GC IV MP PL MO NZ sol res W v SO SV UN CR SK T.
  refine (hy_torque grad energy S sqrtK p f P WF NC HY (code_lawful _ _ _ C) GC IV MP sol SO UN PL MO _ W v res SV CR SK T NZ).
  unfold p_num_cells, fe0. now rewrite (proj1 (proj1 HY)).
Qed.
Print Assumptions C102_torque.
(** A body that is only moved and turned pushes back with nothing but the loads, however far. *)
Theorem C102_rigid : forall (V : Type) grad energy S sqrtK (p : problem Rops V) f P el, wf_problem p -> (0 < p_num_cells p)%nat -> hyper_problem grad energy p f -> code_energy (dim f) energy S ->
  grad_correct (dim f) grad energy -> ivs_ok p -> maps_ok (vec f) (dim f) (maps p) -> length P = length (points f) -> built_element el (dim f) f ->
  (forall c q, (c < num_cells f)%nat -> (q < num_quads f)%nat -> get_JxW P f c q <> 0) ->
  forall sol res Q b v, sol_ok p [sol] -> sol_ok p [v] -> is_rotation (dim f) Q -> samples (K := Rops) (dim f) (dim f) (fun i j => Q i j - identity i j) b P sol -> compute_residual sqrtK p [P] [sol] = Ok [res] ->
  work (K := Rops) (length (points f)) (vec f) v res = load_work sqrtK p f P sol v.
Proof.
  intros V grad energy S sqrtK p f P el WF NC HY C GC IV MP PL BE NZ sol res Q b v SO SV RQ SA CR.
  refine (rigid grad energy S sqrtK p f P el Q b sol v res WF NC HY (code_lawful _ _ _ C) GC IV MP SO PL BE _ NZ RQ SA SV CR).
  unfold p_num_cells, fe0. now rewrite (proj1 (proj1 HY)).
Qed.
Print Assumptions C102_rigid.
(** The traction reported for a homogeneous deformation: the third column of its stress times the measure of the selected faces. *)
Theorem C102_traction : forall el (f : fe Rops) P A b sol grad energy S loc inds sqrtK k,
  built_element el 3 f -> dim f = 3%nat -> vec f = 3%nat -> length P = length (points f) -> samples (K := Rops) 3 3 A b P sol -> code_energy 3 energy S -> grad_correct 3 grad energy ->
  0 < det (K := Rops) 3 (fun i j => A i j + identity i j) -> (k < 3)%nat -> get_boundary_conditions_inds f (Some [loc]) = Ok [inds] ->
  (forall c fc q, In (c, fc) inds -> (q < num_face_quads f)%nat -> nanson_scale (K := Rops) sqrtK P f c fc q <> 0) ->
  exists t, compute_traction sqrtK P f (first_PK_stress grad energy) loc sol = Ok t /\
    t k = S (fun i j => A i j + identity i j) k 2%nat * sum_over (K := Rops) inds (fun cf => sum_n (K := Rops) (num_face_quads f) (fun q => nanson_scale sqrtK P f (fst cf) (snd cf) q)).
Proof. intros el f P A b sol grad energy S loc inds sqrtK k BE DE VE PL SA C. exact (traction_homogeneous el f P A b sol grad energy S loc inds sqrtK k BE DE VE PL SA (code_lawful _ _ _ C)). Qed.
Print Assumptions C102_traction.

(** There are such routines, ... *)
Example C102_grad_met : forall E nu, grad_correct 3 (fun _ => neo_stress 3 E nu) (psi 3 E nu) /\ grad_correct 2 (fun _ => neo_stress 2 E nu) (psi 2 E nu) /\
  grad_correct 2 (fun _ F => neo_stress 3 E nu (embed F)) (psi_plane E nu).
Proof. intros E nu. split; [apply grad_psi; now right|]. split; [apply grad_psi; now left|apply grad_plane]. Qed.
(** ... and a problem on every box, with the body turned by any angle. *)
Example C102_problem_met : forall Nx Ny Nz X Y Z E nu a sqrtK quad fquad normals g, (0 < Nx)%nat -> (0 < Ny)%nat -> (0 < Nz)%nat -> 0 < X -> 0 < Y -> 0 < Z ->
  (forall q, (q < length (fst quad))%nat -> nth q (snd quad) 0 <> 0) ->
  let M := box_mesh Nx Ny Nz X Y Z in let A := fun i j => turn a i j - identity i j in
  exists (p : problem Rops unit) f u res,
    problem_init sqrtK 3 [mkVar (m_points M) (m_cells M) 3 "HEX8" quad fquad normals (hold_affine 3 3 A (fun _ => 0) g)] None
      (only_tensor_map (fun G (_ : list unit) => first_PK_stress (fun _ => neo_stress 3 E nu) (psi 3 E nu) G)) (fun x y => (x, y)) = Ok p /\
    wf_problem p /\ (0 < p_num_cells p)%nat /\ hyper_problem (fun _ => neo_stress 3 E nu) (psi 3 E nu) p f /\ ivs_ok p /\ maps_ok (vec f) (dim f) (maps p) /\ sol_ok p [u] /\ dim f = 3%nat /\
    length (m_points M) = length (points f) /\ built_element "HEX8" (dim f) f /\ p_num_cells p = num_cells f /\
    (forall c q, (c < num_cells f)%nat -> (q < num_quads f)%nat -> get_JxW (m_points M) f c q <> 0) /\ is_rotation 3 (turn a) /\
    samples (K := Rops) (dim f) (dim f) A (fun _ => 0) (m_points M) u /\ compute_residual sqrtK p [m_points M] [u] = Ok [res].
Proof.
  intros Nx Ny Nz X Y Z E nu a sqrtK quad fquad normals g HX HY HZ PX PY PZ W M A.
  destruct (hyper_exists Nx Ny Nz X Y Z E nu a HX HY HZ PX PY PZ sqrtK quad fquad normals g W) as (p & f & u & res & H). exists p, f, u, res. pose proof (turn_rotation a). tauto.
Qed.
