(** C103: two bodies that meet through a third medium. *)
From Coq Require Import String Reals List Arith Lia Lra Bool.
From Verif Require Import Num Arr Fe Problem SpecAssembly SpecFe SpecSelect SpecWeak SpecEnergy Init SpecInit Basis SpecBasis Mesh Elastic Plasticity SpecEigen FractureUse HyperElastic SpecHyper Contact SpecContact ContactRot ContactMain ContactMore ContactRun ContactEnd Spectral3 ContactMet.
Import ListNotations.
Local Open Scope R_scope.

(** The routine returns the rotation of the polar decomposition, the only one there is; in the plane it is the rotation by the angle of (F00 + F11, F10 - F01). *)
Theorem C103_rotation : forall eigh F, eigh_ok 3 eigh ->
  (0 < det (K := Rops) 3 F -> polar 3 F (rotation eigh F) /\ forall Rm, polar 3 F Rm -> same 3 Rm (rotation eigh F)) /\
  (0 < det (K := Rops) 2 F -> same 3 (rotation eigh (embed F)) (spin (swing_cos F) (swing_sin F)) /\ swing_cos F * swing_cos F + swing_sin F * swing_sin F = 1).
Proof. intros eigh F EO. split; intros P; [split; [now apply rot_polar|intros Rm; now apply polar_is]|split; [now apply plane_rotation|now apply swing_unit]]. Qed.
Print Assumptions C103_rotation.
(** eigh exists in three dimensions. *)
Example C103_eigh_met : exists eigh, eigh_ok 3 eigh. Proof. exists eigh3. exact eigh3_ok. Qed.
Print Assumptions C103_eigh_met.
(** The energy: in the solid that of shape and volume, in the medium a millionth of the shape part and the energy of turning away from the old rotation; never negative; zero for rotations only, in the medium for the old rotation only. *)
Theorem C103_energy : forall eigh theta R_old r0 r1 F, eigh_ok 3 eigh -> same 3 R_old (spin r0 r1) -> 0 < det (K := Rops) 2 F ->
  contact_psi eigh theta R_old F = contact_energy (is_solid theta) r0 r1 F /\ 0 <= contact_psi eigh theta R_old F /\
  (contact_psi eigh theta R_old F = 0 <-> is_rotation 2 F /\ (~ 1 / 2 < theta -> F 0%nat 0%nat = r0 /\ F 1%nat 0%nat = r1)).
Proof.
  intros eigh theta R_old r0 r1 F EO S P. rewrite (energy_form eigh EO theta R_old r0 r1 F S P). split; [reflexivity|]. split; [now apply energy_nonneg|]. rewrite (energy_zero _ r0 r1 F P).
  unfold is_solid. destruct (Rlt_dec (1 / 2) theta); intuition discriminate.
Qed.
Print Assumptions C103_energy.
(** If the old rotations of a cell were averaged over points that disagree, no state of the medium there has energy zero. *)
Theorem C103_never_relaxed : forall eigh theta R_old r0 r1 F, eigh_ok 3 eigh -> same 3 R_old (spin r0 r1) -> 0 < det (K := Rops) 2 F -> ~ 1 / 2 < theta -> r0 * r0 + r1 * r1 < 1 -> 0 < contact_psi eigh theta R_old F.
Proof.
  intros eigh theta R_old r0 r1 F EO S P T L. destruct (C103_energy eigh theta R_old r0 r1 F EO S P) as (_ & N & Z). destruct (Req_dec (contact_psi eigh theta R_old F) 0) as [E|E]; [|lra].
  apply Z in E as (RF & E). destruct (E T) as [<- <-]. destruct (rot2_form F RF) as (_ & _ & U). lra.
Qed.
Print Assumptions C103_never_relaxed.
(** The stress is the closed formula, the gradient of the energy. *)
Theorem C103_stress : forall eigh grad noise u_grad theta R_old r0 r1, eigh_ok 3 eigh -> contact_grad_correct eigh grad -> same 3 R_old (spin r0 r1) ->
  let F := fun i j => u_grad i j + noise i j + identity i j in 0 < det (K := Rops) 2 F -> simple_spectrum F ->
  same 2 (contact_stress eigh grad noise u_grad [CNum theta; CTen R_old]) (contact_law (is_solid theta) r0 r1 F) /\ gradient2 2 2 (contact_psi eigh theta R_old) F (contact_law (is_solid theta) r0 r1 F).
Proof. intros eigh grad noise u_grad theta R_old r0 r1 EO GC S F P SP. split; [now apply stress_form|now apply psi_gradient]. Qed.
Print Assumptions C103_stress.
Example C103_grad_met : exists eigh, eigh_ok 3 eigh /\ contact_grad_correct eigh partials. Proof. exists eigh3. split; [exact eigh3_ok|exact (grad_exists eigh3 eigh3_ok)]. Qed.
Print Assumptions C103_grad_met.
(** Turning the deformation together with the old rotation does not change the energy. *)
Theorem C103_objective : forall eigh theta R_old r0 r1 Q F, eigh_ok 3 eigh -> same 3 R_old (spin r0 r1) -> is_rotation 2 Q -> 0 < det (K := Rops) 2 F ->
  contact_psi eigh theta (product 3 (embed Q) R_old) (product 2 Q F) = contact_psi eigh theta R_old F.
Proof.
  intros eigh theta R_old r0 r1 Q F EO S RQ P. rewrite (energy_form eigh EO theta R_old r0 r1 F S P).
  rewrite (energy_form eigh EO theta _ _ _ (product 2 Q F) (spin_embed Q R_old r0 r1 RQ S)).
  - now apply energy_rot.
  - rewrite HyperFacts.det_product by (left; reflexivity). destruct RQ as [-> _]. lra.
Qed.
Print Assumptions C103_objective.
(** The stress of the solid exerts no moment; the medium exerts one, that of a spring with the sine of the angle to the old rotation: it vanishes only in line with it. *)
Theorem C103_moment : forall theta r0 r1 F, 0 < det (K := Rops) 2 F -> let T := product 2 (contact_law (is_solid theta) r0 r1 F) (transposed F) in
  T 1%nat 0%nat - T 0%nat 1%nat = (if Rlt_dec (1 / 2) theta then 0 else 2 / 100 * (swing_sin F * r0 - swing_cos F * r1)).
Proof. intros theta r0 r1 F P T. unfold T. etransitivity; [exact (moment_form (is_solid theta) r0 r1 F P)|]. unfold is_solid, stiff_R. destruct (Rlt_dec (1 / 2) theta); [reflexivity|lra]. Qed.
Print Assumptions C103_moment.
(** Why the random diagonal is there: the derivative of eigh wants different eigenvalues, a body that is only turned never has them, and one at rest has them exactly when the two random numbers differ from each other and from zero. *)
Theorem C103_noise : (forall F, is_rotation 2 F -> ~ simple_spectrum F) /\
  forall n, -1 < n 0%nat -> -1 < n 1%nat -> (simple_spectrum (fun i j => 0 + diag_of n i j + identity i j) <-> n 0%nat <> n 1%nat /\ n 0%nat <> 0 /\ n 1%nat <> 0).
Proof. split; [exact rotation_not_simple|exact simple_rest]. Qed.
Print Assumptions C103_noise.
(** The mean over the points of a cell that is handed to the next pass: the mean cosine and sine; a rotation exactly when the points of the cell agree. *)
Theorem C103_mean : forall eigh noise P f u c, eigh_ok 3 eigh -> (c < num_cells f)%nat -> (0 < num_quads f)%nat -> (forall q, (q < num_quads f)%nat -> 0 < det (K := Rops) 2 (strained noise P f u c q)) ->
  let mc := average (num_quads f) (fun q => swing_cos (strained noise P f u c q)) in let ms := average (num_quads f) (fun q => swing_sin (strained noise P f u c q)) in
  length (contact_post eigh noise P f u) = num_cells f /\ exists M, nth_error (contact_post eigh noise P f u) c = Some (fun _ => CTen M) /\ same 3 M (spin mc ms) /\ mc * mc + ms * ms <= 1 /\
    (mc * mc + ms * ms = 1 <-> forall q q', (q < num_quads f)%nat -> (q' < num_quads f)%nat -> swing_cos (strained noise P f u c q) = swing_cos (strained noise P f u c q') /\ swing_sin (strained noise P f u c q) = swing_sin (strained noise P f u c q')).
Proof. intros eigh noise P f u c EO Hc Hq POS mc ms. split; [apply post_length|]. now apply post_form. Qed.
Print Assumptions C103_mean.
(** The assembled residual is the derivative of the energy of bodies and medium. *)
Theorem C103_potential : forall eigh grad noise sqrtK p f P u theta r0 r1 v res, eigh_ok 3 eigh -> contact_grad_correct eigh grad -> wf_problem p -> (0 < p_num_cells p)%nat ->
  contact_problem eigh grad noise p f theta r0 r1 -> ivs_ok p -> sol_ok p [u] -> regular_state noise p f P u -> sol_ok p [v] -> compute_residual sqrtK p [P] [u] = Ok [res] ->
  derivable_pt_lim (fun t => contact_total noise p f P theta r0 r1 (along u v t)) 0 (work (length (points f)) (vec f) v res).
Proof. intros eigh grad noise sqrtK p f P u theta r0 r1 v res EO GC WF NC CP IV SO RE SV CR. exact (ct_residual eigh grad noise EO GC sqrtK p f P u theta r0 r1 WF NC CP IV SO RE v res SV CR). Qed.
Print Assumptions C103_potential.
(** The shape: on the grid of the script (refined by any k) the cells marked solid are those of the C, the other cells, and the column to its right, are medium. *)
Theorem C103_shape : forall k sqrtK quad fquad normals v dir f i j, (0 < k)%nat ->
  fe_init (K := Rops) sqrtK "QUAD4" quad fquad normals (m_points (contact_mesh k)) (m_cells (contact_mesh k)) v 2 dir = Ok f -> centred (fst quad) -> (i < 20 * k + 1)%nat -> (j < 10 * k)%nat ->
  nth_error (contact_thetas (m_points (contact_mesh k)) f) (i * (10 * k) + j) = Some (fun _ => CNum (if in_solid k i j then 1 else 0)).
Proof. intros k sqrtK quad fquad normals v dir f i j Hk B C Hi Hj. exact (theta_form k Hk sqrtK quad fquad normals v dir f B C i j Hi Hj). Qed.
Print Assumptions C103_shape.
(** The prescribed displacements of a pass: zero at the left side, the given drop at the one corner node of the C, nothing else. *)
Theorem C103_bc : forall k scale i j m, (0 < k)%nat -> (k <= 4000)%nat -> (i <= 20 * k + 1)%nat -> (j <= 10 * k)%nat -> (m < 2)%nat ->
  dirichlet_value (m_points (contact_mesh k)) bc_locs [0; 1; 1]%nat (bc_values scale) (i * (10 * k + 1) + j) m = prescribed k scale i j m.
Proof. intros k scale i j m H1 H2 Hi Hj Hm. exact (prescribed_form k H1 H2 scale i j m Hi Hj Hm). Qed.
Print Assumptions C103_bc.
(** The run: n + 1 passes, pass l with the factor 1.2 l / n, starting from the solution of the pass before and with its mean rotations; the first one starts from ones. With a solver that always answers the run always ends. *)
Theorem C103_passes : forall eigh noise solve P f p n, fes p = [f] ->
  (forall r, contact_main eigh noise solve P f p n = Ok r -> length r = (n + 1)%nat /\
    forall l, (l <= n)%nat -> exists s' u, nth_error r l = Some (s', u) /\
      pass_of eigh noise solve P f (contact_thetas P f) p (12 / 10 * INR l / INR n) (match l with O => repeat (repeat 1 (vec f)) (num_total_nodes f) | S l' => snd (nth l' r (mkContact p contact_bc, [])) end) s' u) /\
  ((forall p u, exists u', solve p u = Ok u') -> exists r, contact_main eigh noise solve P f p n = Ok r).
Proof.
  intros eigh noise solve P f p n FE. pose proof (first_reached f p FE) as RE. split.
  - intros r H. destruct (run_spec eigh noise solve P f (contact_thetas P f) p n (n + 1) 0 _ _ r RE H) as (L & S). split; [exact L|]. intros l Hl. destruct (S l ltac:(lia)) as (s' & u & E & PO). exists s', u. split; [exact E|].
    destruct l as [|l]; [exact PO|]. rewrite (nth_indep r _ (mkContact p contact_bc, repeat (repeat 1 (vec f)) (num_total_nodes f))) by lia. exact PO.
  - intros T. exact (run_total eigh noise solve P f (contact_thetas P f) p n (n + 1) T 0 _ _ RE).
Qed.
Print Assumptions C103_passes.
(** Every such pass poses a problem to which C103_potential applies: on the grid of the script, whatever the old solution, as long as it turns nothing inside out. *)
Theorem C103_posed : forall k sqrtK quad fquad normals dir f eigh grad noise f' u scale, (0 < k)%nat ->
  fe_init (K := Rops) sqrtK "QUAD4" quad fquad normals (m_points (contact_mesh k)) (m_cells (contact_mesh k)) 2 2 dir = Ok f -> centred (fst quad) -> eigh_ok 3 eigh -> contact_grad_correct eigh grad ->
  update_Dirichlet_boundary_conditions f (Some (bc_locs, [0; 1; 1]%nat, bc_values scale)) = Ok f' -> shaped (length (m_points (contact_mesh k))) 2 u ->
  (forall c q, (c < num_cells f)%nat -> (q < num_quads f)%nat -> 0 < det (K := Rops) 2 (strained noise (m_points (contact_mesh k)) f u c q)) ->
  let P := m_points (contact_mesh k) in let p := mkProblem [f'] [] (contact_maps eigh grad noise) [contact_thetas P f; contact_post eigh noise P f u] [] in
  wf_problem p /\ (0 < p_num_cells p)%nat /\ ivs_ok p /\ sol_ok p [u] /\ maps_ok (vec f') (dim f') (maps p) /\
  contact_problem eigh grad noise p f' (fun c _ => if in_solid k (c / (10 * k)) (c mod (10 * k)) then 1 else 0)
    (fun c _ => average (num_quads f) (fun q => swing_cos (strained noise P f u c q))) (fun c _ => average (num_quads f) (fun q => swing_sin (strained noise P f u c q))).
Proof.
  intros k sqrtK quad fquad normals dir f eigh grad noise f' u scale Hk B C EO GC UP SH POS P p.
  exact (posed k Hk sqrtK quad fquad normals dir f B C eigh grad noise EO GC f' u (FractureLoop.update_rebound f _ f' UP) SH POS).
Qed.
Print Assumptions C103_posed.
(** The first pass: the guess of ones is a rigid shift, so the old rotation is the identity, and with two different random numbers everything is regular. *)
Example C103_first_met : exists eigh grad n (f f' : fe Rops) (p : problem Rops cval) res, let P := m_points (contact_mesh 1) in let one := repeat (repeat 1 2) (length P) in
  eigh_ok 3 eigh /\ contact_grad_correct eigh grad /\
  fe_init (K := Rops) sqrt "QUAD4" two_by_two two_by_two (fun _ _ => 0) P (m_cells (contact_mesh 1)) 2 2 (Some contact_bc) = Ok f /\ centred (fst two_by_two) /\
  update_Dirichlet_boundary_conditions f (Some (bc_locs, [0; 1; 1]%nat, bc_values 1)) = Ok f' /\
  p = mkProblem [f'] [] (contact_maps eigh grad (diag_of n)) [contact_thetas P f; contact_post eigh (diag_of n) P f one] [] /\
  wf_problem p /\ (0 < p_num_cells p)%nat /\ ivs_ok p /\ sol_ok p [one] /\ regular_state (diag_of n) p f' P one /\
  contact_problem eigh grad (diag_of n) p f' (fun c _ => if in_solid 1 (c / (10 * 1)) (c mod (10 * 1)) then 1 else 0) (fun _ _ => 1) (fun _ _ => 0) /\
  compute_residual sqrt p [P] [one] = Ok [res].
Proof.
  exists eigh3, partials, (fun i => match i with O => 1 / 10 ^ 8 | _ => 2 / 10 ^ 8 end). pose proof (grad_exists eigh3 eigh3_ok) as GC.
  destruct (first_met 1 ltac:(lia) (fun i => match i with O => 1 / 10 ^ 8 | _ => 2 / 10 ^ 8 end) ltac:(lra) ltac:(lra) ltac:(repeat split; lra) sqrt two_by_two (fun _ _ => 0) eigh3 partials 1 eigh3_ok GC) as (f & f' & p & res & H).
  exists f, f', p, res. intros P one. split; [exact eigh3_ok|]. split; [exact GC|]. destruct H as (H1 & H). split; [exact H1|]. split; [exact two_centred|exact H].
Qed.
Print Assumptions C103_first_met.
