(** C106: volume sensitivity and surface areas. *)
From Coq Require Import Reals String List Arith Lia Lra Bool.
From Verif Require Import Num Arr Fe Problem Basis SpecBasis SpecFe SpecGeom FeFacts GeomFacts MeasureFacts SpecBc SpecSelect SpecEnergy ElasticFacts HyperElastic Volume SpecVolume VolumeMain VolumeEnd VolumeSpin ErrorNormMet VolumeMet.
Import ListNotations.
Local Open Scope R_scope.
Local Notation sum := (sum_n (K := Rops)).

(** The sum of det(I + grad u) JxW is the volume of the mesh whose points are moved by u. *)
Theorem C106_deformed : forall s d (f : fe Rops) P, built_element s d f -> length P = length (points f) ->
  forall u P', displaced d P u P' -> (forall c q, (c < num_cells f)%nat -> (q < num_quads f)%nat -> get_JxW P f c q <> 0) ->
  crt_volume P f u = mesh_volume P' f /\ target_value P f u = (mesh_volume P' f - 101 / 100) ^ 2.
Proof. intros s d f P B E u P' D NZ. pose proof (volume_deformed s d f P B E u P' D NZ) as V. split; [exact V|]. unfold target_value. now rewrite V. Qed.
Print Assumptions C106_deformed.
(** For triangles and tetrahedra: the determinants of the edges of the moved cells. *)
Theorem C106_simplex : forall s d (f : fe Rops) P, built_element s d f -> (s = "TRI3" \/ s = "TET4")%string -> length P = length (points f) ->
  forall u P', displaced d P u P' -> (forall c q, (c < num_cells f)%nat -> (q < num_quads f)%nat -> get_JxW P f c q <> 0) ->
  crt_volume P f u = sum (num_cells f) (fun c => det_dim (K := Rops) d (edge_mat P' f c) * sum (num_quads f) (quad_weights f)).
Proof.
  intros s d f P B S E u P' D NZ. rewrite (volume_deformed s d f P B E u P' D NZ). unfold mesh_volume. apply Rsum_ext. intros c Hc. destruct D as (_ & L & _).
  destruct B as (LAG & DIM & MESH & sq & qd & fq & nm & p0 & cl & v & dr & BB). assert (H2 : add (o := Rops) (/ 2) (/ 2) = one) by (change (/ 2 + / 2 = 1); lra).
  refine (measure_aff Rops_ring _ _ _ _ _ _ _ _ _ _ _ BB LAG MESH DIM P' (eq_trans L E) (/ 2) _ _ c H2 Hc (simplex_affine Rops_ring (/ 2) s P' f d c H2 _)). destruct S as [-> | ->]; [left|right]; split; auto.
Qed.
Print Assumptions C106_simplex.
(** A body moved by x -> A x + b has det A times the volume; a rigid motion keeps it. *)
Theorem C106_affine : forall s d (f : fe Rops) P, built_element s d f -> length P = length (points f) -> vec f = d ->
  forall u A b, moved_affinely d A b P u -> (forall c q, (c < num_cells f)%nat -> (q < num_quads f)%nat -> get_JxW P f c q <> 0) ->
  crt_volume P f u = det_dim (K := Rops) d A * mesh_volume P f /\ (orthonormal d A -> 0 < det_dim (K := Rops) d A -> crt_volume P f u = mesh_volume P f).
Proof.
  intros s d f P B E VE u A b M NZ. pose proof (volume_affine s d f P B E u A b M VE NZ) as V. split; [exact V|]. intros O HP. rewrite V, (orthonormal_det d A (vol_dim23 s d f B) O HP). apply Rmult_1_l.
Qed.
Print Assumptions C106_affine.
(** The target is never negative, and zero exactly at the volume 1.01. *)
Theorem C106_target : forall P (f : fe Rops) sol, 0 <= target_value P f sol /\ (target_value P f sol = 0 <-> crt_volume P f sol = 101 / 100).
Proof. exact target_spec. Qed.
Print Assumptions C106_target.
(** Derivative of the volume and of the target in the direction v of the solution. *)
Theorem C106_rate : forall s d (f : fe Rops) P sol v, built_element s d f -> vec f = d -> fits f sol -> fits f v ->
  let F c q i j := sol_to_grad P f sol c q i j + (if (i =? j)%nat then 1 else 0) in
  let rate := sum (num_cells f) (fun c => sum (num_quads f) (fun q => double_dot d (cofactor d (F c q)) (sol_to_grad P f v c q) * get_JxW P f c q)) in
  derivable_pt_lim (fun t => crt_volume P f (along (K := Rops) sol v t)) 0 rate /\
  derivable_pt_lim (fun t => target_value P f (along (K := Rops) sol v t)) 0 (2 * (crt_volume P f sol - 101 / 100) * rate).
Proof.
  intros s d f P sol v B VE FS FV F rate. pose proof (vol_dim s d f B) as D. pose proof (vol_dim23 s d f B) as D23. revert F rate. rewrite <- D in B, VE, D23 |- *. intros F rate.
  assert (L : forall t c q i j, (c < num_cells f)%nat -> (i < dim f)%nat -> (j < dim f)%nat -> sol_to_grad P f (along (K := Rops) sol v t) c q i j = sol_to_grad P f sol c q i j + t * sol_to_grad P f v c q i j) by (intros; eapply grad_line; eauto).
  split; [exact (volume_rate P f sol v D23 L)|exact (target_rate P f sol v D23 L)].
Qed.
Print Assumptions C106_rate.
(** set_params moves the top to the new value and keeps every other condition, the mesh and the internal variables given. *)
Theorem C106_params : forall V (f : fe Rops) disp0 disp (params : V), exists f', vs_set_params f (vs_bc disp0) (disp, params) = Ok (vs_bc disp, f', params) /\ same_mesh f f' /\
  forall n, (n < length (points f))%nat -> let x k := nth k (nth n (points f) []) 0 in
    (forall k, (k < 2)%nat -> (near0 (x 0%nat) /\ near0 (x 1%nat) /\ near0 (x 2%nat) -> prescribed f' n k = Some 0) /\ (~ (near0 (x 0%nat) /\ near0 (x 1%nat) /\ near0 (x 2%nat)) -> prescribed f' n k = None)) /\
    (near0 (x 2%nat) -> prescribed f' n 2 = Some 0) /\ (near1 (x 2%nat) -> prescribed f' n 2 = Some disp) /\ (~ near0 (x 2%nat) -> ~ near1 (x 2%nat) -> prescribed f' n 2 = None) /\
    (forall k, (3 <= k)%nat -> prescribed f' n k = None).
Proof. intros V. exact (@set_params V). Qed.
Print Assumptions C106_params.
(** These conditions leave the body free to turn about the third axis: a turned solution has the prescribed values as well, and the same volume and target. *)
Theorem C106_spin : forall V s (f f' : fe Rops) disp0 disp (params : V) w u u', vs_set_params f (vs_bc disp0) (disp, params) = Ok (vs_bc disp, f', params) ->
  (forall n, (n < length (points f))%nat -> near0 (nth 0 (nth n (points f) []) 0) -> near0 (nth 1 (nth n (points f) []) 0) -> near0 (nth 2 (nth n (points f) []) 0) -> nth 0 (nth n (points f) []) 0 = 0 /\ nth 1 (nth n (points f) []) 0 = 0) ->
  length u = length (points f) -> spun w (points f) u u' ->
  (obeys f' u -> obeys f' u') /\
  (built_element s 3 f -> (forall c q, (c < num_cells f)%nat -> (q < num_quads f)%nat -> get_JxW (points f) f c q <> 0) -> crt_volume (points f) f u' = crt_volume (points f) f u /\ target_value (points f) f u' = target_value (points f) f u).
Proof.
  intros V s f f' d0 d ps w u u' SE EX LU SP. split; [exact (spin_obeys f f' d0 d ps w u u' SE EX SP)|]. intros B NZ. pose proof (spin_volume s f (points f) w u u' B eq_refl LU SP NZ) as E. split; [exact E|]. unfold target_value. now rewrite E.
Qed.
Print Assumptions C106_spin.
(** The reference tetrahedron: a stretch and the stretch followed by a quarter turn are two different arrays with all prescribed values and the same target. *)
Theorem C106_spin_met : forall a, exists f f', fe_init (K := Rops) sqrt "TET4" one_point face_point tet_normals (ref_points "TET4") (one_cell "TET4") 3 3 None = Ok f /\
  vs_set_params f (vs_bc 0) (a - 1, tt) = Ok (vs_bc (a - 1), f', tt) /\ obeys f' (stretch a) /\ obeys f' (quarter a) /\ quarter a <> stretch a /\ target_value (points f) f (quarter a) = target_value (points f) f (stretch a).
Proof. exact quarter_met. Qed.
Print Assumptions C106_spin_met.
(** The computed area is the sum of the measures of the selected faces, the same for every component and whatever the solution. *)
Theorem C106_area : forall s d (f : fe Rops) P sqrtK sol, built_element s d f ->
  (forall g, exists inds area, get_boundary_conditions_inds f (Some [Loc1 g]) = Ok [inds] /\ faces_selected f (Loc1 g) inds /\ compute_surface_area sqrtK P f (Loc1 g) sol = Ok area /\
    forall k, area k = sum_over (K := Rops) inds (fun cf => sum (num_face_quads f) (nanson_scale sqrtK P f (fst cf) (snd cf)))) /\
  (forall l, loc_wrong l = true -> compute_surface_area sqrtK P f l sol = Err ValueErr).
Proof. intros s d f P sq sol B. split; [intros g; exact (area_sum s d f P sq sol g B)|intros l; exact (area_wrong s d f P sq sol l B)]. Qed.
Print Assumptions C106_area.
(** On cells that are affine images of the reference element it is the true area of the faces. *)
Theorem C106_area_true : forall s quad fquad normals pts0 cls v d dir (f : fe Rops) P sol g, fe_init (K := Rops) sqrt s quad fquad normals pts0 cls v d dir = Ok f -> built_element s d f -> length P = length (points f) ->
  (forall c, (c < num_cells f)%nat -> exists M b, affine_cell (K := Rops) (/ 2) s P f d c M b /\ 0 < det_dim (K := Rops) d M) -> facet_normals s d f ->
  exists inds area, get_boundary_conditions_inds f (Some [Loc1 g]) = Ok [inds] /\ faces_selected f (Loc1 g) inds /\ compute_surface_area sqrt P f (Loc1 g) sol = Ok area /\
  forall k, area k = sum_over (K := Rops) inds (fun cf => facet_size d (facet_edges P f (fst cf) (snd cf))) * sum (num_face_quads f) (fun q => nth q (snd fquad) 0).
Proof. exact area_true. Qed.
Print Assumptions C106_area_true.
(** The reference tetrahedron, built by the constructor: stretched by 6.06 it reaches the target, and its surface is 3/2 + sqrt 3 / 2. *)
Theorem C106_met : exists f, fe_init (K := Rops) sqrt "TET4" one_point face_point tet_normals (ref_points "TET4") (one_cell "TET4") 3 3 None = Ok f /\
  built_element "TET4" 3 f /\ facet_normals "TET4" 3 f /\ mesh_volume (ref_points "TET4") f = / 6 /\ (forall a, crt_volume (ref_points "TET4") f (stretch a) = a / 6) /\ target_value (ref_points "TET4") f (stretch (606 / 100)) = 0 /\
  forall sol, exists area, compute_surface_area sqrt (ref_points "TET4") f (Loc1 (fun _ => true)) sol = Ok area /\ forall k, area k = 3 / 2 + sqrt 3 / 2.
Proof.
  destruct tet_built as (f & B). exists f. split; [exact B|]. split; [exact (tet_element f B)|]. split; [exact (tet_facet_normals f B)|]. split; [exact (tet_volume f B)|]. split; [exact (stretch_volume f B)|].
  split; [apply target_spec; rewrite (stretch_volume f B); field|exact (tet_area f B)].
Qed.
Print Assumptions C106_met.
