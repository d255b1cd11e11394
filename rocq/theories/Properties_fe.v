(** C05-C10: interpolation, gradients, measures, and the selection of nodes and faces. *)
From Coq Require Import List Arith Bool String Reals.
From Verif Require Import Num Arr Fe Basis SpecBasis SpecFe SpecGeom SpecSelect SpecBc
  GeomFacts MeasureFacts NansonFacts SelectFacts.
Import ListNotations.

(** C05. *)
Theorem C05_affine_gradient_exact : forall (K : ops) (KF : field_laws K) s d (f : fe K), built_element s d f ->
  forall pts, List.length pts = List.length (points f) ->
  forall A b sol, samples d (vec f) A b pts sol ->
  forall c q k j, c < num_cells f -> k < vec f -> j < d -> get_JxW pts f c q <> zero ->
  sol_to_grad pts f sol c q k j = A k j.
Proof.
  intros K KF s d f (LAG & DIM & MESH & sq & qd & fq & nm & p0 & cl & v & dr & B) pts HP A b sol S c q k j Hc Hk Hj HJ.
  exact (grad_affine KF _ _ _ _ _ _ _ _ _ _ _ B LAG MESH DIM pts HP A b sol c q k j S Hc Hk Hj HJ).
Qed.
Print Assumptions C05_affine_gradient_exact.

(** The gradients handed to surface kernels recover the gradient of an affine field on every face with a nonzero measure. *)
Theorem C05_face_gradient_exact : forall (K : ops) (KF : field_laws K) s d (f : fe K), built_element s d f ->
  forall pts, List.length pts = List.length (points f) ->
  forall A b sol, samples d (vec f) A b pts sol ->
  forall sqrtK c fc q k j, c < num_cells f -> k < vec f -> j < d -> nanson_scale sqrtK pts f c fc q <> zero ->
  sum_n (num_nodes f) (fun a => mul (cell_sol_at f sol c a k) (get_face_shape_grads pts f c fc q a j)) = A k j.
Proof.
  intros K KF s d f (LAG & DIM & MESH & sq & qd & fq & nm & p0 & cl & v & dr & B) pts HP A b sol S sqrtK c fc q k j Hc Hk Hj HJ.
  exact (face_grad_affine KF _ _ _ _ _ _ _ _ _ _ _ B LAG MESH DIM pts HP sqrtK A b sol c fc q k j S Hc Hk Hj HJ).
Qed.
Print Assumptions C05_face_gradient_exact.

(** C06. *)
Theorem C06_affine_field_at_quad_points : forall (K : ops) (KR : ring_laws K) s d (f : fe K), built_element s d f ->
  forall pts, List.length pts = List.length (points f) ->
  forall A b sol, samples d (vec f) A b pts sol ->
  forall c k, c < num_cells f -> k < vec f ->
  (forall q, convert_from_dof_to_quad f sol c q k = affine d A b (get_physical_quad_points pts f c q) k) /\
  (forall fc q, convert_from_dof_to_face_quad f sol c fc q k = affine d A b (get_physical_surface_quad_points pts f c fc q) k).
Proof.
  intros K KR s d f (LAG & DIM & MESH & sq & qd & fq & nm & p0 & cl & v & dr & B) pts HP A b sol S c k Hc Hk. split.
  - intros q. exact (quad_affine KR _ _ _ _ _ _ _ _ _ _ _ B LAG MESH DIM pts HP A b sol S c q k Hc Hk).
  - intros fc q. exact (face_quad_affine KR _ _ _ _ _ _ _ _ _ _ _ B LAG MESH DIM pts HP A b sol S c fc q k Hc Hk).
Qed.
Print Assumptions C06_affine_field_at_quad_points.

Theorem C06_linear : forall (K : ops) (KR : ring_laws K) (f : fe K) (a b : K) s1 s2 s3, combination a b s1 s2 s3 ->
  forall c k,
  (forall q, convert_from_dof_to_quad f s3 c q k
     = (a * convert_from_dof_to_quad f s1 c q k + b * convert_from_dof_to_quad f s2 c q k)%num) /\
  (forall fc q, convert_from_dof_to_face_quad f s3 c fc q k
     = (a * convert_from_dof_to_face_quad f s1 c fc q k + b * convert_from_dof_to_face_quad f s2 c fc q k)%num) /\
  (forall pts q j, sol_to_grad pts f s3 c q k j
     = (a * sol_to_grad pts f s1 c q k j + b * sol_to_grad pts f s2 c q k j)%num).
Proof. intros K KR f a b s1 s2 s3 H c k. repeat split; intros; apply (interp_combination KR f a b s1 s2 s3); exact H. Qed.
Print Assumptions C06_linear.

Theorem C06_constants : forall (K : ops) (KR : ring_laws K) s d (f : fe K), built_element s d f ->
  forall sol (b : nat -> K), List.length sol = List.length (points f) ->
  (forall n k, n < List.length sol -> k < vec f -> nth k (nth n sol []) zero = b k) ->
  forall c k, c < num_cells f -> k < vec f ->
  (forall q, convert_from_dof_to_quad f sol c q k = b k) /\
  (forall fc q, convert_from_dof_to_face_quad f sol c fc q k = b k).
Proof. exact (@constants_kept). Qed.
Print Assumptions C06_constants.

(** C07. Translating all points changes neither gradients nor JxW. *)
Theorem C07_translation : forall (K : ops) (KR : ring_laws K) s d (f : fe K), built_element s d f ->
  forall pts, List.length pts = List.length (points f) ->
  forall t pts', translation d t pts pts' ->
  forall c q a j, c < num_cells f -> j < d ->
  get_shape_grads pts' f c q a j = get_shape_grads pts f c q a j /\ get_JxW pts' f c q = get_JxW pts f c q.
Proof.
  intros K KR s d f (LAG & DIM & MESH & sq & qd & fq & nm & p0 & cl & v & dr & B) pts HP t pts' T c q a j Hc Hj.
  exact (translation_invariant KR _ _ _ _ _ _ _ _ _ _ _ B LAG MESH DIM pts HP t pts' c q a j T Hc Hj).
Qed.
Print Assumptions C07_translation.

(** JxW scales with the determinant of a linear (affine) map applied to the points. *)
Theorem C07_linear_map : forall (K : ops) (KR : ring_laws K) s d (f : fe K), built_element s d f ->
  forall pts, List.length pts = List.length (points f) ->
  forall M t pts', samples d d M t pts pts' ->
  forall c q, c < num_cells f -> get_JxW pts' f c q = mul (det_dim d M) (get_JxW pts f c q).
Proof.
  intros K KR s d f (LAG & DIM & MESH & sq & qd & fq & nm & p0 & cl & v & dr & B) pts HP M t pts' T c q Hc.
  exact (JxW_moved KR _ _ _ _ _ _ _ _ _ _ _ B LAG MESH DIM pts HP M t pts' T c q Hc).
Qed.
Print Assumptions C07_linear_map.

(** A cell that is the image of the reference element under x -> M x + b: JxW sums to det M
    times the sum of the weights. *)
Theorem C07_affine_cell : forall (K : ops) (KR : ring_laws K) s d (f : fe K), built_element s d f ->
  forall pts, List.length pts = List.length (points f) ->
  forall (half : K) M b c, add half half = one -> c < num_cells f -> affine_cell half s pts f d c M b ->
  sum_n (num_quads f) (get_JxW pts f c) = mul (det_dim d M) (sum_n (num_quads f) (quad_weights f)).
Proof.
  intros K KR s d f (LAG & DIM & MESH & sq & qd & fq & nm & p0 & cl & v & dr & B) pts HP half M b c Hh Hc HA.
  exact (measure_aff KR _ _ _ _ _ _ _ _ _ _ _ B LAG MESH DIM pts HP half M b c Hh Hc HA).
Qed.
Print Assumptions C07_affine_cell.

(** Any triangle and any tetrahedron: JxW sums to the determinant of its edge vectors times the
    sum of the weights (1/2 or 1/6 for a rule on the reference cell). *)
Theorem C07_simplex : forall (K : ops) (KR : ring_laws K) s d (f : fe K), built_element s d f ->
  (s = "TRI3" \/ s = "TET4")%string ->
  forall pts, List.length pts = List.length (points f) ->
  forall (half : K) c, add half half = one -> c < num_cells f ->
  sum_n (num_quads f) (get_JxW pts f c)
  = mul (det_dim d (edge_mat pts f c)) (sum_n (num_quads f) (quad_weights f)).
Proof.
  intros K KR s d f (LAG & DIM & MESH & sq & qd & fq & nm & p0 & cl & v & dr & B) Hs pts HP half c Hh Hc.
  refine (measure_aff KR _ _ _ _ _ _ _ _ _ _ _ B LAG MESH DIM pts HP half _ _ c Hh Hc (simplex_affine KR half s pts f d c Hh _)).
  destruct Hs as [-> | ->]; [left|right]; split; auto.
Qed.
Print Assumptions C07_simplex.

(** Any QUAD4 cell, with a rule exact on linear functions: half the shoelace sum. *)
Theorem C07_quad4 : forall (K : ops) (KR : ring_laws K) (sqrtK : K -> K) quad fquad normals pts0 cls v dir f pts c (half : K),
  fe_init sqrtK "QUAD4" quad fquad normals pts0 cls v 2 dir = Ok f ->
  mesh_ok f -> List.length pts = List.length (points f) -> c < num_cells f ->
  add half half = one ->
  sum_n (num_quads f) (quad_weights f) = one ->
  sum_n (num_quads f) (fun q => mul (quad_weights f q) (nth 0 (nth q (fst quad) []) zero)) = half ->
  sum_n (num_quads f) (fun q => mul (quad_weights f q) (nth 1 (nth q (fst quad) []) zero)) = half ->
  let x a := vx pts f c a 0 in let y a := vx pts f c a 1 in
  sum_n (num_quads f) (get_JxW pts f c)
  = mul half (sum_n 4 (fun a => sub (mul (x a) (y ((a + 1) mod 4))) (mul (x ((a + 1) mod 4)) (y a)))).
Proof. exact (@quad4_measure). Qed.
Print Assumptions C07_quad4.

(** C08. On a cell with affine map x -> M x + b, at every quadrature point of face fc: the reference
    weight times the size of the physical face, with the sign of det M.  The facet normal only has to
    be a unit vector orthogonal to the reference facet. *)
Theorem C08_nanson : forall s quad fquad normals pts0 cls v d dir (f : fe Rops),
  fe_init (K := Rops) sqrt s quad fquad normals pts0 cls v d dir = Ok f ->
  In s nine_names -> mesh_ok f -> d = element_dim s ->
  forall pts, List.length pts = List.length (points f) ->
  forall M b c, c < num_cells f -> affine_cell (K := Rops) (/ 2)%R s pts f d c M b ->
  forall fc, fc < List.length (face_inds f) ->
  let fv k := nth k (nth fc (face_inds f) []) 0 in
  let tangent k i := (ref_coord (K := Rops) (/ 2) s (fv (S k)) i - ref_coord (K := Rops) (/ 2) s (fv 0%nat) i)%R in
  let edge k i := (vx pts f c (fv (S k)) i - vx pts f c (fv 0%nat) i)%R in
  det_dim d M <> 0%R ->
  sum_n (K := Rops) d (fun i => face_normals f fc i * face_normals f fc i)%R = 1%R ->
  (forall k, S k < d -> sum_n (K := Rops) d (fun i => face_normals f fc i * tangent k i)%R = 0%R) ->
  forall q, nanson_scale (K := Rops) sqrt pts f c fc q
            = (sign (det_dim d M) * facet_size d edge * nth q (snd fquad) 0)%R.
Proof. exact nanson_aff. Qed.
Print Assumptions C08_nanson.

(** So they sum to the signed physical size times the sum of the reference weights. *)
Theorem C08_face_measure : forall s quad fquad normals pts0 cls v d dir (f : fe Rops),
  fe_init (K := Rops) sqrt s quad fquad normals pts0 cls v d dir = Ok f ->
  In s nine_names -> mesh_ok f -> d = element_dim s ->
  forall pts, List.length pts = List.length (points f) ->
  forall M b c, c < num_cells f -> affine_cell (K := Rops) (/ 2)%R s pts f d c M b ->
  forall fc, fc < List.length (face_inds f) ->
  let fv k := nth k (nth fc (face_inds f) []) 0 in
  let tangent k i := (ref_coord (K := Rops) (/ 2) s (fv (S k)) i - ref_coord (K := Rops) (/ 2) s (fv 0%nat) i)%R in
  let edge k i := (vx pts f c (fv (S k)) i - vx pts f c (fv 0%nat) i)%R in
  det_dim d M <> 0%R ->
  sum_n (K := Rops) d (fun i => face_normals f fc i * face_normals f fc i)%R = 1%R ->
  (forall k, S k < d -> sum_n (K := Rops) d (fun i => face_normals f fc i * tangent k i)%R = 0%R) ->
  sum_n (num_face_quads f) (nanson_scale (K := Rops) sqrt pts f c fc)
  = (sign (det_dim d M) * facet_size d edge * sum_n (K := Rops) (num_face_quads f) (fun q => nth q (snd fquad) 0%R))%R.
Proof.
  intros s qd fq nm p0 cl v d dr f B LAG MESH DIM pts HP M b c Hc HA fc Hfc fv tg ed HD HU HO.
  rewrite <- (FeFacts.sum_n_mul_l Rops_ring). apply sum_n_ext. intros q _.
  exact (nanson_aff s qd fq nm p0 cl v d dr f B LAG MESH DIM pts HP M b c Hc HA fc Hfc HD HU HO q).
Qed.
Print Assumptions C08_face_measure.

(** C09. *)
Theorem C09_dirichlet_selection : forall (K : ops) (pts : list (list K)) locs vecs values,
  (~ (List.length vecs = List.length locs /\ List.length values = List.length locs) ->
     Dirichlet_boundary_conditions pts (Some (locs, vecs, values)) = Err AssertionErr) /\
  (List.length vecs = List.length locs -> List.length values = List.length locs -> existsb loc_wrong locs = true ->
     Dirichlet_boundary_conditions pts (Some (locs, vecs, values)) = Err ValueErr) /\
  (List.length vecs = List.length locs -> List.length values = List.length locs -> existsb loc_wrong locs = false ->
     exists ns vs ws, Dirichlet_boundary_conditions pts (Some (locs, vecs, values)) = Ok (ns, vs, ws) /\
       dirichlet_ok pts locs vecs values ns vs ws).
Proof. exact (@dirichlet_spec). Qed.
Print Assumptions C09_dirichlet_selection.

(** The same for update_Dirichlet_boundary_conditions, which changes nothing else. *)
Theorem C09_dirichlet_update : forall (K : ops) (f f' : fe K) locs vecs values,
  update_Dirichlet_boundary_conditions f (Some (locs, vecs, values)) = Ok f' ->
  dirichlet_ok (points f) locs vecs values (node_inds_list f') (vec_inds_list f') (vals_list f') /\
  points f' = points f /\ cells f' = cells f /\ vec f' = vec f /\ dim f' = dim f /\
  num_quads f' = num_quads f /\ num_nodes f' = num_nodes f /\
  shape_vals f' = shape_vals f /\ shape_grads_ref f' = shape_grads_ref f /\ quad_weights f' = quad_weights f /\
  face_shape_vals f' = face_shape_vals f /\ face_shape_grads_ref f' = face_shape_grads_ref f /\
  face_quad_weights f' = face_quad_weights f /\ face_normals f' = face_normals f /\ face_inds f' = face_inds f.
Proof. exact (@dirichlet_update). Qed.
Print Assumptions C09_dirichlet_update.

(** What the rest of the code then sees prescribed at node n, component j. *)
Theorem C09_prescribed_value : forall (K : ops) (f : fe K) locs vecs values,
  dirichlet_ok (points f) locs vecs values (node_inds_list f) (vec_inds_list f) (vals_list f) ->
  bc_ok f /\
  (forall n j, prescribed f n j = dirichlet_value (points f) locs vecs values n j) /\
  (List.length vecs = List.length locs -> (forall v, In v vecs -> v < vec f) -> bc_in_range f).
Proof. exact (@dirichlet_prescribed). Qed.
Print Assumptions C09_prescribed_value.

(** C10. *)
Theorem C10_face_selection : forall (K : ops) sqrtK s quad fquad normals pts cls v d dir (f : fe K),
  fe_init sqrtK s quad fquad normals pts cls v d dir = Ok f -> mesh_ok f ->
  forall locs,
  (existsb loc_wrong locs = true -> get_boundary_conditions_inds f (Some locs) = Err ValueErr) /\
  (existsb loc_wrong locs = false ->
     exists bs, get_boundary_conditions_inds f (Some locs) = Ok bs /\ List.length bs = List.length locs /\
       forall i, i < List.length locs -> faces_selected f (nth i locs (LocOther 0)) (nth i bs [])).
Proof.
  intros K sq s qd fq nm p cl v d dr f B HM locs.
  exact (boundary_spec f locs (built_faces_ok _ _ _ _ _ _ _ _ _ _ _ B HM)).
Qed.
Print Assumptions C10_face_selection.

Theorem C10_count_selected_faces : forall (K : ops) sqrtK s quad fquad normals pts cls v d dir (f : fe K) g,
  fe_init sqrtK s quad fquad normals pts cls v d dir = Ok f -> mesh_ok f ->
  exists b, get_boundary_conditions_inds f (Some [Loc1 g]) = Ok [b] /\
            count_selected_faces s pts cls g = Ok (List.length b).
Proof. exact (@count_faces). Qed.
Print Assumptions C10_count_selected_faces.
