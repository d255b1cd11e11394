(** C18, C19, C51-C55: the weak form of the documented maps, balance laws, construction of a Problem. *)
From Coq Require Import String List Arith Bool.
From Verif Require Import Num Arr Fe Problem SpecAssembly Basis SpecBasis SpecFe SpecWeak KernelFacts BalanceFacts
  Init SpecInit InitFacts.
Import ListNotations.
Local Open Scope num_scope.

(** C51. The residual of a one-variable problem is the weak form of its maps: entry (n, k) sums, over
    the cells that contain node n and over the selected faces of such cells, the quadratures of
    stress : grad phi + source phi and of traction phi. *)
Theorem C51_weak_form : forall (K : ops) (KR : ring_laws K) (V : Type) (sqrtK : K -> K) (p : problem K V) (f : fe K) P sol,
  wf_problem p -> (0 < p_num_cells p)%nat -> standard_problem p f -> sol_ok p [sol] -> ivs_ok p ->
  maps_ok (vec f) (dim f) (maps p) ->
  exists res, compute_residual sqrtK p [P] [sol] = Ok [res] /\ shaped (List.length (points f)) (vec f) res /\
  forall n k, (n < List.length (points f))%nat -> (k < vec f)%nat ->
    get2 0 res n k =
      sum_n (p_num_cells p) (fun c => sum_n (num_nodes f) (fun a =>
        if (nth a (nth c (cells f) []) 0 =? n)%nat then volume_term p f P sol c a k else 0)) +
      sum_n (List.length (boundary_inds_list p)) (fun s => sum_n (num_sel_faces p s) (fun e =>
        sum_n (num_nodes f) (fun a =>
        if (nth a (nth (face_cell p s e) (cells f) []) 0 =? n)%nat then surface_term sqrtK p f P sol s e a k else 0))).
Proof. exact (@residual_weak). Qed.
Print Assumptions C51_weak_form.

(** C18. Summed over the nodes, each component of the residual is the quadrature of the source plus
    the quadrature of the tractions; the stress contributes nothing ... *)
Theorem C18_total_load : forall (K : ops) (KR : ring_laws K) (V : Type) (sqrtK : K -> K) (p : problem K V) (f : fe K) P sol s res k,
  wf_problem p -> (0 < p_num_cells p)%nat -> standard_problem p f -> sol_ok p [sol] -> ivs_ok p ->
  maps_ok (vec f) (dim f) (maps p) -> built_element s (dim f) f -> (k < vec f)%nat ->
  compute_residual sqrtK p [P] [sol] = Ok [res] ->
  sum_n (List.length (points f)) (fun n => get2 0 res n k) =
    sum_n (p_num_cells p) (fun c => sum_n (num_quads f) (fun q => source p f P sol c q k * get_JxW P f c q)) +
    sum_n (List.length (boundary_inds_list p)) (fun b => sum_n (num_sel_faces p b) (fun e =>
      sum_n (num_face_quads f) (fun q => traction p f P sol b e q k *
        nanson_scale sqrtK P f (fst (nth e (nth b (boundary_inds_list p) []) (0, 0)%nat))
          (snd (nth e (nth b (boundary_inds_list p) []) (0, 0)%nat)) q))).
Proof. intros. eapply total_residual; eauto. Qed.
Print Assumptions C18_total_load.

(** ... in particular the internal forces alone balance. *)
Theorem C18_internal_forces_balance : forall (K : ops) (KR : ring_laws K) (V : Type) (sqrtK : K -> K) (p : problem K V) (f : fe K) P sol s res k,
  wf_problem p -> (0 < p_num_cells p)%nat -> standard_problem p f -> sol_ok p [sol] -> ivs_ok p ->
  maps_ok (vec f) (dim f) (maps p) -> built_element s (dim f) f -> (k < vec f)%nat ->
  mass_map (maps p) = None -> boundary_inds_list p = [] ->
  compute_residual sqrtK p [P] [sol] = Ok [res] ->
  sum_n (List.length (points f)) (fun n => get2 0 res n k) = 0.
Proof. exact (@internal_balance). Qed.
Print Assumptions C18_internal_forces_balance.

(** C19. A Problem is constructed only if the number of location functions is the number of declared
    surface integrands ... *)
Theorem C19_surface_count : forall (K : ops) (V : Type) (sqrtK : K -> K) d vars locs (m : user_maps K V) custom p,
  problem_init sqrtK d vars locs m custom = Ok p -> num_locations locs = num_declared m.
Proof. exact (@init_ok_count). Qed.
Print Assumptions C19_surface_count.

(** ... otherwise, with everything else in order, AssertionError is raised. *)
Theorem C19_mismatch_raises : forall (K : ops) (V : Type) (sqrtK : K -> K) d vars locs (m : user_maps K V) custom,
  args_ok vars -> locations_ok locs -> num_locations locs <> num_declared m ->
  problem_init sqrtK d vars locs m custom = Err AssertionErr.
Proof. exact (@init_mismatch). Qed.
Print Assumptions C19_mismatch_raises.

(** The check looks at one list only: when both kinds are declared and the universal kernels are too
    few, construction succeeds and the first residual evaluation raises IndexError. *)
Theorem C19_second_list_unchecked : forall (K : ops) (V : Type) (sqrtK : K -> K) (p : problem K V) pts sol sms uks,
  wf_problem p -> (0 < p_num_cells p)%nat -> sol_ok p sol -> ivs_ok p ->
  surface_maps (maps p) = Some sms -> universal_kernels_surface (maps p) = Some uks ->
  List.length sms = List.length (boundary_inds_list p) -> (List.length uks < List.length (boundary_inds_list p))%nat ->
  pre_jit_check p = Ok tt /\ compute_residual sqrtK p pts sol = Err IndexErr.
Proof. exact (@second_list). Qed.
Print Assumptions C19_second_list_unchecked.

(** C52. Virtual work of a linear field A.x + b: tested with it, the residual gives the quadrature of
    stress . A plus source and tractions times the field at the quadrature points. *)
Theorem C52_virtual_work : forall (K : ops) (KF : field_laws K) (V : Type) (sqrtK : K -> K) (p : problem K V) (f : fe K) P sol,
  wf_problem p -> (0 < p_num_cells p)%nat -> standard_problem p f -> sol_ok p [sol] -> ivs_ok p ->
  maps_ok (vec f) (dim f) (maps p) -> forall s, built_element s (dim f) f ->
  List.length P = List.length (points f) ->
  (forall c q, (c < p_num_cells p)%nat -> (q < num_quads f)%nat -> get_JxW P f c q <> 0) ->
  forall res A b k, (k < vec f)%nat -> compute_residual sqrtK p [P] [sol] = Ok [res] ->
  sum_n (List.length (points f)) (fun n => linear_form (dim f) A b (fun i => nth i (nth n P []) 0) * get2 0 res n k) =
  sum_n (p_num_cells p) (fun c => sum_n (num_quads f) (fun q =>
    (sum_n (dim f) (fun j => stress p f P sol c q k j * A j)
     + source p f P sol c q k * linear_form (dim f) A b (get_physical_quad_points P f c q)) * get_JxW P f c q)) +
  sum_n (List.length (boundary_inds_list p)) (fun t => sum_n (num_sel_faces p t) (fun e =>
    let c := fst (nth e (nth t (boundary_inds_list p) []) (0, 0)%nat) in
    let fc := snd (nth e (nth t (boundary_inds_list p) []) (0, 0)%nat) in
    sum_n (num_face_quads f) (fun q => traction p f P sol t e q k *
      linear_form (dim f) A b (get_physical_surface_quad_points P f c fc q) * nanson_scale sqrtK P f c fc q))).
Proof. exact (@virtual_work). Qed.
Print Assumptions C52_virtual_work.

(** C53. With a symmetric stress the moment of the residual about the axes i, k is the moment of the
    loads: internal forces exert no torque. *)
Theorem C53_moment_balance : forall (K : ops) (KF : field_laws K) (V : Type) (sqrtK : K -> K) (p : problem K V) (f : fe K) P sol,
  wf_problem p -> (0 < p_num_cells p)%nat -> standard_problem p f -> sol_ok p [sol] -> ivs_ok p ->
  maps_ok (vec f) (dim f) (maps p) -> forall s, built_element s (dim f) f ->
  List.length P = List.length (points f) ->
  (forall c q, (c < p_num_cells p)%nat -> (q < num_quads f)%nat -> get_JxW P f c q <> 0) ->
  forall res i k, (i < dim f)%nat -> (k < dim f)%nat -> (dim f <= vec f)%nat ->
  (forall c q, (c < p_num_cells p)%nat -> (q < num_quads f)%nat -> stress p f P sol c q i k = stress p f P sol c q k i) ->
  compute_residual sqrtK p [P] [sol] = Ok [res] ->
  sum_n (List.length (points f)) (fun n => nth i (nth n P []) 0 * get2 0 res n k - nth k (nth n P []) 0 * get2 0 res n i) =
  sum_n (p_num_cells p) (fun c => sum_n (num_quads f) (fun q =>
    (get_physical_quad_points P f c q i * source p f P sol c q k
     - get_physical_quad_points P f c q k * source p f P sol c q i) * get_JxW P f c q)) +
  sum_n (List.length (boundary_inds_list p)) (fun t => sum_n (num_sel_faces p t) (fun e =>
    let c := fst (nth e (nth t (boundary_inds_list p) []) (0, 0)%nat) in
    let fc := snd (nth e (nth t (boundary_inds_list p) []) (0, 0)%nat) in
    sum_n (num_face_quads f) (fun q =>
      (get_physical_surface_quad_points P f c fc q i * traction p f P sol t e q k
       - get_physical_surface_quad_points P f c fc q k * traction p f P sol t e q i) * nanson_scale sqrtK P f c fc q))).
Proof. exact (@moment). Qed.
Print Assumptions C53_moment_balance.

(** C54. Adding the same vector to the solution at every node does not change the residual of a
    problem that declares a stress map only. *)
Theorem C54_rigid_translation : forall (K : ops) (KR : ring_laws K) (V : Type) (sqrtK : K -> K) (p : problem K V) (f : fe K) P sol,
  wf_problem p -> (0 < p_num_cells p)%nat -> standard_problem p f -> sol_ok p [sol] -> ivs_ok p ->
  maps_ok (vec f) (dim f) (maps p) -> forall s, built_element s (dim f) f ->
  forall t sol', moved_by (vec f) t sol sol' -> sol_ok p [sol'] ->
  mass_map (maps p) = None -> boundary_inds_list p = [] ->
  exists res, compute_residual sqrtK p [P] [sol] = Ok [res] /\ compute_residual sqrtK p [P] [sol'] = Ok [res].
Proof. exact (@residual_moved). Qed.
Print Assumptions C54_rigid_translation.

(** C55. Consistent arguments are accepted and give a well-formed problem with the given meshes, to
    which the assembly theorems apply. *)
Theorem C55_construction : forall (K : ops) (V : Type) (sqrtK : K -> K) d vars locs (m : user_maps K V) custom,
  args_ok vars -> locations_ok locs -> num_locations locs = num_declared m ->
  exists p, problem_init sqrtK d vars locs m custom = Ok p /\ wf_problem p /\ maps p = m /\
    List.length (fes p) = List.length vars /\ List.length (boundary_inds_list p) = num_locations locs /\
    (internal_vars p, internal_vars_surfaces p) = custom [] (map (fun _ => []) (boundary_inds_list p)) /\
    ((forall a b, custom a b = (a, b)) -> ivs_ok p) /\
    forall i a0, (i < List.length vars)%nat -> let a := nth i vars a0 in let f := nth i (fes p) (fe0 p) in
      points f = va_points a /\ cells f = va_cells a /\ vec f = va_vec a /\ dim f = d /\
      num_nodes f = node_count (va_ele_type a).
Proof. exact (@init_wf). Qed.
Print Assumptions C55_construction.
