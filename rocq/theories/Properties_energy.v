(** C73, C74: virtual work, energies, and the symmetry and sign of the matrix. *)
From Coq Require Import String Reals List Arith Lia Lra Bool.
From Verif Require Import Num Arr Fe Problem SpecAssembly Basis SpecBasis SpecFe FeFacts GeomFacts SpecWeak KernelFacts SpecEnergy EnergyFacts Elastic ElasticFacts SpecElastic ElasticMain
  Init Mesh MeshFacts MeshFe PatchFacts.
Import ListNotations.
Local Open Scope num_scope.

(** C73. Principle of virtual work: for every field v, the product of v with the residual is the integral of stress : grad v + source . v
    over the cells plus that of traction . v over the selected faces. *)
Theorem C73_virtual_work : forall (K : ops) (KR : ring_laws K) (V : Type) (sqrtK : K -> K) (p : problem K V) (f : fe K) P sol,
  wf_problem p -> (0 < p_num_cells p)%nat -> standard_problem p f -> sol_ok p [sol] -> ivs_ok p -> maps_ok (vec f) (dim f) (maps p) ->
  forall v res, sol_ok p [v] -> compute_residual sqrtK p [P] [sol] = Ok [res] ->
  work (List.length (points f)) (vec f) v res =
  over_cells p f P (fun c q => dot2 (vec f) (dim f) (stress p f P sol c q) (sol_to_grad P f v c q)
                             + dot1 (vec f) (source p f P sol c q) (convert_from_dof_to_quad f v c q))
  + over_faces sqrtK p f P (fun s e c fc q => dot1 (vec f) (traction p f P sol s e q) (convert_from_dof_to_face_quad f v c fc q)).
Proof. exact (@any_work). Qed.
Print Assumptions C73_virtual_work.

(** If the maps are gradients of densities, the residual is the gradient of the total energy. *)
Theorem C73_energy_gradient : forall (V : Type) (sqrtK : Rops -> Rops) (p : problem Rops V) (f : fe Rops) P sol,
  wf_problem p -> (0 < p_num_cells p)%nat -> standard_problem p f -> sol_ok p [sol] -> ivs_ok p -> maps_ok (vec f) (dim f) (maps p) ->
  forall (E : densities V) v res, densities_ok (vec f) (dim f) E -> derives_from p f P sol E -> sol_ok p [v] ->
  compute_residual sqrtK p [P] [sol] = Ok [res] ->
  derivable_pt_lim (fun t => total_energy sqrtK p f P E (along (K := Rops) sol v t)) 0 (work (K := Rops) (List.length (points f)) (vec f) v res).
Proof. exact (@energy_derivative). Qed.
Print Assumptions C73_energy_gradient.

(** Linear elasticity with dead loads derives from the potential energy ... *)
Theorem C73_elastic_energy : forall (V : Type) lam mu (sqrtK : Rops -> Rops) (p : problem Rops V) (f : fe Rops) P sol,
  wf_problem p -> elastic_problem lam mu p f ->
  densities_ok (vec f) (dim f) (elastic_densities lam mu p f) /\ derives_from p f P sol (elastic_densities lam mu p f) /\
  total_energy sqrtK p f P (elastic_densities lam mu p f) sol = potential_energy lam mu sqrtK p f P sol.
Proof. exact (@elastic_derives). Qed.
Print Assumptions C73_elastic_energy.

(** ... which differs between u and u + v by the work of the residual and the strain energy of v, exactly; *)
Theorem C73_elastic_expansion : forall (V : Type) lam mu (sqrtK : Rops -> Rops) (p : problem Rops V) (f : fe Rops) P sol,
  wf_problem p -> (0 < p_num_cells p)%nat -> elastic_problem lam mu p f -> sol_ok p [sol] -> ivs_ok p -> maps_ok (vec f) (dim f) (maps p) ->
  forall v res, sol_ok p [v] -> compute_residual sqrtK p [P] [sol] = Ok [res] ->
  potential_energy lam mu sqrtK p f P (along (K := Rops) sol v 1%R) =
  (potential_energy lam mu sqrtK p f P sol + work (K := Rops) (List.length (points f)) (vec f) v res + strain_energy lam mu p f P v)%R.
Proof. exact (@elastic_expansion). Qed.
Print Assumptions C73_elastic_expansion.

(** so a solution in equilibrium at every dof that v moves has the least potential energy (lambda, mu, JxW not negative). *)
Theorem C73_elastic_minimum : forall (V : Type) lam mu (sqrtK : Rops -> Rops) (p : problem Rops V) (f : fe Rops) P sol,
  wf_problem p -> (0 < p_num_cells p)%nat -> elastic_problem lam mu p f -> sol_ok p [sol] -> ivs_ok p -> maps_ok (vec f) (dim f) (maps p) ->
  forall v res, (0 <= lam)%R -> (0 <= mu)%R ->
  (forall c q, (c < p_num_cells p)%nat -> (q < num_quads f)%nat -> 0 <= get_JxW P f c q)%R ->
  sol_ok p [v] -> compute_residual sqrtK p [P] [sol] = Ok [res] ->
  (forall n k, (n < List.length (points f))%nat -> (k < vec f)%nat -> get2 (@zero Rops) v n k = 0%R \/ get2 (@zero Rops) res n k = 0%R) ->
  (potential_energy lam mu sqrtK p f P sol <= potential_energy lam mu sqrtK p f P (along (K := Rops) sol v 1%R))%R.
Proof. exact (@elastic_minimum). Qed.
Print Assumptions C73_elastic_minimum.

(** C74. The matrix is the matrix of the bilinear form of the tangents of the user's maps. *)
Theorem C74_bilinear_form : forall (V : Type) (jvp : (list Rops -> list Rops) -> list Rops -> list Rops -> list Rops) (sqrtK : Rops -> Rops)
    (p : problem Rops V) (f : fe Rops) P sol kf,
  wf_problem p -> (0 < p_num_cells p)%nat -> standard_problem p f -> sol_ok p [sol] -> ivs_ok p -> maps_ok (vec f) (dim f) (maps p) -> kernels_ok p kf ->
  (forall c, (c < p_num_cells p)%nat -> jvp_correct jvp (cell_fun p [P] [sol] c) (cell_values p [sol] c)) ->
  (forall s i, (s < List.length (boundary_inds_list p))%nat -> (i < num_sel_faces p s)%nat ->
     jvp_correct jvp (face_fun sqrtK p [P] [sol] kf s i) (cell_values p [sol] (face_cell p s i))) ->
  forall (D : tangents) v w r0 W, tangents_of p f P sol D -> sol_ok p [v] -> sol_ok p [w] ->
  newton_update jvp sqrtK p [P] [sol] = Ok (r0, W) ->
  quadratic_form p W v w = tangent_form sqrtK p f P D v w.
Proof. exact (@matrix_form). Qed.
Print Assumptions C74_bilinear_form.

(** Symmetric tangents give a symmetric matrix, entry by entry; *)
Theorem C74_symmetric : forall (V : Type) (jvp : (list Rops -> list Rops) -> list Rops -> list Rops -> list Rops) (sqrtK : Rops -> Rops)
    (p : problem Rops V) (f : fe Rops) P sol kf,
  wf_problem p -> (0 < p_num_cells p)%nat -> standard_problem p f -> sol_ok p [sol] -> ivs_ok p -> maps_ok (vec f) (dim f) (maps p) -> kernels_ok p kf ->
  (forall c, (c < p_num_cells p)%nat -> jvp_correct jvp (cell_fun p [P] [sol] c) (cell_values p [sol] c)) ->
  (forall s i, (s < List.length (boundary_inds_list p))%nat -> (i < num_sel_faces p s)%nat ->
     jvp_correct jvp (face_fun sqrtK p [P] [sol] kf s i) (cell_values p [sol] (face_cell p s i))) ->
  forall (D : tangents) r0 W, tangents_of p f P sol D -> symmetric_tangents p f D -> newton_update jvp sqrtK p [P] [sol] = Ok (r0, W) ->
  forall g h, (g < all_dofs (global_shapes p))%nat -> (h < all_dofs (global_shapes p))%nat ->
  coo_entry (K := Rops) (p_I p) (p_J p) W g h = coo_entry (K := Rops) (p_I p) (p_J p) W h g.
Proof. exact (@matrix_symmetric). Qed.
Print Assumptions C74_symmetric.

(** tangents without negative directions give a matrix without negative directions, if no integration weight is negative. *)
Theorem C74_nonnegative : forall (V : Type) (jvp : (list Rops -> list Rops) -> list Rops -> list Rops -> list Rops) (sqrtK : Rops -> Rops)
    (p : problem Rops V) (f : fe Rops) P sol kf,
  wf_problem p -> (0 < p_num_cells p)%nat -> standard_problem p f -> sol_ok p [sol] -> ivs_ok p -> maps_ok (vec f) (dim f) (maps p) -> kernels_ok p kf ->
  (forall c, (c < p_num_cells p)%nat -> jvp_correct jvp (cell_fun p [P] [sol] c) (cell_values p [sol] c)) ->
  (forall s i, (s < List.length (boundary_inds_list p))%nat -> (i < num_sel_faces p s)%nat ->
     jvp_correct jvp (face_fun sqrtK p [P] [sol] kf s i) (cell_values p [sol] (face_cell p s i))) ->
  forall (D : tangents) r0 W, tangents_of p f P sol D -> nonnegative_tangents p f D ->
  (forall c q, (c < p_num_cells p)%nat -> (q < num_quads f)%nat -> 0 <= get_JxW P f c q)%R ->
  (forall s e q, (s < List.length (boundary_inds_list p))%nat -> (e < num_sel_faces p s)%nat -> (q < num_face_quads f)%nat ->
     0 <= nanson_scale sqrtK P f (fst (nth e (nth s (boundary_inds_list p) []) (0, 0)%nat)) (snd (nth e (nth s (boundary_inds_list p) []) (0, 0)%nat)) q)%R ->
  newton_update jvp sqrtK p [P] [sol] = Ok (r0, W) ->
  forall v, sol_ok p [v] -> (0 <= quadratic_form p W v v)%R.
Proof. exact (@matrix_nonneg). Qed.
Print Assumptions C74_nonnegative.

(** Linear elasticity has such tangents. *)
Theorem C74_elastic : forall (V : Type) lam mu (p : problem Rops V) (f : fe Rops) P sol,
  wf_problem p -> (0 < p_num_cells p)%nat -> elastic_problem lam mu p f -> sol_ok p [sol] ->
  tangents_of p f P sol (elastic_tangents (V := V) lam mu (dim f)) /\ symmetric_tangents p f (elastic_tangents (V := V) lam mu (dim f)) /\
  ((0 <= lam)%R -> (0 <= mu)%R -> nonnegative_tangents p f (elastic_tangents (V := V) lam mu (dim f))).
Proof. exact (@elastic_tangents_ok). Qed.
Print Assumptions C74_elastic.
