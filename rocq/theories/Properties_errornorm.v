(** C105: the norms of the error of the convergence study, and the fields that the elements reproduce. *)
From Coq Require Import Reals String List Arith Bool.
From Verif Require Import Num Arr Fe Problem Basis SpecBasis SpecFe SpecSecond SpecLinear Init SpecErrorNorm ErrorNorm ErrorNormMain ErrorNormRun ErrorNormMet.
Import ListNotations.
Local Open Scope R_scope.

(** On a mesh without negative measures the L2 norm is a number, the root of the weighted sum of the squared errors at the quadrature points.  With positive measures it is zero exactly when the field agrees with the given function at every quadrature point. *)
Theorem C105_l2 : forall P (f : fe Rops) sol u, nonnegative_measures P f ->
  (exists e, compute_l2_norm_error P f sol u = Some e /\ 0 <= e /\
    e ^ 2 = weighted_sum (num_cells f) (num_quads f) (vec f) (get_JxW P f) (fun c q k => (convert_from_dof_to_quad f sol c q k - nth k (u (quad_point_of P f c q)) 0) ^ 2)) /\
  (positive_measures P f -> (compute_l2_norm_error P f sol u = Some 0 <->
    forall c q k, (c < num_cells f)%nat -> (q < num_quads f)%nat -> (k < vec f)%nat -> convert_from_dof_to_quad f sol c q k = nth k (u (quad_point_of P f c q)) 0)).
Proof. intros P f sol u W. exact (conj (l2_norm P f sol u W) (l2_zero P f sol u)). Qed.
Print Assumptions C105_l2.

(** The H1 norm is the L2 norm plus the root of the weighted sum of the squared errors of the gradient, so it is never below the L2 norm; with positive measures it is zero exactly when values and gradients agree at every quadrature point. *)
Theorem C105_h1 : forall P (f : fe Rops) jacrev sol u, nonnegative_measures P f ->
  (exists e0 e1, compute_l2_norm_error P f sol u = Some e0 /\ compute_h1_norm_error jacrev P f sol u = Some e1 /\ 0 <= e0 <= e1 /\
    (e1 - e0) ^ 2 = weighted_sum (num_cells f) (num_quads f) (vec f) (get_JxW P f) (fun c q k => sum_n (K := Rops) (dim f) (fun j => (sol_to_grad P f sol c q k j - jacrev u (quad_point_of P f c q) k j) ^ 2))) /\
  (positive_measures P f -> (compute_h1_norm_error jacrev P f sol u = Some 0 <->
    (forall c q k, (c < num_cells f)%nat -> (q < num_quads f)%nat -> (k < vec f)%nat -> convert_from_dof_to_quad f sol c q k = nth k (u (quad_point_of P f c q)) 0) /\
    (forall c q k j, (c < num_cells f)%nat -> (q < num_quads f)%nat -> (k < vec f)%nat -> (j < dim f)%nat -> sol_to_grad P f sol c q k j = jacrev u (quad_point_of P f c q) k j))).
Proof. intros P f jacrev sol u W. exact (conj (h1_norm P f jacrev sol u W) (h1_zero P f jacrev sol u)). Qed.
Print Assumptions C105_h1.

(** Changing the solution by diff changes the L2 error by the L2 norm of diff at most. *)
Theorem C105_triangle : forall P (f : fe Rops) sol1 sol2 diff u e1 e2 e3, nonnegative_measures P f -> combination (K := Rops) 1 1 sol2 diff sol1 ->
  compute_l2_norm_error P f sol1 u = Some e1 -> compute_l2_norm_error P f sol2 u = Some e2 -> compute_l2_norm_error P f diff (fun _ => []) = Some e3 -> e1 <= e2 + e3.
Proof. exact l2_triangle. Qed.
Print Assumptions C105_triangle.

(** Nodal values of an affine function: both errors are zero, for every element, on every mesh. *)
Theorem C105_affine : forall s d (f : fe Rops) P, built_element s d f -> length P = length (points f) -> forall A b sol u, samples d (vec f) A b P sol ->
  (forall x k, length x = d -> (k < vec f)%nat -> nth k (u x) 0 = affine (K := Rops) d A b (fun i => nth i x 0) k) ->
  compute_l2_norm_error P f sol u = Some 0 /\
  (nonzero_measures P f -> forall jacrev, (forall x, length x = d -> jacobian_of (vec f) u x (jacrev u x)) -> compute_h1_norm_error jacrev P f sol u = Some 0).
Proof. exact affine_exact. Qed.
Print Assumptions C105_affine.

(** Nodal values of a polynomial of degree two: both errors are zero for TRI6, TET10 and HEX27 on every mesh of affine images of the reference cell. *)
Theorem C105_quadratic : forall s d (f : fe Rops) P, built_element s d f -> length P = length (points f) -> forall c b A sol u, In s quadratic_names -> affine_mesh s P f d -> samples_quadratic d (vec f) c b A P sol ->
  (forall x k, length x = d -> (k < vec f)%nat -> nth k (u x) 0 = quadratic_field (K := Rops) d (c k) (b k) (A k) (fun i => nth i x 0)) ->
  compute_l2_norm_error P f sol u = Some 0 /\
  (nonzero_measures P f -> forall jacrev, (forall x, length x = d -> jacobian_of (vec f) u x (jacrev u x)) -> compute_h1_norm_error jacrev P f sol u = Some 0).
Proof. exact quadratic_exact. Qed.
Print Assumptions C105_quadratic.
(** The square of the first coordinate on the reference tetrahedron: TET10 meets the hypotheses and has no error. *)
Theorem C105_quadratic_met : exists f, fe_init (K := Rops) sqrt "TET10" one_point ([], []) (fun _ _ => 0) (ref_points "TET10") (one_cell "TET10") 1 3 None = Ok f /\
  compute_l2_norm_error (ref_points "TET10") f (squares "TET10") square_fn = Some 0.
Proof. exact tet10_exact. Qed.
Print Assumptions C105_quadratic_met.
(** It is false for TET4: the same function on the same tetrahedron has an error. *)
Theorem C105_quadratic_refuted : exists f e, fe_init (K := Rops) sqrt "TET4" one_point ([], []) (fun _ _ => 0) (ref_points "TET4") (one_cell "TET4") 1 3 None = Ok f /\
  compute_l2_norm_error (ref_points "TET4") f (squares "TET4") square_fn = Some e /\ 0 < e.
Proof. exact tet4_inexact. Qed.
Print Assumptions C105_quadratic_refuted.

(** With second derivatives that are right, the source is the Laplacian of the known solution, whatever u is; such second derivatives exist. *)
Theorem C105_source : (forall hessian, (forall y, length y = 3%nat -> hessian_of 1 true_u_fn y (hessian true_u_fn y)) -> forall u x y z k, cr_mass hessian u [x; y; z] k = known_laplacian x y z) /\
  (forall y, length y = 3%nat -> hessian_of 1 true_u_fn y (fun _ i j => known_hess y i j)).
Proof. exact (conj mass_value known_hessian). Qed.
Print Assumptions C105_source.

(** A run with a solver that solves: the numbers returned are the errors of a field that has the values of the known solution at every node within the tolerances of the surface of the cube, and satisfies the discrete equation of grad u . grad v + (Laplacian of the known solution) v at every other node. *)
Theorem C105_run : forall hessian jacrev solver s quad fquad normals cls pts, (forall y, length y = 3%nat -> hessian_of 1 true_u_fn y (hessian true_u_fn y)) -> In s nine_names ->
  (forall cell, In cell cls -> length cell = node_count s /\ forall n, In n cell -> (n < length pts)%nat) -> cls <> [] ->
  (forall p, cr_problem hessian s quad fquad normals cls pts = Ok p -> exists sol, solver p = Ok [sol] /\ solves p [pts] [sol]) ->
  exists f sol, cr_run jacrev hessian solver s quad fquad normals cls pts = Ok (compute_l2_norm_error pts f sol true_u_fn, compute_h1_norm_error jacrev pts f sol true_u_fn) /\
    (forall n, (n < length pts)%nat ->
      (near_surface (nth n pts []) -> nth 0 (nth n sol []) 0 = known_solution (nth 0 (nth n pts []) 0) (nth 1 (nth n pts []) 0) (nth 2 (nth n pts []) 0)) /\
      (~ near_surface (nth n pts []) -> galerkin pts f sol known_laplacian n = 0)) /\
    (forall x y z, true_u_fn [x; y; z] = [known_solution x y z]).
Proof.
  intros hessian jacrev solver s quad fquad normals cls pts HH NM CL NC SO. destruct (cr_run_spec hessian s quad fquad normals cls pts NM CL jacrev solver SO) as (p & f & sol & B & EF & _ & SV & R).
  exists f, sol. split; [exact R|]. split; [exact (cr_equations hessian s quad fquad normals cls pts HH NM CL NC p f sol B EF SV)|reflexivity].
Qed.
Print Assumptions C105_run.
(** On the reference tetrahedron with TET4 the hypotheses hold: every node is prescribed, and the nodal values of the known solution solve. *)
Theorem C105_run_met : forall hessian p, cr_problem hessian "TET4" one_point ([], []) (fun _ _ => 0) (one_cell "TET4") (ref_points "TET4") = Ok p -> solves p [ref_points "TET4"] [tet_values].
Proof. exact tet_solved. Qed.
Print Assumptions C105_run_met.
