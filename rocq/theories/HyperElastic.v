(** Model of the neo-Hookean problems: tests/benchmarks/hyperelasticity/test_hyper_elasticity.py, applications/dynamic_relaxation/*.py,
    applications/arc_length/hyperelastic_models.py, applications/nodal_stress/example.py, applications/scalability/hyperelastic3d_common.py.
    Simplifications: real arithmetic; jax.grad is an argument; x ** y is Rpower x y, which is the power for x > 0 only (NaN in the code otherwise). *)
From Coq Require Import String Reals List Arith Bool.
From Verif Require Import Num Arr Fe Problem Elastic Plasticity.
Import ListNotations.
Local Open Scope R_scope.

(** np.trace(F.T @ F) for a (d, d) array *)
Definition trace_FtF (d : nat) (F : tensor) : R := sum_n (K := Rops) d (fun i => sum_n (K := Rops) d (fun k => F k i * F k i)).
(** test_hyper_elasticity.py:17-26 (E = 1e3, d = 3), beam3d_displacement.py:14-23 (E = 10, d = 3), nodal_stress/example.py:19-28 (E = 10, d = 3),
    hyperelastic3d_common.py:19-27 (d = 3), hyperelastic_models.py:36-44 (E = 1e3, d = 2: exponent -2/2, minus 2), beam2d_displacement.py:18-27, 48-57 (as before) *)
Definition psi (d : nat) (E nu : R) (F : tensor) : R :=
  let mu := E / (2 * (1 + nu)) in
  let kappa := E / (3 * (1 - 2 * nu)) in
  let J := det (K := Rops) d F in
  let Jinv := Rpower J (- (2) / INR d) in
  let I1 := trace_FtF d F in
  mu / 2 * (Jinv * I1 - INR d) + kappa / 2 * (J - 1) ^ 2.
(** cellular_displacement.py:16-18 *)
Definition embed (F_2d : tensor) : tensor := fun i j =>
  if ((i <? 2) && (j <? 2))%nat then F_2d i j else if ((i =? 2) && (j =? 2))%nat then 1 else 0.
(** cellular_displacement.py:15-27 (E = 70e3, nu = 0.3) *)
Definition psi_plane (E nu : R) (F_2d : tensor) : R := psi 3 E nu (embed F_2d).
(** hyperelastic3d_common.py:53-62 (E = self.E) *)
Definition psi_rho (E nu rho : R) (F : tensor) : R :=
  let E := E * rho in
  let mu := E / (2 * (1 + nu)) in
  let kappa := E / (3 * (1 - 2 * nu)) in
  let J := det (K := Rops) 3 F in
  let J := Rmax J (/ 10 ^ 14) in
  let Jinv := Rpower J (- (2) / 3) in
  let I1 := trace_FtF 3 F in
  mu / 2 * (Jinv * I1 - 3) + kappa / 2 * (J - 1) ^ 2.

(** test_hyper_elasticity.py:27-33 and the same lines of the other files; grad is jax.grad *)
Definition first_PK_stress (grad : (tensor -> R) -> tensor -> tensor) (energy : tensor -> R) (u_grad : tensor) : tensor :=
  let F i j := u_grad i j + (if (i =? j)%nat then 1 else 0) in
  grad energy F.

(** test_hyper_elasticity.py:36-47 without the sum over faces and points: gradient of the displacement at a face quadrature point *)
Definition u_grads_face (P : list (list Rops)) (f : fe Rops) (sol : list (list Rops)) (c fc q : nat) : tensor := fun i j =>
  sum_n (K := Rops) (num_nodes f) (fun a => cell_sol_at f sol c a i * get_face_shape_grads P f c fc q a j).
(** test_hyper_elasticity.py:36-47; surface_fn of the gradients at one point *)
Definition surface_integral (sqrtK : Rops -> Rops) (P : list (list Rops)) (f : fe Rops) (boundary_inds : list (nat * nat)) (surface_fn : tensor -> nat -> R) (sol : list (list Rops)) (k : nat) : R :=
  sum_over (K := Rops) boundary_inds (fun cf => sum_n (K := Rops) (num_face_quads f) (fun q =>
    surface_fn (u_grads_face P f sol (fst cf) (snd cf) q) k * nanson_scale sqrtK P f (fst cf) (snd cf) q)).
(** test_hyper_elasticity.py:50-72: the boundary indices of the location function, then the integral of sigma @ [0, 0, 1] *)
Definition compute_traction (sqrtK : Rops -> Rops) (P : list (list Rops)) (f : fe Rops) (stress : tensor -> tensor) (location_fn : location_fn Rops) (sol : list (list Rops)) : result (nat -> R) :=
  bind (get_boundary_conditions_inds f (Some [location_fn])) (fun inds =>
  Ok (fun k => surface_integral sqrtK P f (nth 0 inds []) (fun G i => sum_n (K := Rops) 3 (fun j => stress G i j * (if (j =? 2)%nat then 1 else 0))) sol k)).
