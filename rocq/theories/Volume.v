(** Model of applications/crystal_plasticity/volume_sensitivity.py (target value and parameters) and of the surface area of
    tests/benchmarks/linear_elasticity_cylinder/test_linear_elasticity_cylinder.py. *)
From Coq Require Import String List Arith Bool Reals.
From Verif Require Import Num Arr Fe Problem Lagrangian Elastic Plasticity HyperElastic.
Import ListNotations.
Local Open Scope R_scope.

(** volume_sensitivity.py:30-32; np.linalg.det is the determinant of Fe.v *)
Definition det_fn (d : nat) (u_grad : nat -> nat -> R) : R :=
  let F i j := u_grad i j + (if (i =? j)%nat then 1 else 0) in
  det (K := Rops) d F.
(** volume_sensitivity.py:34-36 *)
Definition crt_volume (P : list (list Rops)) (f : fe Rops) (sol : list (list Rops)) : R :=
  sum_n (K := Rops) (num_cells f) (fun c => sum_n (K := Rops) (num_quads f) (fun q => det_fn (dim f) (sol_to_grad P f sol c q) * get_JxW P f c q)).
(** volume_sensitivity.py:28-40 *)
Definition target_value (P : list (list Rops)) (f : fe Rops) (sol : list (list Rops)) : R :=
  let tgt_volume := 101 / 100 in
  (crt_volume P f sol - tgt_volume) ^ 2.

(** volume_sensitivity.py:58-71, Lz = 1 *)
Definition vs_corner (point : list Rops) : bool := isclose (nth 0 point 0) 0 (/ 10 ^ 5) && isclose (nth 1 point 0) 0 (/ 10 ^ 5) && isclose (nth 2 point 0) 0 (/ 10 ^ 5).
Definition vs_bottom (point : list Rops) : bool := isclose (nth 2 point 0) 0 (/ 10 ^ 5).
Definition vs_top (point : list Rops) : bool := isclose (nth 2 point 0) 1 (/ 10 ^ 5).
Definition zero_dirichlet_val (point : list Rops) : Rops := 0.
(** volume_sensitivity.py:73-80 *)
Definition get_dirichlet_top (disp : R) : list Rops -> Rops := fun _ => disp.
Definition vs_bc (disp : R) : list (location_fn Rops) * list nat * list (list Rops -> Rops) :=
  ([Loc1 vs_corner; Loc1 vs_corner; Loc1 vs_bottom; Loc1 vs_top], [0; 1; 2; 2]%nat, [zero_dirichlet_val; zero_dirichlet_val; zero_dirichlet_val; get_dirichlet_top disp]).
(** dirichlet_bc_info[-1][-1] = v *)
Definition replace_last {A} (l : list A) (v : A) : list A := removelast l ++ [v].
(** volume_sensitivity.py:22-26: [info] is self.fes[0].dirichlet_bc_info; the new one, the new variable and the internal variables *)
Definition vs_set_params {V} (f : fe Rops) (info : list (location_fn Rops) * list nat * list (list Rops -> Rops)) (all_params : R * V) : result ((list (location_fn Rops) * list nat * list (list Rops -> Rops)) * fe Rops * V) :=
  let '(disp, params) := all_params in
  let '(locs, vecs, values) := info in
  let info' := (locs, vecs, replace_last values (get_dirichlet_top disp)) in
  bind (update_Dirichlet_boundary_conditions f (Some info')) (fun f' => Ok (info', f', params)).

(** test_linear_elasticity_cylinder.py:41-66: surface_integral with the selection of the faces *)
Definition surface_integral_at (sqrtK : Rops -> Rops) (P : list (list Rops)) (f : fe Rops) (location_fn : location_fn Rops) (surface_fn : tensor -> nat -> R) (sol : list (list Rops)) : result (nat -> R) :=
  bind (get_boundary_conditions_inds f (Some [location_fn])) (fun inds => Ok (fun k => surface_integral sqrtK P f (nth 0 inds []) surface_fn sol k)).
(** test_linear_elasticity_cylinder.py:68-75 *)
Definition compute_surface_area (sqrtK : Rops -> Rops) (P : list (list Rops)) (f : fe Rops) (location_fn : location_fn Rops) (sol : list (list Rops)) : result (nat -> R) :=
  let unity_fn (_ : tensor) (_ : nat) := 1 in
  surface_integral_at sqrtK P f location_fn unity_fn sol.
