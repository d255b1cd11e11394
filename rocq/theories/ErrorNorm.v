(** Model of applications/convergence_rate/example.py: the Poisson problem with a known solution and the norms of the error. *)
From Coq Require Import String List Arith Bool Reals.
From Verif Require Import Num Arr Fe Problem Basis Init Lagrangian.
Import ListNotations.
Local Open Scope R_scope.

(** np.sqrt; None stands for nan, the root of a negative number *)
Definition np_sqrt (x : R) : option R := if Rle_dec 0 x then Some (sqrt x) else None.
(** nan + x = x + nan = nan *)
Definition np_add (x y : option R) : option R := match x, y with Some a, Some b => Some (a + b) | _, _ => None end.
(** physical_quad_points[c, q, :] *)
Definition quad_point_of (P : list (list Rops)) (f : fe Rops) (c q : nat) : list Rops := map (get_physical_quad_points P f c q) (seq 0 (dim f)).
(** The sums under the roots: example.py:32, 45 and example.py:47; [jac] are the values of jax.jacrev(true_u_fn) *)
Definition val_sum (P : list (list Rops)) (f : fe Rops) (sol : list (list Rops)) (true_u_fn : list Rops -> list Rops) : R :=
  sum_n (K := Rops) (num_cells f) (fun c => sum_n (K := Rops) (num_quads f) (fun q => sum_n (K := Rops) (vec f) (fun k =>
    (convert_from_dof_to_quad f sol c q k - nth k (true_u_fn (quad_point_of P f c q)) 0) ^ 2 * get_JxW P f c q))).
Definition grad_sum (P : list (list Rops)) (f : fe Rops) (sol : list (list Rops)) (jac : list Rops -> nat -> nat -> R) : R :=
  sum_n (K := Rops) (num_cells f) (fun c => sum_n (K := Rops) (num_quads f) (fun q => sum_n (K := Rops) (vec f) (fun k => sum_n (K := Rops) (dim f) (fun j =>
    (sol_to_grad P f sol c q k j - jac (quad_point_of P f c q) k j) ^ 2 * get_JxW P f c q)))).
(** example.py:24-33 *)
Definition compute_l2_norm_error (P : list (list Rops)) (f : fe Rops) (sol : list (list Rops)) (true_u_fn : list Rops -> list Rops) : option R :=
  np_sqrt (val_sum P f sol true_u_fn).
(** example.py:35-49 *)
Definition compute_h1_norm_error (jacrev : (list Rops -> list Rops) -> list Rops -> nat -> nat -> R) (P : list (list Rops)) (f : fe Rops) (sol : list (list Rops)) (true_u_fn : list Rops -> list Rops) : option R :=
  let val_l2_error := np_sqrt (val_sum P f sol true_u_fn) in
  let grad_l2_error := np_sqrt (grad_sum P f sol (jacrev true_u_fn)) in
  np_add val_l2_error grad_l2_error.

(** example.py:52-56, for a point with three coordinates (others make the unpacking fail) *)
Definition true_u_fn (point : list Rops) : list Rops :=
  let x := nth 0 point 0 in let y := nth 1 point 0 in let z := nth 2 point 0 in
  [100 * ((x - 1 / 2) ^ 3 + 2 * (y - 1 / 2) ^ 3 + 10 * exp (- (z - 1 / 2) ^ 2))].
(** example.py:18-22: the source; hessian is jax.hessian, of which np.squeeze removes the axis of the only component *)
Definition cr_mass (hessian : (list Rops -> list Rops) -> list Rops -> nat -> nat -> nat -> R) (u : nat -> R) (x : list Rops) : nat -> R := fun _ =>
  sum_n (K := Rops) 3 (fun i => hessian true_u_fn x 0%nat i i).
(** example.py:15-22: the maps; x has three coordinates *)
Definition cr_maps (hessian : (list Rops -> list Rops) -> list Rops -> nat -> nat -> nat -> R) : user_maps Rops unit :=
  mkMaps (K := Rops) (V := unit) (Some (fun grad_u _ => grad_u)) (Some (fun u x _ => cr_mass hessian u [x 0%nat; x 1%nat; x 2%nat])) None None None.

(** example.py:64-85 *)
Definition cr_left (point : list Rops) : bool := isclose (nth 0 point 0) 0 (/ 10 ^ 5).
Definition cr_right (point : list Rops) : bool := isclose (nth 0 point 0) 1 (/ 10 ^ 5).
Definition cr_front (point : list Rops) : bool := isclose (nth 1 point 0) 0 (/ 10 ^ 5).
Definition cr_back (point : list Rops) : bool := isclose (nth 1 point 0) 1 (/ 10 ^ 5).
Definition cr_bottom (point : list Rops) : bool := isclose (nth 2 point 0) 0 (/ 10 ^ 5).
Definition cr_top (point : list Rops) : bool := isclose (nth 2 point 0) 1 (/ 10 ^ 5).
Definition dirichlet_val (point : list Rops) : Rops := nth 0 (true_u_fn point) 0.
(** example.py:87-89 *)
Definition cr_bc : list (location_fn Rops) * list nat * list (list Rops -> Rops) :=
  ([Loc1 cr_left; Loc1 cr_right; Loc1 cr_front; Loc1 cr_back; Loc1 cr_bottom; Loc1 cr_top], repeat 0%nat 6, repeat dirichlet_val 6).
(** example.py:91-92 on the points and cells of the mesh *)
Definition cr_problem (hessian : (list Rops -> list Rops) -> list Rops -> nat -> nat -> nat -> R) (ele_type : string) (quad fquad : list (list Rops) * list Rops) (normals : nat -> nat -> Rops) (cls : list (list nat)) (pts : list (list Rops)) : result (problem Rops unit) :=
  problem_init sqrt 3 [mkVar pts cls 1 ele_type quad fquad normals (Some cr_bc)] None (cr_maps hessian) (fun iv ivs => (iv, ivs)).
(** example.py:94-101: the solver is an argument *)
Definition cr_run (jacrev : (list Rops -> list Rops) -> list Rops -> nat -> nat -> R) hessian (solver : problem Rops unit -> result (list (list (list Rops)))) (ele_type : string) quad fquad normals cls (pts : list (list Rops)) : result (option R * option R) :=
  bind (cr_problem hessian ele_type quad fquad normals cls pts) (fun p =>
  bind (solver p) (fun sol_list =>
  let sol := hd [] sol_list in
  Ok (compute_l2_norm_error pts (fe0 p) sol true_u_fn, compute_h1_norm_error jacrev pts (fe0 p) sol true_u_fn))).
