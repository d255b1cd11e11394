(** Model of applications/updated_lagrangian/example.py:35-230: large deformations with the mesh frozen at the start of each step. *)
From Coq Require Import List Arith Bool Reals.
From Verif Require Import Num Arr Fe Problem Plasticity.
Import ListNotations.
Local Open Scope R_scope.

(** example.py:16-22 *)
Definition MU : R := 1.
Definition LAMBDA : R := 2.
Definition RIGHT_PULL : R := - (1 / 10).
Definition RHO_MIN : R := 2 / 100.
Definition LOAD_SCHEDULE_STEPS : nat := 7.
Definition tiny : R := / 10 ^ 14.

(** an internal variable at a quadrature point: a (3, 3) array or a number *)
Inductive ul_var := Tens (F : tensor) | Scal (r : R).
(** Simplification: a number where an array is expected, or the reverse, for which Python raises, gives zeros; set_params and custom_init
    always leave the array first and the number second. *)
Definition as_tens (v : ul_var) : tensor := match v with Tens F => F | Scal _ => fun _ _ => 0 end.
Definition as_scal (v : ul_var) : R := match v with Tens _ => 0 | Scal r => r end.

Definition eye3 : tensor := fun i j => if (i =? j)%nat then 1 else 0.
(** jnp.einsum("qij,qjk->qik", A, B) at one q *)
Definition mul3 (A B : tensor) : tensor := fun i k => sum_n (K := Rops) 3 (fun j => A i j * B j k).

(** jnp.isclose(x, y, atol=atol) with its default rtol *)
Definition isclose (x y atol : R) : bool := if Rle_dec (Rabs (x - y)) (atol + / 10 ^ 5 * Rabs y) then true else false.
(** example.py:35-45, with the default arguments *)
Definition boundary_node_tags (points0 : list (list Rops)) : list nat :=
  map (fun p => let x := nth 0 p 0 in
         if isclose x 1 (/ 10 ^ 7) then 2%nat else if isclose x 0 (/ 10 ^ 7) then 1%nat else 0%nat) points0.

(** example.py:48-63.  points0 and tags have one row per node. *)
Definition nodal_displacement_total_target (points0 : list (list Rops)) (lam : R) (tags : list nat) : list (list Rops) :=
  let th := lam * PI in
  map2 (fun p tag =>
    let y0 := nth 1 p 0 in let z0 := nth 2 p 0 in
    let left := (tag =? 1)%nat in let right := (tag =? 2)%nat in
    let ux_r := lam * RIGHT_PULL in
    let uy_r := y0 * (cos th - 1) - z0 * sin th in
    let uz_r := y0 * sin th + z0 * (cos th - 1) in
    [if left then 0 else if right then ux_r else 0; if left then 0 else if right then uy_r else 0; if left then 0 else if right then uz_r else 0])
    points0 tags.

(** example.py:66-80 *)
Definition build_dirichlet_bc_by_tag (tags : list nat) : list (location_fn Rops) * list nat * list (list Rops -> Rops) :=
  let loc_left := Loc2 (K := Rops) (fun _ ind => nth ind tags 0 =? 1)%nat in
  let loc_right := Loc2 (K := Rops) (fun _ ind => nth ind tags 0 =? 2)%nat in
  let zero_ := fun _ : list Rops => 0 in
  ([loc_left; loc_left; loc_left; loc_right; loc_right; loc_right], [0; 1; 2; 0; 1; 2]%nat, [zero_; zero_; zero_; zero_; zero_; zero_]).

(** example.py:83-94: the cells in turn (jax.vmap), each array a function of the quadrature point *)
Definition push_F_prev (f : fe Rops) (x_frozen delta_u : list (list Rops)) (F_prev : list (nat -> tensor)) : list (nat -> tensor) :=
  map (fun c q =>
    let grad_du i j := sum_n (K := Rops) (num_nodes f) (fun n => cell_sol_at f delta_u c n i * get_shape_grads x_frozen f c q n j) in
    let F_inc i j := eye3 i j + grad_du i j in
    mul3 F_inc (nth c F_prev (fun _ _ _ => 0) q)) (seq 0 (num_cells f)).

(** example.py:107-113 *)
Definition material_kirchhoff (F : tensor) : tensor :=
  let J := Rmax (det (K := Rops) 3 F) tiny in
  let b i j := sum_n (K := Rops) 3 (fun k => F i k * F j k) in
  fun i j => MU * (b i j - eye3 i j) + LAMBDA * ln J * eye3 i j.

(** example.py:115-151 for the finite element self.fes[0] *)
Definition ul_kernel (f : fe Rops) (ci : cell_in Rops ul_var) : list Rops :=
  let cell_du := nth 0 (unravel [(num_nodes f, vec f)] (ci_sol ci)) [] in
  let F_prev q := as_tens (nth 0 (ci_iv ci) (fun _ => Scal 0) q) in
  let rho_q q := as_scal (nth 1 (ci_iv ci) (fun _ => Scal 0) q) in
  let simp q := rho_q q ^ 3 in
  let F_inc q i j := eye3 i j + sum_n (K := Rops) (num_nodes f) (fun n => get2 0 cell_du n i * ci_grads ci q n j) in
  let F q := mul3 (F_inc q) (F_prev q) in
  let J q := Rmax (det (K := Rops) 3 (F q)) tiny in
  let tau q i j := material_kirchhoff (F q) i j * simp q in
  let cauchy q i j := tau q i j / J q in
  let J_inc q := Rmax (det (K := Rops) 3 (F_inc q)) tiny in
  let F_inc_inv_T q i j := inv_mat (K := Rops) 3 (F_inc q) j i in
  let T_pull q i j := J_inc q * mul3 (cauchy q) (F_inc_inv_T q) i j in
  flat_map (fun a => map (fun i =>
      sum_n (K := Rops) (num_quads f) (fun q => sum_n (K := Rops) 3 (fun j => T_pull q i j * ci_vgJxW ci q a j)))
    (seq 0 3)) (seq 0 (num_nodes f)).

(** the maps of the subclass: a universal kernel and nothing else *)
Definition ul_maps (f : fe Rops) : user_maps Rops ul_var := mkMaps None None (Some (ul_kernel f)) None None.
(** example.py:98-105 *)
Definition eyes (f : fe Rops) : list (nat -> tensor) := repeat (fun _ => eye3) (num_cells f).
Definition ul_init (f : fe Rops) : list (list (nat -> ul_var)) :=
  [map (fun F q => Tens (F q)) (eyes f); repeat (fun _ => Scal 1) (num_cells f)].

(** the params dictionary of example.py:210-216; rho may be absent *)
Record ul_params := mkParams { up_points : list (list Rops); up_lam : R; up_lam_prev : R; up_F_prev : list (nat -> tensor); up_rho : option (list Rops) }.
(** example.py:168-170 *)
Definition set_vals (f : fe Rops) (vals : list (list Rops)) : fe Rops :=
  mkFe (points f) (cells f) (vec f) (dim f) (num_quads f) (num_nodes f) (num_faces f) (num_face_quads f) (shape_vals f) (shape_grads_ref f)
       (quad_weights f) (face_shape_vals f) (face_shape_grads_ref f) (face_quad_weights f) (face_normals f) (face_inds f)
       (node_inds_list f) (vec_inds_list f) vals.
(** entry by entry, for two arrays of the same shape *)
Definition sub2 (x y : list (list Rops)) : list (list Rops) := map2 (map2 (@sub Rops)) x y.
Definition add2 (x y : list (list Rops)) : list (list Rops) := map2 (map2 (@add Rops)) x y.
(** example.py:153-170.  Returns the problem and the points its geometric quantities are computed from (162).  jnp.broadcast_to raises if
    rho has neither one entry per cell nor one entry (161). *)
Definition set_params (points0 : list (list Rops)) (bnd_tags : list nat) (p : problem Rops ul_var) (params : ul_params)
  : result (problem Rops ul_var * list (list Rops)) :=
  let fe := fe0 p in
  let nc := length (up_F_prev params) in
  let rho_el := match up_rho params with Some r => r | None => repeat 1 (num_cells fe) end in
  bind (if (length rho_el =? nc)%nat then Ok (map (fun r (_ : nat) => Scal r) rho_el)
        else match rho_el with [r] => Ok (repeat (fun _ : nat => Scal r) nc) | _ => Err ValueErr end) (fun rho_q =>
  let u_new := nodal_displacement_total_target points0 (up_lam params) bnd_tags in
  let u_old := nodal_displacement_total_target points0 (up_lam_prev params) bnd_tags in
  let delta_u := sub2 u_new u_old in
  let vals := map (fun i => map2 (fun n k => nth k (gather [] delta_u n) 0) (nth i (node_inds_list fe) []) (nth i (vec_inds_list fe) []))
                  (seq 0 (length (node_inds_list fe))) in
  Ok (mkProblem (set_vals fe vals :: tl (fes p)) (boundary_inds_list p) (maps p)
        [map (fun F q => Tens (F q)) (up_F_prev params); rho_q] (internal_vars_surfaces p), up_points params)).

(** What a pass of the loop leaves: the problem and points given to the solver, the increment, F_prev and u_cum after it. *)
Record ul_step := mkStep { us_problem : problem Rops ul_var; us_points : list (list Rops); us_delta : list (list Rops);
                           us_F : list (nat -> tensor); us_u : list (list Rops) }.
(** example.py:207-223.  fwd_pred (jax_fem/solver.py, ad_wrapper) calls set_params and then the solver; [solve step p points] is the solver:
    any function of the step, of the problem set_params leaves and of the points. *)
Fixpoint ul_loop (points0 : list (list Rops)) (bnd_tags : list nat) (rho : list Rops)
    (solve : nat -> problem Rops ul_var -> list (list Rops) -> result (list (list Rops))) (n step : nat)
    (p : problem Rops ul_var) (F_prev : list (nat -> tensor)) (u_cum : list (list Rops)) (lam_prev : R) : result (list ul_step) :=
  match n with
  | O => Ok []
  | S n' =>
      let lam := (INR step + 1) / INR LOAD_SCHEDULE_STEPS in
      let x_frozen := add2 points0 u_cum in
      bind (set_params points0 bnd_tags p (mkParams x_frozen lam lam_prev F_prev (Some rho))) (fun pp =>
      bind (solve step (fst pp) (snd pp)) (fun delta_u =>
      let F' := push_F_prev (fe0 (fst pp)) x_frozen delta_u F_prev in
      let u' := add2 u_cum delta_u in
      bind (ul_loop points0 bnd_tags rho solve n' (S step) (fst pp) F' u' lam) (fun rest =>
      Ok (mkStep (fst pp) (snd pp) delta_u F' u' :: rest))))
  end.
(** jnp.clip(x, RHO_MIN, 1.0) *)
Definition clip (x : R) : R := Rmin (Rmax x RHO_MIN) 1.
Definition zeros_like (x : list (list Rops)) : list (list Rops) := map (map (fun _ => 0)) x.
(** example.py:199-225 with N_STEPS = n; objective_ul (173-174) of the last u_cum.  Returns J and the passes. *)
Definition end_to_end_ul (rho_design : list Rops) (points0 : list (list Rops)) (bnd_tags : list nat) (p : problem Rops ul_var)
    (solve : nat -> problem Rops ul_var -> list (list Rops) -> result (list (list Rops))) (n : nat) : result (R * list ul_step) :=
  let rho := map clip rho_design in
  let F_prev := eyes (fe0 p) in
  let u_cum := zeros_like points0 in
  bind (ul_loop points0 bnd_tags rho solve n 0 p F_prev u_cum 0) (fun steps =>
  let u := last (map us_u steps) u_cum in
  Ok (fold_right Rplus 0 (map (fun row => fold_right (fun x s => x ^ 2 + s) 0 row) u), steps)).
