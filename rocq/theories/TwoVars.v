(** Model of applications/stokes/example_1var.py and applications/stokes/example_2vars.py: linear elasticity in three dimensions with one variable
    of three components, and with two variables of one and two components, both through universal kernels. *)
From Coq Require Import Reals String List Arith Bool.
From Verif Require Import Num Arr Fe Problem Basis Init Wave Elastic Lagrangian.
Import ListNotations.
Local Open Scope R_scope.
Local Notation sum := (sum_n (K := Rops)).

(** example_1var.py:21-24, example_2vars.py:21-24 *)
Definition tv_E : R := 70000.
Definition tv_nu : R := 3 / 10.
Definition tv_mu : R := tv_E / (2 * (1 + tv_nu)).
Definition tv_lmbda : R := tv_E * tv_nu / ((1 + tv_nu) * (1 - 2 * tv_nu)).

Section Kernels.
  Context {V : Type}.
  (** example_1var.py:20-27, example_2vars.py:20-27.  The function takes no internal variable: with any, the call raises TypeError; neither example sets one. *)
  Definition tv_stress (dim : nat) (u_grad : nat -> nat -> Rops) : nat -> nat -> Rops := elastic_stress (V := V) tv_lmbda tv_mu dim u_grad [].

  (** example_1var.py:29-46.  Slices up to num_nodes of variable 0 are the whole arrays; arrays are index functions. *)
  Definition one_var_kernel (self : problem Rops V) (ci : cell_in Rops V) : list Rops :=
    let f := nth 0 (fes self) (fe0 self) in
    let cell_sol_list := unravel (dof_shapes self) (ci_sol ci) in
    let cell_sol := nth 0 cell_sol_list [] in
    let u_grads q k j := sum (num_nodes f) (fun a => mul (get2 (@zero Rops) cell_sol a k) (ci_grads ci q a j)) in
    let u_physics q := tv_stress (dim f) (u_grads q) in
    let val a k := sum (num_quads f) (fun q => sum (dim f) (fun j => mul (u_physics q k j) (ci_vgJxW ci q a j))) in
    flat_map (fun a => map (val a) (seq 0 (vec f))) (seq 0 (num_nodes f)).

  (** example_2vars.py:29-51.  np.concatenate(cell_sol_list, axis=1) joins the rows of the nodes; only the gradients of the nodes of variable 0 are used. *)
  Definition two_vars_kernel (self : problem Rops V) (ci : cell_in Rops V) : list Rops :=
    let f0 := nth 0 (fes self) (fe0 self) in
    let f1 := nth 1 (fes self) (fe0 self) in
    let cell_sol_list := unravel (dof_shapes self) (ci_sol ci) in
    let cell_shape_grads := nodes_from self 0 (ci_grads ci) in
    let cell_sol := map2 (@app Rops) (nth 0 cell_sol_list []) (nth 1 cell_sol_list []) in
    let cell_v_grads_JxW := nodes_from self 0 (ci_vgJxW ci) in
    let vec_ := (vec f0 + vec f1)%nat in
    let u_grads q k j := sum (num_nodes f0) (fun a => mul (get2 (@zero Rops) cell_sol a k) (cell_shape_grads q a j)) in
    let u_physics q := tv_stress (dim f0) (u_grads q) in
    let val a k := sum (num_quads f0) (fun q => sum (dim f0) (fun j => mul (u_physics q k j) (cell_v_grads_JxW q a j))) in
    (* val = [val[:, :1], val[:, 1:]] *)
    flat_map (fun a => map (val a) (seq 0 1)) (seq 0 (num_nodes f0)) ++ flat_map (fun a => map (fun k => val a (1 + k)%nat) (seq 0 (vec_ - 1))) (seq 0 (num_nodes f0)).

  (** get_universal_kernel of the two classes; of self the kernels use the variables *)
  Definition one_var_maps (fs : list (fe Rops)) : user_maps Rops V := mkMaps None None (Some (one_var_kernel (mkProblem fs [] (mkMaps None None None None None) [] []))) None None.
  Definition two_vars_maps (fs : list (fe Rops)) : user_maps Rops V := mkMaps None None (Some (two_vars_kernel (mkProblem fs [] (mkMaps None None None None None) [] []))) None None.
End Kernels.

(** example_1var.py:59-69, example_2vars.py:64-74 *)
Definition tv_left (point : list Rops) : bool := isclose (nth 0 point 0) 0 (/ 10 ^ 5).
Definition tv_right (point : list Rops) : bool := isclose (nth 0 point 0) 1 (/ 10 ^ 5).
Definition zero_dirichlet_val (point : list Rops) : Rops := 0.
Definition pull_val (point : list Rops) : Rops := / 10.
(** example_1var.py:71-74 *)
Definition one_var_bc : list (location_fn Rops) * list nat * list (list Rops -> Rops) :=
  ([Loc1 tv_left; Loc1 tv_left; Loc1 tv_left; Loc1 tv_right; Loc1 tv_right; Loc1 tv_right], [0; 1; 2; 0; 1; 2]%nat,
   [zero_dirichlet_val; zero_dirichlet_val; zero_dirichlet_val; pull_val; zero_dirichlet_val; zero_dirichlet_val]).
(** example_2vars.py:76-84 *)
Definition two_vars_bc1 : list (location_fn Rops) * list nat * list (list Rops -> Rops) := ([Loc1 tv_left; Loc1 tv_right], [0; 0]%nat, [zero_dirichlet_val; pull_val]).
Definition two_vars_bc2 : list (location_fn Rops) * list nat * list (list Rops -> Rops) :=
  ([Loc1 tv_left; Loc1 tv_left; Loc1 tv_right; Loc1 tv_right], [0; 1; 0; 1]%nat, [zero_dirichlet_val; zero_dirichlet_val; zero_dirichlet_val; zero_dirichlet_val]).

Section Problems.
  Context {V : Type}.
  Variables (ele_type : string) (quad fquad : list (list Rops) * list Rops) (normals : nat -> nat -> Rops) (pts : list (list Rops)) (cls : list (list nat)).
  (** example_1var.py:76, for any mesh and element; the rules and normals are those of basix *)
  Definition one_var_args : list (var_args Rops) := [mkVar pts cls 3 ele_type quad fquad normals (Some one_var_bc)].
  Definition one_var_problem : result (problem Rops V) :=
    bind (make_fes sqrt 3 one_var_args) (fun fs => problem_init sqrt 3 one_var_args None (one_var_maps fs) (fun iv ivs => (iv, ivs))).
  (** example_2vars.py:86-87; both variables get the same mesh, element and rules *)
  Definition two_vars_args : list (var_args Rops) := [mkVar pts cls 1 ele_type quad fquad normals (Some two_vars_bc1); mkVar pts cls 2 ele_type quad fquad normals (Some two_vars_bc2)].
  Definition two_vars_problem : result (problem Rops V) :=
    bind (make_fes sqrt 3 two_vars_args) (fun fs => problem_init sqrt 3 two_vars_args None (two_vars_maps fs) (fun iv ivs => (iv, ivs))).
End Problems.
