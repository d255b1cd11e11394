(** Model of applications/thermal_mechanical_full/example.py: the universal kernel of transient thermoelasticity in displacement and
    temperature change, its parameters, and the time loop.  The orientation of triangles in the same file is modelled in Wave.v.
    Real arithmetic throughout. *)
From Coq Require Import List Arith Bool Reals.
From Verif Require Import Num Arr Fe Problem Elastic Wave.
Import ListNotations.
Local Open Scope R_scope.

(** the module globals that the kernel uses, example.py:160-170 *)
Record material := mkMaterial { lmbda : R; mu : R; kappa : R; T0 : R; C : R; k_cond : R }.
(** their values *)
Definition aluminium : material :=
  let E := 70000 in let nu := 3 / 10 in
  let mu := E / (2 * (1 + nu)) in
  let lmbda := E * nu / ((1 + nu) * (1 - 2 * nu)) in
  let rho := 2700 in let alpha := 231 / 10000000 in
  mkMaterial lmbda mu (alpha * (2 * mu + 3 * lmbda)) 293 (910 / 1000000 * rho) (237 / 1000000).

(** the n-th internal variable of the kernel at a quadrature point, an array of at most two axes.  Simplification: a missing one, with
    which the call raises TypeError, is zero; set_params always gives three. *)
Definition internal2 (ivs : list (nat -> nat -> nat -> Rops)) (n q k j : nat) : Rops := nth n ivs (fun _ _ _ => 0) q k j.

Section Kernel.
  Variable M : material.
  (** example.py:41-46: stress *)
  Definition thermal_stress (dim_ : nat) (u_grad : nat -> nat -> Rops) (dT : Rops) : nat -> nat -> Rops := fun i j =>
    let eye := if (i =? j)%nat then 1 else 0 in
    lmbda M * trace dim_ (strain u_grad) * eye + 2 * mu M * strain u_grad i j - kappa M * dT * eye.
  (** example.py:36-99.  custom_init (26-28) makes fe_u, fe_T aliases of fes[0], fes[1]; strain(u_grad) (38-39) is [strain] of Elastic.v.
      Arrays are index functions; the gradients of the nodes of both variables are in one array. *)
  Definition tm_kernel (self : problem Rops (nat -> nat -> Rops)) (ci : cell_in Rops (nat -> nat -> Rops)) : list Rops :=
    let fe_u := nth 0 (fes self) (fe0 self) in
    let fe_T := nth 1 (fes self) (fe0 self) in
    let u_grads_old q := internal2 (ci_iv ci) 0 q in
    let T_old q k := internal2 (ci_iv ci) 1 q k 0 in
    let dt q := internal2 (ci_iv ci) 2 q 0 0 in
    let cell_sol_list := unravel (dof_shapes self) (ci_sol ci) in
    let cell_sol_u := nth 0 cell_sol_list [] in
    let cell_sol_T := nth 1 cell_sol_list [] in
    let cell_shape_grads_u := nodes_from self 0 (ci_grads ci) in
    let cell_shape_grads_T := nodes_from self 1 (ci_grads ci) in
    let cell_v_grads_JxW_u := nodes_from self 0 (ci_vgJxW ci) in
    let cell_v_grads_JxW_T := nodes_from self 1 (ci_vgJxW ci) in
    let cell_JxW_T q := ci_JxW ci 1 q in
    let T q k := sum_n (K := Rops) (num_nodes fe_T) (fun a => get2 (@zero Rops) cell_sol_T a k * shape_vals fe_T q a) in
    let val1 a k := C M / dt 0%nat * sum_n (K := Rops) (num_quads fe_T) (fun q => (T q k - T_old q k) * shape_vals fe_T q a * cell_JxW_T q) in
    let u_grads q k j := sum_n (K := Rops) (num_nodes fe_u) (fun a => get2 (@zero Rops) cell_sol_u a k * cell_shape_grads_u q a j) in
    let dtr_dt q := sum_n (K := Rops) (dim fe_u) (fun i => (strain (u_grads q) i i - strain (u_grads_old q) i i) / dt 0%nat) in
    let val2 a := kappa M * T0 M * sum_n (K := Rops) (num_quads fe_T) (fun q => dtr_dt q * shape_vals fe_T q a * cell_JxW_T q) in
    let T_grads q k j := sum_n (K := Rops) (num_nodes fe_T) (fun a => get2 (@zero Rops) cell_sol_T a k * cell_shape_grads_T q a j) in
    let val3 a k := sum_n (K := Rops) (num_quads fe_T) (fun q => sum_n (K := Rops) (dim fe_T) (fun j => k_cond M * T_grads q k j * cell_v_grads_JxW_T q a j)) in
    let u_physics q := thermal_stress (dim fe_u) (u_grads q) (T q 0%nat) in
    let val4 a k := sum_n (K := Rops) (num_quads fe_u) (fun q => sum_n (K := Rops) (dim fe_u) (fun j => u_physics q k j * cell_v_grads_JxW_u q a j)) in
    flat_map (fun a => map (val4 a) (seq 0 (vec fe_u))) (seq 0 (num_nodes fe_u))
    ++ flat_map (fun a => map (fun k => val1 a k + val2 a + val3 a k) (seq 0 (vec fe_T))) (seq 0 (num_nodes fe_T)).
  (** the subclass: get_universal_kernel only; of self the kernel uses the variables *)
  Definition tm_maps (fs : list (fe Rops)) : user_maps Rops (nat -> nat -> Rops) :=
    let self := mkProblem fs [] (mkMaps None None None None None) [] [] in
    mkMaps None None (Some (tm_kernel self)) None None.
End Kernel.

(** example.py:30-34.  The time step is the same number at every quadrature point of every cell (the code stores one per cell). *)
Definition tm_set_params (p : problem Rops (nat -> nat -> Rops)) (sol_u_old sol_dT_old : list (list Rops)) (dt : R) : result (problem Rops (nat -> nat -> Rops)) :=
  match fes p with
  | fe_u :: fe_T :: _ =>
      Ok (mkProblem (fes p) (boundary_inds_list p) (maps p)
            [map (fun c q => sol_to_grad (points fe_u) fe_u sol_u_old c q) (seq 0 (num_cells fe_u));
             map (fun c q k _ => convert_from_dof_to_quad fe_T sol_dT_old c q k) (seq 0 (num_cells fe_T));
             map (fun _ _ _ _ => dt) (seq 0 (p_num_cells p))]
            (internal_vars_surfaces p))
  | _ => Err IndexErr
  end.
(** example.py:212-216; [solve i p] stands for solver(problem) in pass i and may raise or give anything.  The list of the problems handed
    to the solver with the solutions. *)
Fixpoint tm_loop (solve : nat -> problem Rops (nat -> nat -> Rops) -> result (list (list (list Rops)))) (dts : list R) (i : nat)
    (p : problem Rops (nat -> nat -> Rops)) (sol_u sol_dT : list (list Rops)) : result (list (problem Rops (nat -> nat -> Rops) * (list (list Rops) * list (list Rops)))) :=
  match dts with
  | [] => Ok []
  | dt :: dts' =>
      bind (tm_set_params p sol_u sol_dT dt) (fun p' =>
      bind (solve i p') (fun sol_list =>
      match sol_list with
      | [u; T] => bind (tm_loop solve dts' (S i) p' u T) (fun rest => Ok ((p', (u, T)) :: rest))
      | _ => Err ValueErr
      end))
  end.
(** example.py:206-216: both fields zero at the start.  [dts] are the differences of logspace(1, 4, 201) in the example. *)
Definition tm_run (solve : nat -> problem Rops (nat -> nat -> Rops) -> result (list (list (list Rops)))) (dts : list R) (p : problem Rops (nat -> nat -> Rops)) (num_points : nat) :=
  tm_loop solve dts 0 p (zeros2 (@zero Rops) num_points 2) (zeros2 (@zero Rops) num_points 1).
