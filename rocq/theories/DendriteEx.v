(** Model of applications/dendrite/explicit_fem/example.py: solidification by explicit steps with a lumped mass matrix.  Real arithmetic throughout
    (the file switches to single precision, line 19); the angle, the flux and the reaction are those of Dendrite.v. *)
From Coq Require Import List Arith Bool Reals.
From Verif Require Import Num Arr Fe Problem SolverBc Wave ThermoMech Dendrite.
Import ListNotations.
Local Open Scope R_scope.

(** input/json/params.json of the explicit solver *)
Definition ex_example : dn_params := mkDn (1 / 100) (4 / 100) 6 (9 / 10) 10 1 (1 / 100) (3 / 10000) (16 / 10) (2 / 10000).

Section Kernel.
  Variable P : dn_params.
  (** SolidificationMass, explicit_fem/example.py:45-85.  custom_init (39-42) makes fe_p, fe_T aliases of fes[0], fes[1]; the slices of the gradients (63-68)
      are not used. *)
  Definition sm_kernel (self : problem Rops (nat -> nat -> Rops)) (ci : cell_in Rops (nat -> nat -> Rops)) : list Rops :=
    let fe_p := nth 0 (fes self) (fe0 self) in
    let fe_T := nth 1 (fes self) (fe0 self) in
    let cell_sol_list := unravel (dof_shapes self) (ci_sol ci) in
    let cell_sol_p := nth 0 cell_sol_list [] in
    let cell_sol_T := nth 1 cell_sol_list [] in
    let cell_JxW_p q := ci_JxW ci 0 q in
    let cell_JxW_T q := ci_JxW ci 1 q in
    let p q := sum_n (K := Rops) (num_nodes fe_p) (fun a => get2 (@zero Rops) cell_sol_p a 0 * shape_vals fe_p q a) in
    let T q := sum_n (K := Rops) (num_nodes fe_T) (fun a => get2 (@zero Rops) cell_sol_T a 0 * shape_vals fe_T q a) in
    let tmp3 q := tau P * p q / dt P in
    let val3 a := sum_n (K := Rops) (num_quads fe_p) (fun q => tmp3 q * shape_vals fe_p q a * cell_JxW_p q) in
    let tmp6 q := T q / dt P in
    let val6 a := sum_n (K := Rops) (num_quads fe_T) (fun q => tmp6 q * shape_vals fe_T q a * cell_JxW_T q) in
    flat_map (fun a => map (fun k : nat => val3 a) (seq 0 (vec fe_p))) (seq 0 (num_nodes fe_p))
    ++ flat_map (fun a => map (fun k : nat => val6 a) (seq 0 (vec fe_T))) (seq 0 (num_nodes fe_T)).
  (** SolidificationForce, explicit_fem/example.py:96-187; eps_fn, eps_grad and the angle as in the implicit solver, here at the gradient of the
      present phase field.  Arrays over quadrature points are index functions; the internal variable chi is one number per quadrature point. *)
  Definition sf_kernel (self : problem Rops (nat -> nat -> Rops)) (ci : cell_in Rops (nat -> nat -> Rops)) : list Rops :=
    let fe_p := nth 0 (fes self) (fe0 self) in
    let fe_T := nth 1 (fes self) (fe0 self) in
    let chi q := internal2 (ci_iv ci) 0 q 0 0 in
    let cell_sol_list := unravel (dof_shapes self) (ci_sol ci) in
    let cell_sol_p := nth 0 cell_sol_list [] in
    let cell_sol_T := nth 1 cell_sol_list [] in
    let cell_shape_grads_p := nodes_from self 0 (ci_grads ci) in
    let cell_shape_grads_T := nodes_from self 1 (ci_grads ci) in
    let cell_v_grads_JxW_p := nodes_from self 0 (ci_vgJxW ci) in
    let cell_v_grads_JxW_T := nodes_from self 1 (ci_vgJxW ci) in
    let cell_JxW_p q := ci_JxW ci 0 q in
    let cell_JxW_T q := ci_JxW ci 1 q in
    let p_grads q k j := sum_n (K := Rops) (num_nodes fe_p) (fun a => get2 (@zero Rops) cell_sol_p a k * cell_shape_grads_p q a j) in
    let thetas q := safe_arctan2 (p_grads q 0%nat 1%nat) (p_grads q 0%nat 0%nat) in
    let tmp1 q := aniso_flux P (thetas q) (p_grads q) in
    let val1 a k := sum_n (K := Rops) (num_quads fe_p) (fun q => sum_n (K := Rops) (dim fe_p) (fun j => tmp1 q k j * cell_v_grads_JxW_p q a j)) in
    let p q := sum_n (K := Rops) (num_nodes fe_p) (fun a => get2 (@zero Rops) cell_sol_p a 0 * shape_vals fe_p q a) in
    let T q := sum_n (K := Rops) (num_nodes fe_T) (fun a => get2 (@zero Rops) cell_sol_T a 0 * shape_vals fe_T q a) in
    let tmp2 q := reaction P (p q) (T q) in
    let val2 a := sum_n (K := Rops) (num_quads fe_p) (fun q => tmp2 q * shape_vals fe_p q a * cell_JxW_p q) in
    let tmp4 q := - a_noise P * p q * (1 - p q) * chi q in
    let val4 a := sum_n (K := Rops) (num_quads fe_p) (fun q => tmp4 q * shape_vals fe_p q a * cell_JxW_p q) in
    let T_grads q k j := sum_n (K := Rops) (num_nodes fe_T) (fun a => get2 (@zero Rops) cell_sol_T a k * cell_shape_grads_T q a j) in
    let val5 a k := sum_n (K := Rops) (num_quads fe_T) (fun q => sum_n (K := Rops) (dim fe_T) (fun j => T_grads q k j * cell_v_grads_JxW_T q a j)) in
    let val71 a k := sum_n (K := Rops) (num_quads fe_T) (fun q => sum_n (K := Rops) (dim fe_T) (fun j => tmp1 q k j * cell_v_grads_JxW_T q a j)) in
    let val72 a := sum_n (K := Rops) (num_quads fe_T) (fun q => tmp2 q * shape_vals fe_T q a * cell_JxW_T q) in
    let val7 a k := K_lat P / tau P * (val71 a k + val72 a) in
    flat_map (fun a => map (fun k => val1 a k + val2 a + val4 a) (seq 0 (vec fe_p))) (seq 0 (num_nodes fe_p))
    ++ flat_map (fun a => map (fun k => val5 a k + val7 a k) (seq 0 (vec fe_T))) (seq 0 (num_nodes fe_T)).
  (** the subclasses: get_universal_kernel only; of self the kernels use the variables *)
  Definition sm_maps (fs : list (fe Rops)) : user_maps Rops (nat -> nat -> Rops) :=
    let self := mkProblem fs [] (mkMaps None None None None None) [] [] in
    mkMaps None None (Some (sm_kernel self)) None None.
  Definition sf_maps (fs : list (fe Rops)) : user_maps Rops (nat -> nat -> Rops) :=
    let self := mkProblem fs [] (mkMaps None None None None None) [] [] in
    mkMaps None None (Some (sf_kernel self)) None None.
End Kernel.

Section Dynamics.
  Variables (jvp : (list Rops -> list Rops) -> list Rops -> list Rops -> list Rops) (sqrtK : R -> R).
  (** get_mass, explicit_fem/example.py:197-204: csr_array adds the values of equal places, sum(axis=1) adds the columns of every row *)
  Definition get_mass (problem_mass : problem Rops (nat -> nat -> Rops)) (pts : list (list (list Rops))) : result (list R) :=
    let N := num_total_dofs_all_vars problem_mass in
    let sol_list := unravel (sol_shapes problem_mass) (repeat 0 N) in
    bind (newton_update jvp sqrtK problem_mass pts sol_list) (fun rV =>
    let A_sp := set_values_coo (K := Rops) (p_I problem_mass) (p_J problem_mass) (snd rV) in
    Ok (map (fun g => sum_n (K := Rops) N (fun h => A_sp g h)) (seq 0 N))).
  (** force_func, explicit_fem/example.py:211-216.  Simplification: the trees M_inv_list and res_list have the same shapes (C99_step), the model cuts
      off what is longer. *)
  Definition force_func (problem_force : problem Rops (nat -> nat -> Rops)) (pts : list (list (list Rops))) (M_inv : list R) (sol_list : list (list (list Rops)))
      (noise : list R) : result (list (list (list Rops))) :=
    let internal_vars := [map (fun x _ _ _ => x) noise] in
    let M_inv_list := unravel (sol_shapes problem_force) (M_inv : list Rops) in
    bind (compute_residual_vars sqrtK problem_force pts sol_list internal_vars (internal_vars_surfaces problem_force)) (fun res_list =>
    Ok (map2 (map2 (map2 (fun x y : R => - x * y))) M_inv_list res_list)).
  (** explicit_euler of get_explicit_dynamics, explicit_fem/example.py:207-224; 1./M elementwise (x / 0 is a number here and inf in numpy: the theorems
      about steps assume masses that are not zero) *)
  Definition explicit_euler (M : list R) (problem_force : problem Rops (nat -> nat -> Rops)) (pts : list (list (list Rops))) (sol_list : list (list (list Rops)))
      (noise : list R) : result (list (list (list Rops))) :=
    let M_inv := map (fun m => 1 / m) M in
    bind (force_func problem_force pts M_inv sol_list noise) (fun rhs_list =>
    Ok (map2 (map2 (map2 (fun x y : R => x + y))) sol_list rhs_list)).
  (** the loop of simulation(), explicit_fem/example.py:261-265: the fields after every pass.  The key of the random numbers is made anew in every pass,
      so [chi] is the same array in all of them. *)
  Fixpoint ex_loop (step : list (list (list Rops)) -> list R -> result (list (list (list Rops)))) (chi : list R) (n : nat) (sol_list : list (list (list Rops)))
      : result (list (list (list (list Rops)))) :=
    match n with
    | O => Ok []
    | S n' => bind (step sol_list chi) (fun sol' => bind (ex_loop step chi n' sol') (fun rest => Ok (sol' :: rest)))
    end.
  (** explicit_fem/example.py:250-265; nIter + 1 = [n] *)
  Definition ex_run (problem_mass problem_force : problem Rops (nat -> nat -> Rops)) (pts : list (list (list Rops))) (mesh_points : list (list R)) (nx ny : nat) (hx hy : R)
      (chi : list R) (n : nat) : result (list (list (list (list Rops)))) :=
    bind (get_mass problem_mass pts) (fun M =>
    ex_loop (explicit_euler M problem_force pts) chi n [dn_seed mesh_points nx ny hx hy; zeros2 (@zero Rops) (length mesh_points) 1]).
End Dynamics.
