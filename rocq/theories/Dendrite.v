(** Model of applications/dendrite/implicit_fem/example.py: solidification of a pure melt (Kobayashi), phase field and temperature in one
    implicit step that is linear in the new fields.  Real arithmetic throughout; negative zero is not modelled. *)
From Coq Require Import List Arith Bool Reals.
From Verif Require Import Num Arr Fe Problem Wave ThermoMech.
Import ListNotations.
Local Open Scope R_scope.

(** the entries of params.json that the kernels use *)
Record dn_params := mkDn { eps_bar : R; delta : R; J_mode : R; alpha : R; gamma : R; T_eq : R; a_noise : R; tau : R; K_lat : R; dt : R }.
(** input/json/params.json of the implicit solver *)
Definition dn_example : dn_params := mkDn (1 / 100) (4 / 100) 6 (9 / 10) 10 1 (1 / 100) (3 / 10000) (16 / 10) (1 / 1000).

(** numpy.arctan2(y, x): the angle of (x, y) in (-pi, pi] *)
Definition arctan2 (y x : R) : R :=
  if Rlt_dec 0 x then atan (y / x)
  else if Rlt_dec x 0 then (if Rle_dec 0 y then atan (y / x) + PI else atan (y / x) - PI)
  else if Rlt_dec 0 y then PI / 2 else if Rlt_dec y 0 then - PI / 2 else 0.
(** implicit_fem/example.py:32-48 and explicit_fem/example.py:31-33 *)
Definition safe_arctan2 (y x : R) : R :=
  if Req_EM_T y 0 then (if Req_EM_T x 0 then 0 else arctan2 y x) else arctan2 y x.

Section Kernel.
  Variable P : dn_params.
  (** implicit_fem/example.py:58-63 and explicit_fem/example.py:97-102 *)
  Definition eps_fn (theta : R) : R := eps_bar P * (1 + delta P * cos (J_mode P * (theta - PI / 2))).
  (** jax.grad(eps_fn), implicit_fem/example.py:65.  Simplification: written out by the rules of differentiation; C98_anisotropy proves it. *)
  Definition eps_grad (theta : R) : R := eps_bar P * (delta P * (- sin (J_mode P * (theta - PI / 2)) * J_mode P)).
  (** tmp1 of implicit_fem/example.py:108-116 and explicit_fem/example.py:137-142 at one quadrature point, for the angle [theta] *)
  Definition aniso_flux (theta : R) (p_grads : nat -> nat -> Rops) : nat -> nat -> Rops := fun k j =>
    let tmp11 := eps_fn theta * eps_grad theta * (match j with 0%nat => - p_grads 0%nat 1%nat | _ => p_grads 0%nat 0%nat end) in
    let tmp12 := (eps_fn theta) ^ 2 * p_grads k j in
    tmp11 + tmp12.
  (** tmp2 of implicit_fem/example.py:125-129 *)
  Definition reaction (p T : R) : R :=
    let m := alpha P / PI * atan (gamma P * (T_eq P - T)) in
    - p * (1 - p) * (p - 5 / 10 + m).
  (** implicit_fem/example.py:70-164.  custom_init (52-55) makes fe_p, fe_T aliases of fes[0], fes[1].  Arrays are index functions; the gradients
      of the nodes of both variables are in one array.  The second internal variable is not used. *)
  Definition dn_kernel (self : problem Rops (nat -> nat -> Rops)) (ci : cell_in Rops (nat -> nat -> Rops)) : list Rops :=
    let fe_p := nth 0 (fes self) (fe0 self) in
    let fe_T := nth 1 (fes self) (fe0 self) in
    let cell_sol_p_old a k := internal2 (ci_iv ci) 0 a k 0 in
    let p_old q := internal2 (ci_iv ci) 2 q 0 0 in
    let T_old q := internal2 (ci_iv ci) 3 q 0 0 in
    let chi q := internal2 (ci_iv ci) 4 q 0 0 in
    let cell_sol_list := unravel (dof_shapes self) (ci_sol ci) in
    let cell_sol_p := nth 0 cell_sol_list [] in
    let cell_sol_T := nth 1 cell_sol_list [] in
    let cell_shape_grads_p := nodes_from self 0 (ci_grads ci) in
    let cell_shape_grads_T := nodes_from self 1 (ci_grads ci) in
    let cell_v_grads_JxW_p := nodes_from self 0 (ci_vgJxW ci) in
    let cell_v_grads_JxW_T := nodes_from self 1 (ci_vgJxW ci) in
    let cell_JxW_p q := ci_JxW ci 0 q in
    let cell_JxW_T q := ci_JxW ci 1 q in
    let p_grads q k j := sum_n (K := Rops) (num_nodes fe_p) (fun a => get2 (@zero Rops) cell_sol_p a k * cell_shape_grads_p q a j) in
    let p_grads_old q k j := sum_n (K := Rops) (num_nodes fe_p) (fun a => cell_sol_p_old a k * cell_shape_grads_p q a j) in
    let thetas q := safe_arctan2 (p_grads_old q 0%nat 1%nat) (p_grads_old q 0%nat 0%nat) in
    let tmp1 q := aniso_flux (thetas q) (p_grads q) in
    let val1 a k := sum_n (K := Rops) (num_quads fe_p) (fun q => sum_n (K := Rops) (dim fe_p) (fun j => tmp1 q k j * cell_v_grads_JxW_p q a j)) in
    let p q := sum_n (K := Rops) (num_nodes fe_p) (fun a => get2 (@zero Rops) cell_sol_p a 0 * shape_vals fe_p q a) in
    let T q := sum_n (K := Rops) (num_nodes fe_T) (fun a => get2 (@zero Rops) cell_sol_T a 0 * shape_vals fe_T q a) in
    let tmp2 q := reaction (p_old q) (T_old q) in
    let val2 a := sum_n (K := Rops) (num_quads fe_p) (fun q => tmp2 q * shape_vals fe_p q a * cell_JxW_p q) in
    let tmp3 q := tau P * (p q - p_old q) / dt P in
    let val3 a := sum_n (K := Rops) (num_quads fe_p) (fun q => tmp3 q * shape_vals fe_p q a * cell_JxW_p q) in
    let tmp4 q := - a_noise P * p_old q * (1 - p_old q) * chi q in
    let val4 a := sum_n (K := Rops) (num_quads fe_p) (fun q => tmp4 q * shape_vals fe_p q a * cell_JxW_p q) in
    let T_grads q k j := sum_n (K := Rops) (num_nodes fe_T) (fun a => get2 (@zero Rops) cell_sol_T a k * cell_shape_grads_T q a j) in
    let val5 a k := sum_n (K := Rops) (num_quads fe_T) (fun q => sum_n (K := Rops) (dim fe_T) (fun j => T_grads q k j * cell_v_grads_JxW_T q a j)) in
    let tmp6 q := (T q - T_old q) / dt P in
    let val6 a := sum_n (K := Rops) (num_quads fe_T) (fun q => tmp6 q * shape_vals fe_T q a * cell_JxW_T q) in
    let tmp7 q := - K_lat P * (p q - p_old q) / dt P in
    let val7 a := sum_n (K := Rops) (num_quads fe_T) (fun q => tmp7 q * shape_vals fe_T q a * cell_JxW_T q) in
    flat_map (fun a => map (fun k => val1 a k + val2 a + val3 a + val4 a) (seq 0 (vec fe_p))) (seq 0 (num_nodes fe_p))
    ++ flat_map (fun a => map (fun k => val5 a k + val6 a + val7 a) (seq 0 (vec fe_T))) (seq 0 (num_nodes fe_T)).
  (** the subclass: get_universal_kernel only; of self the kernel uses the variables *)
  Definition dn_maps (fs : list (fe Rops)) : user_maps Rops (nat -> nat -> Rops) :=
    let self := mkProblem fs [] (mkMaps None None None None None) [] [] in
    mkMaps None None (Some (dn_kernel self)) None None.
End Kernel.

(** implicit_fem/example.py:168-175.  [noise] has one number per cell; np.repeat gives it to every quadrature point. *)
Definition dn_set_params (p : problem Rops (nat -> nat -> Rops)) (sol_p_old sol_T_old : list (list Rops)) (noise : list R) : result (problem Rops (nat -> nat -> Rops)) :=
  match fes p with
  | fe_p :: fe_T :: _ =>
      Ok (mkProblem (fes p) (boundary_inds_list p) (maps p)
            [map (fun c a k _ => cell_sol_at fe_p sol_p_old c a k) (seq 0 (num_cells fe_p));
             map (fun c a k _ => cell_sol_at fe_T sol_T_old c a k) (seq 0 (num_cells fe_T));
             map (fun c q _ _ => convert_from_dof_to_quad fe_p sol_p_old c q 0) (seq 0 (num_cells fe_p));
             map (fun c q _ _ => convert_from_dof_to_quad fe_T sol_T_old c q 0) (seq 0 (num_cells fe_T));
             map (fun x _ _ _ => x) noise]
            (internal_vars_surfaces p))
  | _ => Err IndexErr
  end.
(** implicit_fem/example.py:216-222: [n] passes; [solve i p] stands for solver(problem, ...) in pass i and may raise or give anything.  The key of
    the random numbers is made anew in every pass, so [chi] is the same array in all of them. *)
Fixpoint dn_loop (solve : nat -> problem Rops (nat -> nat -> Rops) -> result (list (list (list Rops)))) (chi : list R) (n i : nat)
    (p : problem Rops (nat -> nat -> Rops)) (sol_p sol_T : list (list Rops)) : result (list (problem Rops (nat -> nat -> Rops) * (list (list Rops) * list (list Rops)))) :=
  match n with
  | O => Ok []
  | S n' =>
      bind (dn_set_params p sol_p sol_T chi) (fun p' =>
      bind (solve i p') (fun sol_list =>
      match sol_list with
      | [u; T] => bind (dn_loop solve chi n' (S i) p' u T) (fun rest => Ok ((p', (u, T)) :: rest))
      | _ => Err ValueErr
      end))
  end.
(** implicit_fem/example.py:204-210: the seed, p = 1 at the nodes near the centre *)
Definition dn_seed (pts : list (list R)) (nx ny : nat) (hx hy : R) : list (list Rops) :=
  map (fun x => if Rlt_dec ((nth 0 x 0 - INR nx * hx / 2) ^ 2 + (nth 1 x 0 - INR ny * hy / 2) ^ 2) (20 * hx ^ 2) then [1] else [0]) pts.
(** implicit_fem/example.py:204-222; nIter + 1 = [n] *)
Definition dn_run solve (chi : list R) (n : nat) (p : problem Rops (nat -> nat -> Rops)) (pts : list (list R)) (nx ny : nat) (hx hy : R) :=
  dn_loop solve chi n 0 p (dn_seed pts nx ny hx hy) (zeros2 (@zero Rops) (length pts) 1).
