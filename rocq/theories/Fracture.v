(** Model of applications/phase_field_fracture/example.py: the split of the strain energy, the stress, the phase field, the history and the
    staggered loop.  Real arithmetic; the norms of the stopping test are computed with NaN and infinities (XNum). *)
From Coq Require Import List Arith Bool Reals.
From Verif Require Import Num Arr Fe Problem Elastic Plasticity Eigen XNum.
Import ListNotations.
Local Open Scope R_scope.

(** example.py:40-41 *)
Definition safe_plus (x : R) : R := / 2 * (x + Rabs x).
Definition safe_minus (x : R) : R := / 2 * (x - Rabs x).

(** The module-level material parameters, example.py:180-185. *)
Record solid := mkSolid { f_lmbda : R; f_mu : R; f_Gc : R; f_l : R }.
(** example.py:180-185 *)
Definition example_solid : solid :=
  let G_c := 27 / 10000 in let E := 210 in let nu := 3 / 10 in let l := 75 / 10000 in
  mkSolid (E * nu / ((1 + nu) * (1 - 2 * nu))) (E / (2 * (1 + nu))) G_c l.

Section Material.
  Variable s : solid.
  (** np.linalg.eigh and self.dim *)
  Variables (eigh : tensor -> (nat -> R) * tensor) (dim_ : nat).
  (** example.py:80-83; [strain] of Elastic.v is lines 76-78 *)
  Definition psi_plus (epsilon : tensor) : R :=
    let eigen_vals := fst (eigh epsilon) in let tr_epsilon_plus := safe_plus (trace dim_ epsilon) in
    f_lmbda s / 2 * (tr_epsilon_plus * tr_epsilon_plus) + f_mu s * sum_n (K := Rops) dim_ (fun b => safe_plus (eigen_vals b) * safe_plus (eigen_vals b)).
  (** example.py:85-88 *)
  Definition psi_minus (epsilon : tensor) : R :=
    let eigen_vals := fst (eigh epsilon) in let tr_epsilon_minus := safe_minus (trace dim_ epsilon) in
    f_lmbda s / 2 * (tr_epsilon_minus * tr_epsilon_minus) + f_mu s * sum_n (K := Rops) dim_ (fun b => safe_minus (eigen_vals b) * safe_minus (eigen_vals b)).
  (** example.py:90-91; d is the entry of an array of length one *)
  Definition g (d : R) : R := (1 - d) * (1 - d).
  (** example.py:93-95: np.diag(np.diag(...)); [noise] are the random numbers *)
  Definition diagonal (noise : tensor) : tensor := fun i j => if (i =? j)%nat then noise i j else 0.
  (** example.py:97-101; [grad] is jax.grad *)
  Definition stress_fn_opt1 (grad : (tensor -> R) -> tensor -> tensor) (noise u_grad : tensor) (d : R) : tensor :=
    let epsilon := fun i j => strain u_grad i j + diagonal noise i j in
    fun i j => g d * grad psi_plus epsilon i j + grad psi_minus epsilon i j.
  (** example.py:103-117 *)
  Definition stress_fn_opt2 (u_grad : tensor) (d : R) : tensor :=
    let epsilon := strain u_grad in
    let fn x := 2 * f_mu s * (g d * safe_plus x + safe_minus x) in
    let tr_epsilon_plus := safe_plus (trace dim_ epsilon) in
    let tr_epsilon_minus := safe_minus (trace dim_ epsilon) in
    let sigma1 := fun i j : nat => f_lmbda s * (g d * tr_epsilon_plus + tr_epsilon_minus) * (if (i =? j)%nat then 1 else 0) in
    let sigma2 := eigen_f eigh dim_ fn epsilon in
    fun i j => sigma1 i j + sigma2 i j.
  (** example.py:122-124 *)
  Definition psi_plus_fn (u_grad : tensor) : R := psi_plus (strain u_grad).
End Material.

(** example.py:71-73: the maps of Elasticity with a stress function; internal_vars is [d] (set_params).  Simplification: any other number of
    internal variables, for which Python raises, gives zeros; set_params always gives one. *)
Definition fracture_u_maps (stress_fn : tensor -> R -> tensor) : user_maps Rops R :=
  mkMaps (Some (fun u_grad iv => match iv with [d] => stress_fn u_grad d | _ => fun _ _ => 0 end)) None None None None.
(** example.py:49-57 *)
Definition fracture_d_maps (s : solid) : user_maps Rops R :=
  mkMaps (Some (fun d_grad _ k j => f_Gc s * f_l s * d_grad k j))
         (Some (fun d _ iv k => match iv with [history] => f_Gc s / f_l s * d k - 2 * (1 - d k) * history | _ => 0 end)) None None None.

Section Steps.
  Variables (s : solid) (eigh : tensor -> (nat -> R) * tensor).
  (** example.py:128-136, for the finite element f = problem_u.fes[0] whose shape_grads were computed from the points P; history_old has one
      entry per cell and quadrature point, and np.maximum raises if the shapes differ *)
  Definition compute_history (f : fe Rops) (P : list (list Rops)) (sol_u : list (list Rops)) (history_old : list (nat -> R)) : result (list (nat -> R)) :=
    if (length history_old =? num_cells f)%nat then
      Ok (map (fun c q => Rmax (psi_plus_fn s eigh (dim f) (sol_to_grad P f sol_u c q)) (nth c history_old (fun _ => 0) q)) (seq 0 (num_cells f)))
    else Err ValueErr.
  (** example.py:143: dirichlet_bc_info[-1][-1] = ... *)
  Fixpoint set_last {A} (l : list A) (x : A) : result (list A) :=
    match l with [] => Err IndexErr | [_] => Ok [x] | y :: t => bind (set_last t x) (fun r => Ok (y :: r)) end.
  (** example.py:138-144 for the problem with one variable; dirichlet_bc_info is a module-level list that is mutated, so it is threaded *)
  Definition set_params_u (p : problem Rops R) (info : list (location_fn Rops) * list nat * list (list Rops -> Rops)) (sol_d : list (list Rops)) (disp : R)
      : result (problem Rops R * (list (location_fn Rops) * list nat * list (list Rops -> Rops))) :=
    match fes p with
    | [] => Err IndexErr
    | f :: rest =>
        let d := map (fun c q => convert_from_dof_to_quad f sol_d c q 0%nat) (seq 0 (num_cells f)) in
        bind (set_last (snd info) (fun _ => disp)) (fun vals =>
        bind (update_Dirichlet_boundary_conditions f (Some (fst info, vals))) (fun f' =>
        Ok (mkProblem (f' :: rest) (boundary_inds_list p) (maps p) [d] (internal_vars_surfaces p), (fst info, vals))))
    end.
  (** example.py:59-61 *)
  Definition set_params_d (p : problem Rops R) (history : list (nat -> R)) : problem Rops R := with_vars p [history].

  (** example.py:146-175: the integral of the traction over the selected faces; [stress_fn] is get_tensor_map() *)
  Definition compute_traction (sqrtK : Rops -> Rops) (stress_fn : tensor -> R -> tensor) (f : fe Rops) (P : list (list Rops)) (inds : list (nat * nat))
      (sol_u sol_d : list (list Rops)) (k : nat) : R :=
    let normals j := if (j =? 1)%nat then 1 else 0 in
    sum_n (K := Rops) (length inds) (fun e => sum_n (K := Rops) (num_face_quads f) (fun q =>
      let c := fst (nth e inds (0%nat, 0%nat)) in let fc := snd (nth e inds (0%nat, 0%nat)) in
      let u_grad := fun k j => sum_n (K := Rops) (num_nodes f) (fun a => cell_sol_at f sol_u c a k * get_face_shape_grads P f c fc q a j) in
      let d_face := sum_n (K := Rops) (num_nodes f) (fun a => cell_sol_at f sol_d c a 0%nat * face_shape_vals f fc q a) in
      let sigma := stress_fn u_grad d_face in
      sum_n (K := Rops) (dim f) (fun j => sigma k j * normals j) * nanson_scale sqrtK P f c fc q)).

  (** onp.linalg.norm of a (nodes, vec) array, by its default the square root of the sum of squares *)
  Definition norm2 (x : list (list Rops)) : R := sqrt (fold_right Rplus 0 (map (fun r => fold_right Rplus 0 (map (fun v : R => v * v) r)) x)).
  Definition sub2 (x y : list (list Rops)) : list (list Rops) := map2 (map2 (fun a b : R => a - b)) x y.
  (** example.py:271-272 for one field *)
  Definition change (x x_old : list (list Rops)) : xr := xdiv (Fin (norm2 (sub2 x x_old))) (Fin (norm2 x)).

  (** What the loops carry. *)
  Record frac_state := mkFrac {
    fs_pu : problem Rops R; fs_pd : problem Rops R; fs_info : list (location_fn Rops) * list nat * list (list Rops -> Rops);
    fs_u : list (list Rops); fs_d : list (list Rops); fs_u_old : list (list Rops); fs_d_old : list (list Rops);
    fs_history : list (nat -> R); fs_history_old : list (nat -> R) }.
  (** [solve_u], [solve_d] are solver(problem, ...)[0]; P the points of the mesh *)
  Variables (solve_u solve_d : problem Rops R -> result (list (list Rops))) (P : list (list Rops)).
  (** one pass of the while loop, example.py:262-276: the new state and err; xmax is onp.maximum *)
  Definition stagger_pass (disp : R) (st : frac_state) : result (frac_state * xr) :=
    bind (set_params_u (fs_pu st) (fs_info st) (fs_d st) disp) (fun '(pu, info) =>
    bind (solve_u pu) (fun u =>
    match fes pu with
    | [] => Err IndexErr
    | f :: _ =>
      bind (compute_history f P u (fs_history_old st)) (fun history =>
      let pd := set_params_d (fs_pd st) history in
      bind (solve_d pd) (fun d =>
      let err_u := change u (fs_u_old st) in
      let err_d := change d (fs_d_old st) in
      Ok (mkFrac pu pd info u d u d history (fs_history_old st), xmax err_u err_d)))
    end)).
  (** the while loop, example.py:258-277, with a number of passes that may run out *)
  Inductive run A := Finished (a : A) | Failed (e : py_error) | OutOfPasses.
  Arguments Finished {A} a. Arguments Failed {A} e. Arguments OutOfPasses {A}.
  Definition frac_tol : R := / 100000.
  Fixpoint stagger_loop (passes : nat) (disp : R) (err : xr) (st : frac_state) : run frac_state :=
    if xltb (Fin frac_tol) err then
      match passes with
      | O => OutOfPasses
      | S n => match stagger_pass disp st with Err e => Failed e | Ok (st', err') => stagger_loop n disp err' st' end
      end
    else Finished st.
  (** the loop over the loads, example.py:256-279: the state after each step; err = 1. at the start of each *)
  Fixpoint frac_steps (passes : nat) (disps : list R) (st : frac_state) : run (list frac_state) :=
    match disps with
    | [] => Finished []
    | disp :: rest =>
        match stagger_loop passes disp (Fin 1) st with
        | Failed e => Failed e
        | OutOfPasses => OutOfPasses
        | Finished st1 =>
            let st' := mkFrac (fs_pu st1) (fs_pd st1) (fs_info st1) (fs_u st1) (fs_d st1) (fs_u_old st1) (fs_d_old st1) (fs_history st1) (fs_history st1) in
            match frac_steps passes rest st' with Failed e => Failed e | OutOfPasses => OutOfPasses | Finished l => Finished (st' :: l) end
        end
    end.
End Steps.
Arguments Finished {A} a. Arguments Failed {A} e. Arguments OutOfPasses {A}.
