(** Model of applications/thermal_mechanical/example.py: heating by a laser, phases, and thermal stresses with perfect plasticity.
    Line numbers are those of this file.  Simplification: real arithmetic. *)
From Coq Require Import Reals List Arith Bool.
From Verif Require Import Num Arr Fe Problem Elastic Plasticity Lagrangian.
Import ListNotations.
Local Open Scope R_scope.

(** 183-194 *)
Definition Cp : R := 588.
Definition rho : R := 8440.
Definition k_cond : R := 15.
Definition Tl : R := 1623.
Definition h_conv : R := 100.
Definition eta : R := 25 / 100.
Definition SB_constant : R := 567 / 100 * / 10 ^ 8.
Definition emissivity : R := 3 / 10.
Definition T0 : R := 300.
Definition POWDER : nat := 0.
Definition LIQUID : nat := 1.
Definition SOLID : nat := 2.
(** 198-200 *)
Definition vel : R := 5 / 10.
Definition rb : R := 5 / 100 * / 10 ^ 3.
Definition P_laser : R := 50.
(** 208 *)
Definition Lx : R := 5 / 10 * / 10 ^ 3.
Definition Ly : R := 2 / 10 * / 10 ^ 3.
Definition Lz : R := 5 / 100 * / 10 ^ 3.
(** 267-268 *)
Definition dt : R := 2 * / 10 ^ 6.
Definition laser_on_t : R := 5 / 10 * Lx / vel.

(** What an internal variable is at one quadrature point: an array (vec,), a number, a (dim, dim) array, or a phase *)
Inductive lval := LVec (v : nat -> R) | LNum (x : R) | LTen (t : tensor) | LPhase (n : nat).

(** 35-38.  Simplification (here and in all maps below): internal variables of another number or kind, for which Python raises or
    computes something else, give zeros; set_params always gives these. *)
Definition heat_tensor (u_grad : nat -> nat -> Rops) (iv : list lval) : nat -> nat -> Rops :=
  match iv with [LVec _] => fun k j => k_cond * u_grad k j | _ => fun _ _ => 0 end.
(** 40-43 *)
Definition heat_mass (T x : nat -> Rops) (iv : list lval) : nat -> Rops :=
  match iv with [LVec T_old] => fun k => rho * Cp * (T k - T_old k) / dt | _ => fun _ => 0 end.
(** 47-54; the result has one entry *)
Definition thermal_neumann_top (u point : nat -> Rops) (iv : list lval) : nat -> Rops :=
  match iv with
  | [LVec old_T; LVec laser_center; LNum switch] => fun _ =>
      let d2 := (point 0%nat - laser_center 0%nat) ^ 2 + (point 1%nat - laser_center 1%nat) ^ 2 in
      let q_laser := 2 * eta * P_laser / (PI * rb ^ 2) * exp (- (2) * d2 / rb ^ 2) * switch in
      let q_conv := h_conv * (T0 - old_T 0%nat) in
      let q_rad := SB_constant * emissivity * (T0 ^ 4 - old_T 0%nat ^ 4) in
      - (q_conv + q_rad + q_laser)
  | _ => fun _ => 0
  end.
(** 56-61 *)
Definition thermal_neumann_walls (u point : nat -> Rops) (iv : list lval) : nat -> Rops :=
  match iv with
  | [LVec old_T] => fun _ =>
      let q_conv := h_conv * (T0 - old_T 0%nat) in
      let q_rad := SB_constant * emissivity * (T0 ^ 4 - old_T 0%nat ^ 4) in
      - (q_conv + q_rad)
  | _ => fun _ => 0
  end.
(** 30-63 *)
Definition heat_maps : user_maps Rops lval :=
  mkMaps (Some heat_tensor) (Some heat_mass) None (Some [thermal_neumann_top; thermal_neumann_walls]) None.
(** 65-78 *)
Definition heat_params (p : problem Rops lval) (sol_T_old : list (list Rops)) (laser_center : nat -> R) (switch : R) : result (problem Rops lval) :=
  match fes p, boundary_inds_list p with
  | f :: _, b0 :: b1 :: _ =>
      let old (b : list (nat * nat)) := map (fun x q => LVec (convert_from_dof_to_face_quad f sol_T_old (fst x) (snd x) q)) b in
      Ok (mkProblem (fes p) (boundary_inds_list p) (maps p)
            [map (fun c q => LVec (convert_from_dof_to_quad f sol_T_old c q)) (seq 0 (num_cells f))]
            [[old b0; map (fun _ _ => LVec laser_center) b0; map (fun _ _ => LNum switch) b0]; [old b1]])
  | _, _ => Err IndexErr
  end.

(** 113-118: the Lame constants of Young's modulus E *)
Definition stress_E (d : nat) (E : R) (epsilon : tensor) : tensor := fun i j =>
  let nu := 3 / 10 in let mu := E / (2 * (1 + nu)) in let lmbda := E * nu / ((1 + nu) * (1 - 2 * nu)) in
  lmbda * trace d epsilon * (if (i =? j)%nat then 1 else 0) + 2 * mu * epsilon i j.
(** 121-125 *)
Definition E0 : R := 70 * 10 ^ 9.
Definition sig0 : R := 250 * 10 ^ 6.
Definition alpha_V0 : R := / 10 ^ 5.
Definition alpha_V (phase : nat) : R := if (phase =? SOLID)%nat then alpha_V0 else 0.
Definition E_of (phase : nat) : R := if (phase =? SOLID)%nat then E0 else / 10 ^ 2 * E0.
(** 126-129 *)
Definition sigma_trial (d : nat) (u_grad sigma_old epsilon_old : tensor) (dT : R) (phase : nat) : tensor := fun i j =>
  stress_E d (E_of phase) (fun k l => strain u_grad k l - epsilon_old k l - alpha_V phase * dT * (if (k =? l)%nat then 1 else 0)) i j + sigma_old i j.
(** 130-133; safe_sqrt of lines 102-104 and the deviator are those of test_plasticity.py *)
Definition f_yield_plus (d : nat) (sigma_trial : tensor) : R :=
  let f_yield := s_norm d (deviator d sigma_trial) - sig0 in if Rlt_dec 0 f_yield then f_yield else 0.
(** 120-135 *)
Definition laser_return (d : nat) (u_grad sigma_old epsilon_old : tensor) (dT : R) (phase : nat) : tensor :=
  let t := sigma_trial d u_grad sigma_old epsilon_old dT phase in
  let s_dev := deviator d t in
  fun i j => t i j - safe_divide (f_yield_plus d t * s_dev i j) (s_norm d s_dev).
(** 137; dT has one entry *)
Definition laser_stress (d : nat) (u_grad : tensor) (iv : list lval) : tensor :=
  match iv with
  | [LTen sigma_old; LTen epsilon_old; LVec dT; LPhase phase] => laser_return d u_grad sigma_old epsilon_old (dT 0%nat) phase
  | _ => fun _ _ => 0
  end.

(** values of the internal variables, with zeros for other kinds (see above) *)
Definition as_ten (v : lval) : tensor := match v with LTen t => t | _ => fun _ _ => 0 end.
Definition as_vec (v : lval) : nat -> R := match v with LVec t => t | _ => fun _ => 0 end.
Definition as_phase (v : lval) : nat := match v with LPhase t => t | _ => POWDER end.
Definition entry (l : list (nat -> lval)) (c q : nat) : lval := nth c l (fun _ => LNum 0) q.

Section Mechanics.
  Variables (f : fe Rops) (P : list (list Rops)).
  (** 89-95 *)
  Definition mech_init : list (list (nat -> lval)) :=
    let n := length (cells f) in
    [repeat (fun _ => LTen (fun _ _ => 0)) n; repeat (fun _ => LTen (fun _ _ => 0)) n; repeat (fun _ => LVec (fun _ => 0)) n; repeat (fun _ => LPhase POWDER) n].
  (** 149-161: lines 154-155 are sol_to_grad of the problem's points P; plastic_info is only printed and written, and not modelled.
      Arrays whose number of cells differs raise in jax.vmap. *)
  Definition mech_update (ivs : list (list (nat -> lval))) (sol : list (list Rops)) : result (list (list (nat -> lval))) :=
    match ivs with
    | [sigmas; epsilons; dT; phase] =>
        if (length sigmas =? num_cells f)%nat && (length epsilons =? num_cells f)%nat && (length dT =? num_cells f)%nat && (length phase =? num_cells f)%nat then
          Ok [map (fun c q => LTen (laser_return (dim f) (sol_to_grad P f sol c q) (as_ten (entry sigmas c q)) (as_ten (entry epsilons c q))
                                     (as_vec (entry dT c q) 0%nat) (as_phase (entry phase c q)))) (seq 0 (num_cells f));
              map (fun c q => LTen (strain (sol_to_grad P f sol c q))) (seq 0 (num_cells f)); dT; phase]
        else Err ValueErr
    | _ => Err ValueErr
    end.
  (** 169-172, for one entry: both masks are those of the old phase *)
  Definition next_phase (phase : nat) (T : R) : nat :=
    let powder_to_liquid := (phase =? POWDER)%nat && (if Rlt_dec Tl T then true else false) in
    let liquid_to_solid := (phase =? LIQUID)%nat && (if Rlt_dec T Tl then true else false) in
    let phase := if powder_to_liquid then LIQUID else phase in
    if liquid_to_solid then SOLID else phase.
  (** 163-173; masks of another number of cells raise *)
  Definition update_dT_and_phase (dT T : list (list Rops)) (ivs : list (list (nat -> lval))) : result (list (list (nat -> lval))) :=
    match ivs with
    | [sigmas; epsilons; _; phase] =>
        if (length phase =? num_cells f)%nat then
          Ok [sigmas; epsilons; map (fun c q => LVec (convert_from_dof_to_quad f dT c q)) (seq 0 (num_cells f));
              map (fun c q => LPhase (next_phase (as_phase (entry phase c q)) (convert_from_dof_to_quad f T c q 0%nat))) (seq 0 (num_cells f))]
        else Err ValueErr
    | _ => Err ValueErr
    end.
End Mechanics.

(** 214-225, on the coordinates of a point *)
Definition coord (point : list Rops) (i : nat) : R := nth i point 0.
Definition atol : R := / 10 ^ 5.
Definition top (point : list Rops) : bool := isclose (coord point 2) Lz atol.
Definition bottom (point : list Rops) : bool := isclose (coord point 2) 0 atol.
Definition walls (point : list Rops) : bool :=
  isclose (coord point 0) 0 atol || isclose (coord point 0) Lx atol || isclose (coord point 1) 0 atol || isclose (coord point 1) Ly atol.
(** 238-239, 246 *)
Definition heat_bc : list (location_fn Rops) * list nat * list (list Rops -> Rops) := ([Loc1 bottom], [0%nat], [fun _ => T0]).
Definition heat_locations : option (list (location_fn Rops)) := Some [Loc1 top; Loc1 walls].
Definition mech_bc : list (location_fn Rops) * list nat * list (list Rops -> Rops) :=
  ([Loc1 bottom; Loc1 bottom; Loc1 bottom], [0; 1; 2]%nat, [(fun _ => 0); (fun _ => 0); (fun _ => 0)]).

(** sol_T_new - sol_T_old_for_u *)
Definition minus_sol (a b : list (list Rops)) : list (list Rops) := map2 (map2 Rminus) a b.
(** The variables of the loop: sol_T_old, sol_T_old_for_u, params_u, sol_u_list[0] *)
Record laser_state := mkLaser { l_T : list (list Rops); l_Tu : list (list Rops); l_vars : list (list (nat -> lval)); l_u : list (list Rops) }.

Section Loop.
  (** solver(problem_T) and solver(problem_u, initial_guess): any functions of the problem, and of the guess *)
  Variables (solve_T : problem Rops lval -> result (list (list Rops))) (solve_u : problem Rops lval -> list (list Rops) -> result (list (list Rops))).
  Variables (problem_T problem_u : problem Rops lval) (fu : fe Rops) (P : list (list Rops)).
  (** 270-273: pass i is at time ts[i + 1] *)
  Definition time (i : nat) : R := INR (i + 1) * dt.
  Definition beam_center (i : nat) : nat -> R := fun a => match a with 0%nat => Lx * (25 / 100) + vel * time i | 1%nat => Ly / 2 | _ => Lz end.
  Definition beam_switch (i : nat) : R := if Rlt_dec (time i) laser_on_t then 1 else 0.
  (** 272-302 *)
  Definition laser_pass (i : nat) (s : laser_state) : result laser_state :=
    bind (heat_params problem_T (l_T s) (beam_center i) (beam_switch i)) (fun pT => bind (solve_T pT) (fun T_new =>
    if ((i + 1) mod 10 =? 0)%nat then
      bind (update_dT_and_phase fu (minus_sol T_new (l_Tu s)) T_new (l_vars s)) (fun params =>
      bind (solve_u (with_vars problem_u params) (l_u s)) (fun u =>
      bind (mech_update fu P params u) (fun params' =>
      Ok (mkLaser T_new T_new params' u))))
    else Ok (mkLaser T_new (l_Tu s) (l_vars s) (l_u s)))).
  (** the states after pass i, ..., i + n - 1 *)
  Fixpoint laser_loop (n i : nat) (s : laser_state) : result (list laser_state) :=
    match n with
    | O => Ok []
    | S n' => bind (laser_pass i s) (fun s' => bind (laser_loop n' (S i) s') (fun r => Ok (s' :: r)))
    end.
  (** 241-249, 271-302 *)
  Definition laser_start : laser_state :=
    mkLaser (repeat [T0] (length (points fu))) (repeat [T0] (length (points fu))) (mech_init fu) (repeat [0; 0; 0] (length (points fu))).
  Definition laser_run (n : nat) : result (list laser_state) := laser_loop n 0 laser_start.
End Loop.
