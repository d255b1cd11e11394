(** Model of the arc-length continuation of jax_fem/solver.py:555-852 and of the method dispatch
    of solver() for it (1270-1276), over extended reals. *)
From Coq Require Import String List Arith Bool Reals ZArith.
From Verif Require Import Num Arr Fe Problem SolverBc XNum PyDict Options LinSolve Newton.
Import ListNotations.
Local Open Scope string_scope.

(** x * y on vectors; a size mismatch raises (broadcasting of size-1 arrays is not modelled) *)
Definition mul_vec (x y : list Xops) : result (list Xops) :=
  if (List.length x =? List.length y)%nat then Ok (map2 mul x y) else Err TypeErr.
(** x ** 2. *)
Definition sq (x : xr) : xr := xmul x x.
(** np.sum(x ** 2.) *)
Definition sum_sq (x : list Xops) : xr := sumK (map (fun a : xr => sq a) x).
(** np.sum(x * y) *)
Definition sum_mul (x y : list Xops) : result xr := bind (mul_vec x y) (fun z => Ok (sumK z)).

(** The state of the corrector loop: u_vec, lamda, Delta_u_vec_dir, Delta_lamda_dir, and the
    number of linear solves made so far. *)
Record arc_state := mkArc {
  ar_u : list Xops; ar_lam : xr; ar_du : list Xops; ar_dlam : xr; ar_solves : nat
}.

(** solver.py:569-571 and 658-660 *)
Definition u_lamda_dot_product (psi : xr) (load : list Xops) (du1 : list Xops) (dl1 : xr) (du2 : list Xops) (dl2 : xr)
  : result xr :=
  bind (sum_mul du1 du2) (fun s => Ok (xadd s (xmul (xmul (xmul (sq psi) dl1) dl2) (sum_sq load)))).

(** solver.py:593-595 and 682-684: the coefficients of the quadratic equation for delta_lamda *)
Definition arc_quadratic (psi Delta_l : xr) (load Delta_u delta_u_bar delta_u_t : list Xops) (Delta_lamda : xr)
  : result (xr * xr * xr) :=
  bind (add_vec Delta_u delta_u_bar) (fun w =>
  bind (sum_mul w delta_u_t) (fun wt =>
  let L := sum_sq load in
  Ok (xadd (sum_sq delta_u_t) (xmul (sq psi) L),
      xadd (xmul (Fin 2) wt) (xmul (xmul (xmul (Fin 2) (sq psi)) Delta_lamda) L),
      xsub (xadd (sum_sq w) (xmul (xmul (sq psi) (sq Delta_lamda)) L)) (sq Delta_l)))).

(** solver.py:598-599 and 687-688: its two roots *)
Definition arc_roots (a1 a2 a3 : xr) : xr * xr :=
  let s := xsqrt (xsub (sq a2) (xmul (xmul (Fin 4) a1) a3)) in
  (xdiv (xadd (xopp a2) s) (xmul (Fin 2) a1), xdiv (xsub (xopp a2) s) (xmul (Fin 2) a1)).

(** solver.py:618-623 and 707-712 *)
Definition arc_choose (dot1 dot2 delta_lamda1 delta_lamda2 : xr) : xr :=
  if xltb (xabs dot1) (Fin (/ 10 ^ 10)) && xltb (xabs dot2) (Fin (/ 10 ^ 10))
  then xmax delta_lamda1 delta_lamda2
  else if xgtb dot1 dot2 then delta_lamda1 else delta_lamda2.

(** solver.py:591-630 and 680-719: from the two linear solutions to the new state; the same text
    with u_b resp. q_aux_mapped as [load] *)
Definition arc_update (psi Delta_l : xr) (load prev_u : list Xops) (prev_lam : xr) (st : arc_state)
    (delta_u_bar delta_u_t : list Xops) (solves : nat) : result arc_state :=
  bind (sub_vec (ar_u st) prev_u) (fun Delta_u =>
  let Delta_lamda := xsub (ar_lam st) prev_lam in
  bind (arc_quadratic psi Delta_l load Delta_u delta_u_bar delta_u_t Delta_lamda) (fun a =>
  let '(a1, a2, a3) := a in
  let '(dl1, dl2) := arc_roots a1 a2 a3 in
  if negb (isfinite dl1 && isfinite dl2) then Err AssertionErr else
  bind (add_vec delta_u_bar (vscale (dl1 : Xops) delta_u_t)) (fun du1 =>
  bind (add_vec delta_u_bar (vscale (dl2 : Xops) delta_u_t)) (fun du2 =>
  bind (bind (add_vec (ar_u st) du1) (fun x => sub_vec x prev_u)) (fun dir1 =>
  bind (u_lamda_dot_product psi load (ar_du st) (ar_dlam st) dir1 (xsub (xadd (ar_lam st) dl1) prev_lam)) (fun dot1 =>
  bind (bind (add_vec (ar_u st) du2) (fun x => sub_vec x prev_u)) (fun dir2 =>
  bind (u_lamda_dot_product psi load (ar_du st) (ar_dlam st) dir2 (xsub (xadd (ar_lam st) dl2) prev_lam)) (fun dot2 =>
  let dl := arc_choose dot1 dot2 dl1 dl2 in
  let lam := xadd (ar_lam st) dl in
  bind (add_vec delta_u_bar (vscale (dl : Xops) delta_u_t)) (fun delta_u =>
  bind (add_vec (ar_u st) delta_u) (fun u =>
  bind (sub_vec u prev_u) (fun dir =>
  Ok (mkArc u lam dir (xsub lam prev_lam) solves)))))))))))).

(** One iteration of a corrector loop: the residual norm it computes and the new state. *)
Definition corrector := arc_state -> result (xr * arc_state).

(** solver.py:581-582 and 670-671, [while res_val > tol] with tol = 1e-6 *)
Fixpoint arc_loop (body : corrector) (fuel : nat) (res_val : xr) (st : arc_state) : outcome arc_state :=
  if xgtb res_val (Fin (/ 10 ^ 6)) then
    match fuel with
    | 0 => Running
    | S fuel =>
        match body st with
        | Err e => Done (Err e)
        | Ok (res_val, st) => arc_loop body fuel res_val st
        end
    end
  else Done (Ok st).

(** A record of the continuation history: step, lam, u (solver.py:777-781 and 820-824). *)
Record arc_record := mkRecord { r_step : nat; r_lam : xr; r_u : list Xops }.

Section ArcLength.
  Context {O V : Type}.
  Variable ravel_obj : O -> list Xops.
  (** a solution list as a Python object *)
  Variable obj_of_sol : list (list (list Xops)) -> O.
  Variable B : backends O.
  Variable jvp : (list Xops -> list Xops) -> list Xops -> list Xops -> list Xops.
  Variable p : problem Xops V.
  Variable pts : list (list (list Xops)).
  Variable P_mat : option pmat.
  (** cfg['step_callback'](step, u, lam); it may raise.
      Simplification: it does not change the problem. *)
  Variable callback : pyval O -> nat -> list Xops -> xr -> result unit.

  (** solver.py:561-567 with scale = lamda, 650-656 with scale = 1 *)
  Definition arc_residual (scale : xr) (dofs : list Xops) : result (list Xops * pmat) :=
    bind (unflatten p dofs) (fun sol_list =>
    bind (newton_update jvp xsqrt p pts sol_list) (fun rV =>
    Ok (apply_bc_vec (ravel (fst rV)) dofs p (scale : Xops), get_A p P_mat (snd rV)))).

  (** solver.py:582-630 *)
  Definition disp_body (psi Delta_l : xr) (prev_u : list Xops) (prev_lam : xr) : corrector := fun st =>
    let u_b := assign_bc (map (fun _ => zero) prev_u) p in
    bind (arc_residual (ar_lam st) (ar_u st)) (fun rA =>
    let '(res_vec, A) := rA in
    let res_val := xnorm res_vec in
    bind (scipy_spsolve B (ar_solves st) A (vneg res_vec)) (fun delta_u_bar =>
    bind (scipy_spsolve B (S (ar_solves st)) A u_b) (fun delta_u_t =>
    bind (arc_update psi Delta_l u_b prev_u prev_lam st delta_u_bar delta_u_t (S (S (ar_solves st)))) (fun st =>
    Ok (res_val, st))))).

  (** solver.py:559-634 *)
  Definition arc_length_solver_disp_driven (fuel : nat) (Delta_l psi : xr) (st : arc_state) : outcome arc_state :=
    arc_loop (disp_body psi Delta_l (ar_u st) (ar_lam st)) fuel (Fin 1) st.

  (** solver.py:671-719 *)
  Definition force_body (q_aux : list Xops) (psi Delta_l : xr) (prev_u : list Xops) (prev_lam : xr) : corrector := fun st =>
    let q_aux_mapped := assign_zeros_bc q_aux p in
    bind (arc_residual (Fin 1) (ar_u st)) (fun rA =>
    let '(res_vec, A) := rA in
    let load_term := vscale (xsub (Fin 1) (ar_lam st) : Xops) q_aux_mapped in
    bind (add_vec res_vec load_term) (fun total =>
    let res_val := xnorm total in
    bind (scipy_spsolve B (ar_solves st) A (vneg total)) (fun delta_u_bar =>
    bind (scipy_spsolve B (S (ar_solves st)) A q_aux_mapped) (fun delta_u_t =>
    bind (arc_update psi Delta_l q_aux_mapped prev_u prev_lam st delta_u_bar delta_u_t (S (S (ar_solves st)))) (fun st =>
    Ok (res_val, st)))))).

  (** solver.py:645-721; unflattening q_aux raises on a wrong size *)
  Definition arc_length_solver_force_driven (fuel : nat) (q_aux : list Xops) (Delta_l psi : xr) (st : arc_state)
    : outcome arc_state :=
    if (List.length q_aux =? num_total_dofs_all_vars p)%nat
    then arc_loop (force_body q_aux psi Delta_l (ar_u st) (ar_lam st)) fuel (Fin 1) st
    else Done (Err ValueErr).

  (** solver.py:637-642 *)
  Definition get_q_vec : result (list Xops) :=
    bind (unflatten p (zeros (num_total_dofs_all_vars p))) (fun sol_list =>
    bind (newton_update jvp xsqrt p pts sol_list) (fun rV => Ok (ravel (fst rV)))).

  (** What is observable of a continuation: the state, the history and the calls of the callback. *)
  Record arc_trace := mkTrace { tr_state : arc_state; tr_history : list arc_record; tr_calls : list arc_record }.

  (** The loops of solver.py:773-786 and 815-829: [n] steps remain, [step] is the next index.
      [advance step] is the call of the corrector in that step. *)
  Fixpoint continuation (advance : nat -> arc_state -> outcome arc_state) (cb : pyval O) (n step : nat)
      (tr : arc_trace) : outcome arc_trace :=
    match n with
    | 0 => Done (Ok tr)
    | S n =>
        match advance step (tr_state tr) with
        | Running => Running
        | Done (Err e) => Done (Err e)
        | Done (Ok st) =>
            let record := mkRecord step (ar_lam st) (ar_u st) in
            let history := (tr_history tr ++ [record])%list in
            match (match cb with VNone => Ok tt | _ => callback cb step (ar_u st) (ar_lam st) end) with
            | Err e => Done (Err e)
            | Ok _ =>
                let calls := match cb with VNone => tr_calls tr | _ => (tr_calls tr ++ [record])%list end in
                let tr := mkTrace st history calls in
                if xgeb (ar_lam st) (Fin 1) then Done (Ok tr) else continuation advance cb n (S step) tr
            end
        end
    end.

  (** range(v): an int, negative means empty *)
  Definition range_option (cfg : dict O) (k : string) (default : nat) : result nat :=
    match lookup cfg k with
    | None => Ok default
    | Some (VInt z) => Ok (Z.to_nat z)
    | Some _ => Err TypeErr
    end.

  (** The info dict of solver.py:750-756 (lambda_target is the constant 1). *)
  Record arc_info := mkInfo { i_lam : xr; i_polished : bool; i_history : list arc_record; i_control : string }.
  Record arc_out := mkArcOut {
    ao_sol : list (list (list Xops)); ao_info : arc_info; ao_calls : list arc_record;
    (** the result of the polish, if there was one *)
    ao_polish : option (@newton_out O)
  }.

  (** solver.py:724-732: the options of the polish; dict(v) of something that is not a mapping raises
      (lists of pairs are not modelled) *)
  Definition polish_options (cfg : dict O) (sol_list : list (list (list Xops))) : result (dict O) :=
    match get_default cfg "newton" (VDict []) with
    | VDict d =>
        let polish := dset d "initial_guess" (VObj (obj_of_sol sol_list)) in
        Ok (match lookup cfg "linear" with
            | Some l => if truthy l then dset polish "linear" l else polish
            | None => polish
            end)
    | _ => Err TypeErr
    end.

  (** solver.py:736-756 with 724-733; solver(problem, {'newton': polish}) is the Newton branch *)
  Definition finish_arc_length (fuel : nat) (cfg : dict O) (control : string) (tr : arc_trace) : outcome arc_out :=
    let lam := ar_lam (tr_state tr) in
    let info := mkInfo lam (xgeb lam (Fin 1)) (tr_history tr) control in
    match unflatten p (ar_u (tr_state tr)) with
    | Err e => Done (Err e)
    | Ok sol_list =>
        if xgeb lam (Fin 1) then
          match polish_options cfg sol_list with
          | Err e => Done (Err e)
          | Ok polish =>
              match solve_newton ravel_obj B jvp p pts P_mat fuel polish with
              | Running => Running
              | Done (Err e) => Done (Err e)
              | Done (Ok out) => Done (Ok (mkArcOut (out_sol out) info (tr_calls tr) (Some out)))
              end
          end
        else Done (Ok (mkArcOut sol_list info (tr_calls tr) None))
    end.

  (** The state of solver.py:766-769 and 810-813 *)
  Definition arc_start : arc_trace :=
    let n := num_total_dofs_all_vars p in mkTrace (mkArc (zeros n) (Fin 0) (zeros n) (Fin 0) 0) [] [].

  (** solver.py:759-793 *)
  Definition solve_arc_length_disp (fuel : nat) (cfg : dict O) : outcome arc_out :=
    match num_option cfg "psi" (Fin 1) with Err e => Done (Err e) | Ok psi =>
    match num_option cfg "Delta_l" (Fin (/ 10)) with Err e => Done (Err e) | Ok delta_l =>
    match range_option cfg "max_continuation_steps" 600 with Err e => Done (Err e) | Ok max_steps =>
    match continuation (fun _ => arc_length_solver_disp_driven fuel delta_l psi)
            (get_default cfg "step_callback" VNone) max_steps 0 arc_start with
    | Running => Running
    | Done (Err e) => Done (Err e)
    | Done (Ok tr) => finish_arc_length fuel cfg "displacement" tr
    end end end end.

  (** solver.py:815: dl = delta_l if step < switch_step else delta_l_late *)
  Definition step_length (delta_l delta_l_late switch_step : xr) (step : nat) : xr :=
    if xltb (Fin (INR step)) switch_step then delta_l else delta_l_late.

  (** solver.py:796-837.  Simplification: option values are read (and rejected) before the loop. *)
  Definition solve_arc_length_force (fuel : nat) (cfg : dict O) : outcome arc_out :=
    match get_default cfg "q_vec_aux" VNone with
    | VNone => Done (Err ValueErr)
    | VObj o =>
        match num_option cfg "psi" (Fin (/ 2)) with Err e => Done (Err e) | Ok psi =>
        match num_option cfg "Delta_l" (Fin (/ 10)) with Err e => Done (Err e) | Ok delta_l =>
        match num_option cfg "Delta_l_late" (Fin 1) with Err e => Done (Err e) | Ok delta_l_late =>
        match num_option cfg "Delta_l_switch_step" (Fin 200) with Err e => Done (Err e) | Ok switch_step =>
        match range_option cfg "max_continuation_steps" 500 with Err e => Done (Err e) | Ok max_steps =>
        match continuation (fun step => arc_length_solver_force_driven fuel (ravel_obj o)
                                          (step_length delta_l delta_l_late switch_step step) psi)
                (get_default cfg "step_callback" VNone) max_steps 0 arc_start with
        | Running => Running
        | Done (Err e) => Done (Err e)
        | Done (Ok tr) => finish_arc_length fuel cfg "force" tr
        end end end end end end
    | _ => Done (Err TypeErr)
    end.

  (** solver.py:840-852 *)
  Definition solve_arc_length (fuel : nat) (cfg : dict O) : outcome arc_out :=
    match lookup cfg "control" with
    | None => Done (Err ValueErr)
    | Some (VStr c) =>
        if c =? "displacement" then solve_arc_length_disp fuel cfg
        else if c =? "force" then solve_arc_length_force fuel cfg
        else Done (Err ValueErr)
    | Some _ => Done (Err ValueErr)
    end.
End ArcLength.
