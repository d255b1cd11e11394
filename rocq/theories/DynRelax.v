(** Model of the dynamic relaxation solver, jax_fem/solver.py:858-1049, over extended reals. *)
From Coq Require Import String List Arith Bool Reals ZArith.
From Verif Require Import Num Arr Fe Problem SolverBc XNum PyDict Options LinSolve Newton ArcLength.
Import ListNotations.
Local Open Scope string_scope.

(** onp.max: NaN if an entry is NaN; an empty array raises *)
Definition vmax (l : list Xops) : result xr :=
  match l with
  | [] => Err ValueErr
  | x :: l => Ok (fold_left xmax l x)
  end.
(** onp.max(onp.absolute(x)) *)
Definition max_abs (l : list Xops) : result xr := vmax (map (fun a : xr => xabs a) l).

(** solver.py:891-899 *)
Definition calC (t cmin cmax : xr) : xr :=
  let t := if xltb t (Fin 0) then Fin 0 else t in
  let c := xmul (Fin 2) (xsqrt t) in
  let c := if xltb c cmin then cmin else c in
  if xgtb c cmax then cmax else c.

(** solver.py:955-958 *)
Definition dr_cmin : xr := Fin (1 / 1000).
Definition dr_cmax : xr := Fin (39 / 10).
Definition dr_h_tilde : xr := Fin (11 / 10).
Definition dr_h : xr := Fin 1.
(** h_tilde * h_tilde / 4. *)
Definition dr_factor : xr := xdiv (xmul dr_h_tilde dr_h_tilde) (Fin 4).

(** solver.py:1012-1015, for one dof: numerator, denominator *)
Definition dr_eps (num den : xr) : xr :=
  xmul dr_factor (xabs (if xeqb den (Fin 0) then Fin 0 else xdiv num den)).
(** solver.py:1029, for one dof *)
Definition dr_velocity (c qdot_old r m : xr) : xr :=
  xsub (xmul (xdiv (xsub (Fin 2) (xmul c dr_h)) (xadd (Fin 2) (xmul c dr_h))) qdot_old)
       (xdiv (xmul (xdiv (xmul (Fin 2) dr_h) (xadd (Fin 2) (xmul c dr_h))) r) m).

(** The variables of the loop (solver.py:960-1030).  The array [dofs] always equals q. *)
Record dr_state := mkDr {
  dr_q : list Xops; dr_qdot : list Xops; dr_qdotdot : list Xops; dr_qdotdot_old : list Xops;
  dr_M : list Xops; dr_R : list Xops; dr_nIters : nat; dr_iKMat : nat; dr_error : xr
}.

(** What is returned, and the message printed at the end (solver.py:1035-1049). *)
Record dr_out := mkDrOut { do_sol : list (list (list Xops)); do_iters : nat; do_finished : bool }.

Section DynRelax.
  Context {O V : Type}.
  Variable ravel_obj : O -> list Xops.
  Variable B : backends O.
  Variable jvp : (list Xops -> list Xops) -> list Xops -> list Xops -> list Xops.
  Variable p : problem Xops V.
  Variable pts : list (list (list Xops)).
  Variable P_mat : option pmat.

  (** solver.py:969-974; compute_residual of a well-formed problem has the size of the dofs *)
  Definition assembleVec (dofs : list Xops) : result (list Xops) :=
    bind (unflatten p dofs) (fun sol_list =>
    bind (compute_residual xsqrt p pts sol_list) (fun res_list =>
    Ok (assign_zeros_bc (ravel res_list) p))).

  (** solver.py:875-888: a matrix of the size of the first variable; entries outside it and constrained
      rows outside it raise.  Setting the stored entries of a row to 0 and its diagonal entry to 1, row
      by row, is zero_rows. *)
  Definition assembleCSR (dofs : list Xops) : result pmat :=
    bind (unflatten p dofs) (fun sol_list =>
    bind (newton_update jvp xsqrt p pts sol_list) (fun rV =>
    let n := num_total_dofs (fe0 p) in
    if negb (forallb (fun i => i <? n)%nat (p_I p ++ p_J p)%list) then Err ValueErr else
    if negb (forallb (fun i => i <? n)%nat (concat (bc_rows p))) then Err IndexErr else
    Ok (mkMat n n (tangent p (snd rV))))).

  (** solver.py:979-980 and 1024-1025: the masses; assigning an array of another size raises
      (broadcasting of a single entry is not modelled) *)
  Definition masses (size : nat) (A : pmat) : result (list Xops) :=
    if (m_rows A =? size)%nat
    then Ok (map (fun i => xmul dr_factor (sum_n (K := Xops) (m_cols A) (fun j => xabs (m_at A i j)))) (seq 0 (m_rows A)))
    else Err ValueErr.

  (** solver.py:937-943, the same text as in the arc-length method with scale 1 *)
  Definition dr_update_helper : list Xops -> result (list Xops * pmat) := arc_residual jvp p pts P_mat (Fin 1).

  (** solver.py:934, 945-952: the dofs the relaxation starts from *)
  Definition dr_initial (linear : pyval O) (guess : option (list Xops)) : result (list Xops) :=
    let linear_options := if truthy linear then linear else VDict [("spsolve_solver", VDict [])] in
    let dofs := zeros (num_total_dofs_all_vars p) in
    bind (dr_update_helper dofs) (fun rA =>
    bind (newton_step B p pts P_mat 0 (fst rA) (snd rA) dofs [("linear", linear_options)]) (fun d =>
    match guess with
    | None => Ok (fst d)
    | Some g => bind (unflatten p g) (fun _ => Ok (assign_bc g p))
    end)).

  (** solver.py:960-992: the state before the loop *)
  Definition dr_start (dofs : list Xops) : result dr_state :=
    bind (assembleVec dofs) (fun R =>
    bind (assembleCSR dofs) (fun KCSR =>
    bind (masses (List.length dofs) KCSR) (fun M =>
    let qdot := map2 (fun r m : xr => xdiv (xmul (xdiv (xopp dr_h) (Fin 2)) r) m) R M in
    let z := map (fun _ => Fin 0 : Xops) dofs in
    if negb (forallb isfinite M) then Err AssertionErr else
    if negb (forallb isfinite dofs) then Err AssertionErr else
    if negb (forallb isfinite qdot) then Err AssertionErr else
    bind (max_abs R) (fun error =>
    Ok (mkDr dofs qdot z z M R 0 0 error))))).

  (** solver.py:1033 with 905: nIters % nPrint; the output itself is not modelled *)
  Definition printInfo (nPrint : Z) : result unit := if (nPrint =? 0)%Z then Err ZeroDivErr else Ok tt.

  (** solver.py:996-1033 *)
  Definition dr_body (nKMat : xr) (nPrint : Z) (st : dr_state) : result dr_state :=
    let q := map2 xadd (dr_q st) (map (xmul dr_h) (dr_qdot st)) in
    bind (assembleVec q) (fun R =>
    let nIters := S (dr_nIters st) in
    let iKMat := S (dr_iKMat st) in
    bind (max_abs R) (fun error =>
    let S0 := sumK (K := Xops) (map2 xmul (map (fun d : xr => xdiv d dr_h) (map2 xsub R (dr_R st))) (dr_qdot st)) in
    let t := xdiv S0 (sumK (K := Xops) (map2 xmul (map2 xmul (dr_qdot st) (dr_M st)) (dr_qdot st))) in
    let c := calC t dr_cmin dr_cmax in
    let eps := map2 dr_eps (map2 xsub (dr_qdotdot st) (dr_qdotdot_old st)) (map2 xsub q (dr_q st)) in
    bind (vmax eps) (fun max_eps =>
    bind (if xgtb max_eps (Fin 1) && xgtb (Fin (INR iKMat)) nKMat
          then bind (assembleCSR q) (fun KCSR => bind (masses (List.length q) KCSR) (fun M => Ok (0%nat, M)))
          else Ok (iKMat, dr_M st)) (fun kM =>
    let M := snd kM in
    let qdot := map2 (fun v rm => dr_velocity c v (fst rm) (snd rm)) (dr_qdot st) (combine R M) in
    let qdotdot := map (fun d : xr => xdiv d dr_h) (map2 xsub qdot (dr_qdot st)) in
    bind (printInfo nPrint) (fun _ =>
    Ok (mkDr q qdot qdotdot (dr_qdotdot st) M R nIters (fst kM) error)))))).

  (** solver.py:994 *)
  Fixpoint dr_loop (fuel : nat) (tol nKMat : xr) (nPrint : Z) (st : dr_state) : outcome dr_state :=
    if xgtb (dr_error st) tol then
      match fuel with
      | 0 => Running
      | S fuel =>
          match dr_body nKMat nPrint st with
          | Err e => Done (Err e)
          | Ok st => dr_loop fuel tol nKMat nPrint st
          end
      end
    else Done (Ok st).

  (** solver.py:1035-1049 *)
  Definition dr_finish (st : dr_state) : result dr_out :=
    bind (max_abs (dr_R st)) (fun m =>
    bind (unflatten p (dr_q st)) (fun sol_list =>
    Ok (mkDrOut sol_list (dr_nIters st) (negb (isnan m))))).

  (** solver.py:918-1049 *)
  Definition dynamic_relax_solve (fuel : nat) (tol nKMat : xr) (nPrint : Z) (guess : option (list Xops))
      (linear : pyval O) : outcome dr_out :=
    match dr_initial linear guess with
    | Err e => Done (Err e)
    | Ok dofs =>
        match dr_start dofs with
        | Err e => Done (Err e)
        | Ok st =>
            match dr_loop fuel tol nKMat nPrint st with
            | Running => Running
            | Done (Err e) => Done (Err e)
            | Done (Ok st) => Done (dr_finish st)
            end
        end
    end.

  (** nPrint is the right operand of %.  Simplification: an int. *)
  Definition int_option (cfg : dict O) (k : string) (default : Z) : result Z :=
    match lookup cfg k with
    | None => Ok default
    | Some (VInt z) => Ok z
    | Some _ => Err TypeErr
    end.

  (** solver.py:858-872; info and info_force only control output.
      Simplification: option values are read (and rejected) before the start. *)
  Definition solve_dynamic_relax (fuel : nat) (cfg : dict O) : outcome dr_out :=
    match (match lookup cfg "initial_guess" with
           | None => Ok None
           | Some (VObj o) => Ok (Some (ravel_obj o))
           | Some _ => Err TypeErr
           end) with
    | Err e => Done (Err e)
    | Ok guess =>
        match num_option cfg "tol" (Fin (/ 10 ^ 6)) with Err e => Done (Err e) | Ok tol =>
        match num_option cfg "nKMat" (Fin 1000) with Err e => Done (Err e) | Ok nKMat =>
        match int_option cfg "nPrint" 500%Z with Err e => Done (Err e) | Ok nPrint =>
        dynamic_relax_solve fuel tol nKMat nPrint guess (get_default cfg "linear" (VDict []))
        end end end
    end.
End DynRelax.
