(** Model of applications/crystal_plasticity/stress_sensitivity.py: one crystal stretched in ten steps, the final stress as a function of the factor alpha of the
    initial slip resistances.  The material is that of CrystalPlast.v, the boundary conditions are those of volume_sensitivity.py (Volume.v). *)
From Coq Require Import String List Arith Bool Reals.
From Verif Require Import Num Arr Fe Problem Plasticity CrystalPlast Lagrangian Volume FinLoad.
Import ListNotations.
Local Open Scope R_scope.

(** stress_sensitivity.py:39-41 *)
Definition ss_num_steps : nat := 10.
Definition ss_disps : list R := linspace 0 (5 / 1000) (ss_num_steps + 1).
Definition ss_ts : list R := linspace 0 (5 / 10) (ss_num_steps + 1).
(** stress_sensitivity.py:80 *)
Definition ss_dt (i : nat) : R := nth (i + 1) ss_ts 0 - nth i ss_ts 0.
(** stress_sensitivity.py:63-65: the functions are those of volume_sensitivity.py:60-80 *)
Definition ss_bc (disp : R) : bc_info := vs_bc disp.
(** stress_sensitivity.py:67-68, the orientations: the unit quaternion for every cell *)
Definition ss_quat : list vect := [fun k => match k with O => 1 | _ => 0 end].
Definition ss_inds (f : fe Rops) : list nat := repeat 0%nat (length (cells f)).
(** alpha*initial_params[1] *)
Definition scale_var (alpha : R) (v : cp_var) : cp_var := match v with CT T => CT (fun i j => alpha * T i j) | CV v => CV (fun s => alpha * v s) end.
(** stress_sensitivity.py:75-76 *)
Definition ss_params (alpha : R) (initial_params : list (list (nat -> cp_var))) : result (list (list (nat -> cp_var))) :=
  match initial_params with
  | a :: g :: rest => Ok (a :: map (fun col q => scale_var alpha (col q)) g :: rest)
  | _ => Err IndexErr
  end.

Section Simulation.
  Variables (tb : list (list R)) (LS : tensor -> vect -> vect) (P : list (list Rops)) (fuel : nat).
  (** the problem a step solves: the variable with the new values, the new dt, and the parameters set by ad_wrapper (solver.py) *)
  Definition ss_problem (f : fe Rops) (dt : R) (params : list (list (nat -> cp_var))) : problem Rops cp_var := mkProblem [f] [] (cp_maps tb dt LS fuel) params [].
  Record ss_step := mkSs { ss_prob : problem Rops cp_var; ss_sol : list (list Rops); ss_zz : R; ss_vars : list (list (nat -> cp_var)) }.
  (** stress_sensitivity.py:79-90.  [fwd i p] is fwd_pred(params) in step i: any function.  None: a local solve is still running. *)
  Fixpoint ss_loop (fwd : nat -> problem Rops cp_var -> result (list (list Rops))) (n i : nat) (f : fe Rops) (info : bc_info) (params : list (list (nat -> cp_var))) : option (result (list ss_step)) :=
    match n with
    | O => Some (Ok [])
    | Datatypes.S n' =>
        let dt := ss_dt i in
        match set_scale get_dirichlet_top f info (nth (i + 1) ss_disps 0) with
        | Err e => Some (Err e)
        | Ok (info', f') =>
            let p := ss_problem f' dt params in
            match fwd i p with
            | Err e => Some (Err e)
            | Ok sol =>
                match compute_avg_stress tb dt LS f' P fuel sol params with
                | None => None | Some (Err e) => Some (Err e)
                | Some (Ok sigma) =>
                    match cp_update_gp tb dt LS f' P fuel sol params with
                    | None => None | Some (Err e) => Some (Err e)
                    | Some (Ok params') =>
                        match ss_loop fwd n' (Datatypes.S i) f' info' params' with
                        | None => None | Some (Err e) => Some (Err e)
                        | Some (Ok rest) => Some (Ok (mkSs p sol (nth 0 sigma (fun _ _ => 0) 2%nat 2%nat) params' :: rest))
                        end
                    end
                end
            end
        end
    end.
  (** stress_sensitivity.py:74-112 without the saved files: the stress of the last step *)
  Definition ss_simulation (fwd : nat -> problem Rops cp_var -> result (list (list Rops))) (f : fe Rops) (initial_params : list (list (nat -> cp_var))) (alpha : R) : option (result (list ss_step)) :=
    match ss_params alpha initial_params with
    | Err e => Some (Err e)
    | Ok params => ss_loop fwd ss_num_steps 0 f (ss_bc (nth 0 ss_disps 0)) params
    end.
End Simulation.
