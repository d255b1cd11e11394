(** Model of AMGX_solve_host, jax_fem/solver.py:136-224: which handles it creates and destroys.
    Any step of the body may raise; so may a destroy. *)
From Coq Require Import List Arith Bool.
From Verif Require Import Num Fe.
Import ListNotations.

(** The handles bound to local variables, solver.py:150-155. *)
Inductive handle := HCfg | HResources | HSolver | HA | HB | HX.
(** The steps of the try block that can raise, solver.py:158-208. *)
Inductive amgx_step :=
  | Create (h : handle)
  | UploadA | UploadB | UploadX | Setup | Solve | Download | CheckNorm | Convert.
(** Observable events *)
Inductive event := Created (h : handle) | Destroyed (h : handle).

Definition handle_eqb (a b : handle) : bool :=
  match a, b with
  | HCfg, HCfg | HResources, HResources | HSolver, HSolver | HA, HA | HB, HB | HX, HX => true
  | _, _ => false
  end.

(** solver.py:158-208, in program order *)
Definition amgx_body : list amgx_step :=
  [Create HCfg;                                  (* 159-186 *)
   Create HResources; Create HSolver;            (* 189-190 *)
   Create HA; Create HB; Create HX;              (* 192-194 *)
   UploadA; UploadB; UploadX;                    (* 196-198 *)
   Setup; Solve; Download; CheckNorm; Convert].  (* 200-208 *)
(** solver.py:211-222: the order of the tests in the finally block *)
Definition amgx_finally : list handle := [HX; HB; HA; HSolver; HResources; HCfg].

Section Host.
  (** what each step does: returns or raises; likewise each destroy.
      Simplification: the numbers computed are the business of the back-end oracle of LinSolve.v. *)
  Variable api : amgx_step -> result unit.
  Variable destroy : handle -> result unit.

  (** The try block: the variables that are not None when it ends, the events, the outcome. *)
  Fixpoint run_body (steps : list amgx_step) : list handle * list event * result unit :=
    match steps with
    | [] => ([], [], Ok tt)
    | s :: steps =>
        match api s with
        | Err e => ([], [], Err e)
        | Ok _ =>
            let '(live, ev, r) := run_body steps in
            match s with
            | Create h => (h :: live, Created h :: ev, r)
            | _ => (live, ev, r)
            end
        end
    end.
  (** The finally block; an exception in a destroy leaves the block at once. *)
  Fixpoint run_finally (live hs : list handle) : list event * result unit :=
    match hs with
    | [] => ([], Ok tt)
    | h :: hs =>
        if existsb (handle_eqb h) live then
          match destroy h with
          | Err e => ([], Err e)
          | Ok _ => let '(ev, r) := run_finally live hs in (Destroyed h :: ev, r)
          end
        else run_finally live hs
    end.
  (** solver.py:136-224 from the try statement on: events and outcome; an exception raised in the
      finally block replaces the one of the body. *)
  Definition AMGX_solve_host : list event * result unit :=
    let '(live, ev, r) := run_body amgx_body in
    let '(ev', r') := run_finally live amgx_finally in
    (ev ++ ev', match r' with Err e => Err e | Ok _ => r end).
End Host.
