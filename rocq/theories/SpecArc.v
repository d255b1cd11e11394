(** Vocabulary for the arc-length properties (C31-C33), over ordinary real numbers. *)
From Coq Require Import List Arith Bool Reals.
From Verif Require Import Num Arr Fe Problem SolverBc XNum LinSolve.
Import ListNotations.
Local Open Scope R_scope.

(** inner product, squared length, sum, difference and multiple of vectors *)
Definition dot (x y : list R) : R := fold_right Rplus 0 (map2 Rmult x y).
Definition len2 (x : list R) : R := dot x x.
Definition rsub (x y : list R) : list R := map2 Rminus x y.
Definition radd (x y : list R) : list R := map2 Rplus x y.
Definition rscale (c : R) (x : list R) : list R := map (Rmult c) x.

(** The inner product of two increments (du, dlam) of the arc-length method for the scaling psi and
    the load vector q. *)
Definition arc_dot (psi : R) (q : list R) (du1 : list R) (dl1 : R) (du2 : list R) (dl2 : R) : R :=
  dot du1 du2 + psi * psi * dl1 * dl2 * len2 q.
(** (u, lam) lies on the arc of radius Dl around (u0, lam0). *)
Definition on_arc (psi Dl : R) (q u0 : list R) (lam0 : R) (u : list R) (lam : R) : Prop :=
  length u = length u0 /\
  arc_dot psi q (rsub u u0) (lam - lam0) (rsub u u0) (lam - lam0) = Dl * Dl.

(** All numbers are finite and the point is on the arc. *)
Definition finite_on_arc (psi Dl : xr) (q u0 : list Xops) (lam0 : xr) (u : list Xops) (lam : xr) : Prop :=
  exists psi' Dl' q' u0' lam0' u' lam',
    psi = Fin psi' /\ Dl = Fin Dl' /\ q = map Fin q' /\ u0 = map Fin u0' /\ lam0 = Fin lam0' /\
    u = map Fin u' /\ lam = Fin lam' /\ on_arc psi' Dl' q' u0' lam0' u' lam'.

(** x solves A x = b exactly in real arithmetic. *)
Definition solves (A : pmat) (b x : list Xops) : Prop :=
  exists (a : nat -> nat -> R) (b' x' : list R),
    (forall i j, (i < m_rows A)%nat -> (j < m_cols A)%nat -> m_at A i j = Fin (a i j)) /\
    b = map Fin b' /\ x = map Fin x' /\ length b' = m_rows A /\ length x' = m_cols A /\
    forall i, (i < m_rows A)%nat ->
      fold_right Rplus 0 (map (fun j => a i j * nth j x' 0) (seq 0 (m_cols A))) = nth i b' 0.

(** ** Continuation runs *)
From Coq Require Import String ZArith.
From Verif Require Import PyDict Newton ArcLength.

(** k iterations of a corrector loop lead from st to st'; each found a residual norm above 1e-6. *)
Inductive iterations (body : corrector) : nat -> arc_state -> arc_state -> Prop :=
  | it_none st : iterations body 0 st st
  | it_more k st r st1 st' : body st = Ok (r, st1) -> xgtb r (Fin (/ 10 ^ 6)) = true ->
      iterations body k st1 st' -> iterations body (S k) st st'.

(** The numeric option k of cfg is x, or it is absent and x is the default. *)
Definition number_option {O} (cfg : dict O) (k : string) (default x : xr) : Prop :=
  match lookup cfg k with
  | None => x = default
  | Some v => v = VNum x \/ exists z, v = VInt z /\ x = Fin (IZR z)
  end.
(** The same for a number of steps (an int; negative means no step). *)
Definition steps_option {O} (cfg : dict O) (k : string) (default n : nat) : Prop :=
  match lookup cfg k with
  | None => n = default
  | Some v => exists z, v = VInt z /\ n = Z.to_nat z
  end.

(** The point (u, lam) before record i: record i - 1, or the start (0, 0). *)
Definition point_before (size : nat) (h : list arc_record) (i : nat) : list Xops * xr :=
  match i with
  | 0%nat => (repeat (Fin 0) size, Fin 0)
  | S i => let r := nth i h (mkRecord 0 NaN []) in (r_u r, r_lam r)
  end.

(** A history of a continuation with at most N steps, started from zero: records numbered in order,
    only the last may have lam >= 1, stopped early only for that reason, and each record on the arc of
    radius [radius i] around the one before. *)
Record good_history (size N : nat) (psi : xr) (radius : nat -> xr) (load : list Xops) (h : list arc_record) : Prop := {
  gh_length : (List.length h <= N)%nat;
  gh_steps : map r_step h = seq 0 (List.length h);
  gh_below : forall i, (S i < List.length h)%nat -> xgeb (r_lam (nth i h (mkRecord 0 NaN []))) (Fin 1) = false;
  gh_early : (List.length h < N)%nat -> xgeb (snd (point_before size h (List.length h))) (Fin 1) = true;
  gh_arc : forall i, (i < List.length h)%nat ->
    let before := point_before size h i in let after := point_before size h (S i) in
    finite_on_arc psi (radius i) load (fst before) (snd before) (fst after) (snd after)
}.

(** opts are the Newton options of the final polish: those of cfg['newton'], with the given initial
    guess, and with cfg['linear'] as linear options if that is truthy. *)
Definition polish_for {O} (cfg : dict O) (guess : O) (opts : dict O) : Prop :=
  exists d, (lookup cfg "newton" = None /\ d = [] \/ lookup cfg "newton" = Some (VDict d)) /\
    lookup opts "initial_guess" = Some (VObj guess) /\
    lookup opts "linear" = (match lookup cfg "linear" with
                            | Some l => if truthy l then Some l else lookup d "linear"
                            | None => lookup d "linear"
                            end) /\
    forall k, k <> "initial_guess"%string -> k <> "linear"%string -> lookup opts k = lookup d k.

(** The reported lam is that of the last point; the solution is the last point itself if lam < 1 there,
    and what Newton returns from it otherwise. *)
Definition ends_with {O V} (obj_of_sol : list (list (list Xops)) -> O) (p : problem Xops V)
    (newton : dict O -> outcome (@newton_out O)) (cfg : dict O) (out : @arc_out O) : Prop :=
  let info := ao_info out in
  let pt := point_before (num_total_dofs_all_vars p) (i_history info) (List.length (i_history info)) in
  i_lam info = snd pt /\ i_polished info = xgeb (i_lam info) (Fin 1) /\
  (i_polished info = false -> ao_sol out = unravel (sol_shapes p) (fst pt)) /\
  (i_polished info = true -> exists opts pol, polish_for cfg (obj_of_sol (unravel (sol_shapes p) (fst pt))) opts /\
     newton opts = Done (Ok pol) /\ ao_sol out = out_sol pol).
