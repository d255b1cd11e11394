(** Vocabulary for the Newton properties (C28-C30). *)
From Coq Require Import String List Arith Bool Reals.
From Verif Require Import Num Arr Fe Problem SolverBc XNum PyDict LinSolve.
Import ListNotations.

Section Spec.
  Context {V : Type}.
  (** The full dof vector of a solver state: the state itself, or P_mat times it. *)
  Definition full_dofs (P : option pmat) (d : list Xops) (u : list Xops) : Prop :=
    match P with
    | None => u = d
    | Some P => length d = m_cols P /\ length u = m_rows P /\
        forall i, i < m_rows P -> nth i u zero = sum_n (m_cols P) (fun j => mul (m_at P i j) (nth j d zero))
    end.
  (** The vector whose norm Newton drives to zero at state d: the residual of the problem with
      the boundary conditions applied, multiplied by the transpose of P_mat if there is one. *)
  Definition newton_residual (p : problem Xops V) (pts : list (list (list Xops))) (P : option pmat)
      (d r : list Xops) : Prop :=
    exists u res, full_dofs P d u /\ length u = num_total_dofs_all_vars p /\
      compute_residual xsqrt p pts (unravel (sol_shapes p) u) = Ok res /\
      let rb := apply_bc_vec (ravel res) u p one in
      match P with
      | None => r = rb
      | Some P => length rb = m_rows P /\ length r = m_cols P /\
          forall j, j < m_cols P -> nth j r zero = sum_n (m_rows P) (fun i => mul (m_at P i j) (nth i rb zero))
      end.
  (** The Newton option k of cfg has the value x, or is absent and x is the default. *)
  Definition option_value {O} (cfg : dict O) (k : string) (default x : R) : Prop :=
    match lookup cfg k with
    | None => x = default
    | Some v => v = VNum (Fin x) \/ exists z, v = VInt z /\ x = IZR z
    end.
  (** The state Newton starts from: the initial guess, or zeros (of the reduced size if P_mat is set). *)
  Definition starts_from {O} (ravel_obj : O -> list Xops) (p : problem Xops V) (P : option pmat)
      (cfg : dict O) (d : list Xops) : Prop :=
    match lookup cfg "initial_guess" with
    | Some v => exists o, v = VObj o /\ d = ravel_obj o
    | None => d = repeat (Fin 0) (match P with None => num_total_dofs_all_vars p | Some P => m_cols P end)
    end.
End Spec.
