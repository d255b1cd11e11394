(** Vocabulary for the dynamic relaxation properties (C34, C35). *)
From Coq Require Import List Arith Bool Reals.
From Verif Require Import Num Arr Fe Problem SpecAssembly SolverBc SpecBc XNum DynRelax.
Import ListNotations.

Section Spec.
  Context {V : Type}.
  (** The numbers of the constrained dofs of a problem. *)
  Definition constrained_dof (p : problem Xops V) (g : nat) : Prop :=
    exists v n j, valid_dof (global_shapes p) v n j /\ constrained (fe_of p v) n j /\
      g = dof_number (global_shapes p) v n j.
  (** u agrees with u0 at every constrained dof. *)
  Definition keeps_constrained (p : problem Xops V) (u0 u : list Xops) : Prop :=
    forall g, constrained_dof p g -> nth g u zero = nth g u0 zero.
  (** Every entry is NaN. *)
  Definition all_nan (u : list Xops) : Prop := Forall (fun x => x = NaN) u.
  (** The residual of the problem (without boundary conditions) at the dof vector u is res. *)
  Definition residual_at (p : problem Xops V) (pts : list (list (list Xops))) (u res : list Xops) : Prop :=
    length u = num_total_dofs_all_vars p /\
    exists r, compute_residual xsqrt p pts (unravel (sol_shapes p) u) = Ok r /\ res = ravel r.
  (** st' comes after st in n iterations of the loop. *)
  Inductive relaxes jvp (p : problem Xops V) pts nKMat nPrint : nat -> dr_state -> dr_state -> Prop :=
    | rx_none st : relaxes jvp p pts nKMat nPrint 0 st st
    | rx_more n st st1 st2 : relaxes jvp p pts nKMat nPrint n st st1 ->
        dr_body jvp p pts nKMat nPrint st1 = Ok st2 -> relaxes jvp p pts nKMat nPrint (S n) st st2.
End Spec.
