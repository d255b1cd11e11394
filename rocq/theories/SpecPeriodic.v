(** Vocabulary for C70. *)
From Coq Require Import List Arith.
From Verif Require Import Num LinSolve Periodic.
Import ListNotations.

Section Spec.
  Context {X : Type} {K : ops}.
  Variables (near : list X -> list X -> bool) (info : periodic_info X) (pts : list (list X)) (vec : nat).
  (** The i-th condition ties component c of node nA of side A to the same component of node nB of side B. *)
  Definition tied (i nA nB c : nat) : Prop :=
    exists fA fB m, nth_error (pb_locs_A info) i = Some fA /\ nth_error (pb_locs_B info) i = Some fB /\
      nth_error (pb_mappings info) i = Some m /\ nth_error (pb_vecs info) i = Some c /\
      nA < length pts /\ nB < length pts /\ fA (nth nA pts []) = true /\ fB (nth nB pts []) = true /\
      near (m (nth nA pts [])) (nth nB pts []) = true.
  (** number of component c of node n *)
  Definition dof (n c : nat) : nat := n * vec + c.
  (** A field (flat, component by component) that satisfies every condition *)
  Definition periodic_field {T} (x : list T) : Prop :=
    forall i nA nB c, tied i nA nB c -> nth_error x (dof nA c) = nth_error x (dof nB c).
  (** No dof is on side B of two conditions, or tied to two nodes. *)
  Definition distinct_slaves : Prop :=
    forall i nA nB c i' nA' nB' c', tied i nA nB c -> tied i' nA' nB' c' -> dof nB c = dof nB' c' -> i = i' /\ nA = nA'.
  (** Every node of side A of every condition has exactly one partner. *)
  Definition matched : Prop :=
    forall i fA nA, nth_error (pb_locs_A info) i = Some fA -> nA < length pts -> fA (nth nA pts []) = true ->
      exists nB c, tied i nA nB c /\ forall nB' c', tied i nA nB' c' -> nB' = nB.
  (** There is a condition, and each has both sides, a mapping and a component. *)
  Definition complete : Prop := pb_locs_A info <> [] /\ forall i, i < length (pb_locs_A info) -> exists fB m c,
    nth_error (pb_locs_B info) i = Some fB /\ nth_error (pb_mappings info) i = Some m /\ nth_error (pb_vecs info) i = Some c /\ c < vec.
  (** No dof is on side A of one condition and on side B of another one (or the same). *)
  Definition no_chain : Prop := forall i nA nB c i' nA' nB' c', tied i nA nB c -> tied i' nA' nB' c' -> dof nA c <> dof nB' c'.
  (** u = P y *)
  Definition product (P : mat K) (y u : list K) : Prop :=
    length y = m_cols P /\ length u = m_rows P /\
    forall i, i < m_rows P -> nth i u zero = sum_n (m_cols P) (fun j => mul (m_at P i j) (nth j y zero)).
End Spec.
