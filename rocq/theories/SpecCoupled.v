(** Vocabulary for C82, C83: problems with two variables. *)
From Coq Require Import List Arith Bool.
From Verif Require Import Num Arr Fe Problem SpecAssembly SpecWeak SpecEnergy.
Import ListNotations.
Local Open Scope num_scope.

Section Spec.
  Context {K : ops} {V : Type}.
  (** What is known at a quadrature point: gradient and value of the first variable and of the second, internal variables. *)
  Record point_state := mkState { grad0 : nat -> nat -> K; val0 : nat -> K; grad1 : nat -> nat -> K; val1 : nat -> K; ivs : list V }.
  (** Flux and source of each of the two equations. *)
  Record coupled_form := mkForm {
    flux0 : point_state -> nat -> nat -> K; source0 : point_state -> nat -> K;
    flux1 : point_state -> nat -> nat -> K; source1 : point_state -> nat -> K }.
  (** the state of the fields u, w at quadrature point q of cell c *)
  Definition state_at (p : problem K V) (f0 f1 : fe K) (P0 P1 u w : list (list K)) (c q : nat) : point_state :=
    mkState (sol_to_grad P0 f0 u c q) (convert_from_dof_to_quad f0 u c q) (sol_to_grad P1 f1 w c q) (convert_from_dof_to_quad f1 w c q) (iv_at p c q).
  (** integral of flux0 : grad v + source0 . v + flux1 : grad z + source1 . z *)
  Definition coupled_work (p : problem K V) (f0 f1 : fe K) (P0 P1 : list (list K)) (F : coupled_form) (u w v z : list (list K)) : K :=
    over_cells p f0 P0 (fun c q => dot2 (vec f0) (dim f0) (flux0 F (state_at p f0 f1 P0 P1 u w c q)) (sol_to_grad P0 f0 v c q)
                                 + dot1 (vec f0) (source0 F (state_at p f0 f1 P0 P1 u w c q)) (convert_from_dof_to_quad f0 v c q))
    + over_cells p f1 P1 (fun c q => dot2 (vec f1) (dim f1) (flux1 F (state_at p f0 f1 P0 P1 u w c q)) (sol_to_grad P1 f1 z c q)
                                   + dot1 (vec f1) (source1 F (state_at p f0 f1 P0 P1 u w c q)) (convert_from_dof_to_quad f1 z c q)).
  (** two states with the same entries *)
  Definition same_state (m0 d0 m1 d1 : nat) (s t : point_state) : Prop :=
    (forall k j, (k < m0)%nat -> (j < d0)%nat -> grad0 s k j = grad0 t k j) /\ (forall k, (k < m0)%nat -> val0 s k = val0 t k) /\
    (forall k j, (k < m1)%nat -> (j < d1)%nat -> grad1 s k j = grad1 t k j) /\ (forall k, (k < m1)%nat -> val1 s k = val1 t k) /\ ivs s = ivs t.
  (** fluxes and sources look only at the entries of their arrays *)
  Definition form_ok (m0 d0 m1 d1 : nat) (F : coupled_form) : Prop :=
    forall s t, same_state m0 d0 m1 d1 s t ->
      (forall k j, (k < m0)%nat -> (j < d0)%nat -> flux0 F s k j = flux0 F t k j) /\ (forall k, (k < m0)%nat -> source0 F s k = source0 F t k) /\
      (forall k j, (k < m1)%nat -> (j < d1)%nat -> flux1 F s k j = flux1 F t k j) /\ (forall k, (k < m1)%nat -> source1 F s k = source1 F t k).
  (** the state s + t d *)
  Definition along_state (s d : point_state) (t : K) : point_state :=
    mkState (fun k j => grad0 s k j + t * grad0 d k j) (fun k => val0 s k + t * val0 d k)
            (fun k j => grad1 s k j + t * grad1 d k j) (fun k => val1 s k + t * val1 d k) (ivs s).
  (** Along every line the fluxes and sources of F change at the constant rate given by T. *)
  Definition form_affine (m0 d0 m1 d1 : nat) (F T : coupled_form) : Prop :=
    forall s d t, ivs s = ivs d ->
      (forall k j, (k < m0)%nat -> (j < d0)%nat -> flux0 F (along_state s d t) k j = flux0 F s k j + t * flux0 T d k j) /\
      (forall k, (k < m0)%nat -> source0 F (along_state s d t) k = source0 F s k + t * source0 T d k) /\
      (forall k j, (k < m1)%nat -> (j < d1)%nat -> flux1 F (along_state s d t) k j = flux1 F s k j + t * flux1 T d k j) /\
      (forall k, (k < m1)%nat -> source1 F (along_state s d t) k = source1 F s k + t * source1 T d k).
End Spec.
