(** C70: the matrix of periodic conditions. *)
From Coq Require Import List Arith Bool ZArith Reals.
From Verif Require Import Num XNum Arr Fe Problem LinSolve Newton Adjoint Periodic SpecPeriodic PeriodicFacts PeriodicMain Properties_adjoint.
Import ListNotations.

(** C70. The fields of the form P y are exactly the fields with equal values on tied dofs, each for one y; *)
Theorem C70_image : forall (X : Type) (K : ops), ring_laws K -> forall near (info : periodic_info X) pts vec (P : mat K),
  periodic_boundary_conditions near info pts vec = Ok P -> m_cols P <> 1 \/ distinct_slaves near info pts vec ->
  m_rows P = length pts * vec /\
  (forall x : list K, length x = m_rows P -> (exists y, product P y x) <-> periodic_field near info pts vec x) /\
  (forall x y y', product P y x -> product P y' x -> y = y').
Proof. intros X K KR near info pts vec P H D. destruct (image_iff KR near info pts vec P H D) as (A & B & C & _). exact (conj A (conj B C)). Qed.
Print Assumptions C70_image.

(** P has one column for every dof that is not on a side B; *)
Theorem C70_columns : forall (X : Type) (K : ops), ring_laws K -> forall near (info : periodic_info X) pts vec (P : mat K),
  periodic_boundary_conditions near info pts vec = Ok P -> m_cols P <> 1 \/ distinct_slaves near info pts vec ->
  forall l, NoDup l -> (forall d, In d l <-> exists i nA nB c, tied near info pts i nA nB c /\ d = dof vec nB c) ->
  m_cols P + length l = m_rows P.
Proof. intros X K KR near info pts vec P H D. destruct (image_iff KR near info pts vec P H D) as (_ & _ & _ & _ & E). exact E. Qed.
Print Assumptions C70_columns.

(** chains of conditions are refused: no dof is on side A of a condition and on side B of another (so a cell with
    conditions on two pairs of opposite sides is refused as soon as its corner nodes belong to both); *)
Theorem C70_chains : forall (X : Type) (K : ops), ring_laws K -> forall near (info : periodic_info X) pts vec (P : mat K),
  periodic_boundary_conditions near info pts vec = Ok P -> m_cols P <> 1 \/ distinct_slaves near info pts vec ->
  no_chain near info pts vec.
Proof. intros X K KR near info pts vec P H D. destruct (image_iff KR near info pts vec P H D) as (_ & _ & _ & E & _). exact E. Qed.
Print Assumptions C70_chains.

(** every other set of conditions is accepted. *)
Theorem C70_accepts : forall (X : Type) (K : ops) near (info : periodic_info X) pts vec,
  complete info vec -> matched near info pts -> distinct_slaves near info pts vec -> no_chain near info pts vec ->
  exists P : mat K, periodic_boundary_conditions near info pts vec = Ok P.
Proof. intros X K near info pts vec H1 H2 H3 H4. exact (pbc_accepts near info pts vec H1 H2 H3 H4). Qed.
Print Assumptions C70_accepts.

(** A node of side A without partner, or with two, is refused. *)
Theorem C70_matched : forall (X : Type) (K : ops) near (info : periodic_info X) pts vec (P : mat K),
  periodic_boundary_conditions near info pts vec = Ok P -> matched near info pts.
Proof. intros X K near info pts vec P H. exact (pbc_matched near info pts vec P H). Qed.
Print Assumptions C70_matched.

(** Whatever the conditions, a solution returned by the Newton solver with the matrix has equal values on tied dofs. *)
Theorem C70_solution : forall (X O V : Type) near (info : periodic_info X) mesh_pts vec (P : pmat) (ravel_obj : O -> list Xops) (B : backends O) jvp (p : problem Xops V) pts fuel cfg out,
  periodic_boundary_conditions near info mesh_pts vec = Ok P ->
  solve_newton ravel_obj B jvp p pts (Some P) fuel cfg = Done (Ok out) ->
  forall i nA nB c, tied near info mesh_pts i nA nB c -> (dof vec nA c < length mesh_pts * vec) ->
    nth (dof vec nA c) (ravel (out_sol out)) zero = nth (dof vec nB c) (ravel (out_sol out)) zero.
Proof.
  intros X O V near info mesh_pts vec P ravel_obj B jvp p pts fuel cfg out HP HS i nA nB c HT LA.
  destruct (pbc_rows near info mesh_pts vec X_unit P HP) as [R H]. destruct (H i nA nB c HT) as [LB E].
  apply (C36_equal_rows _ _ _ _ _ _ _ _ _ _ _ HS); try (rewrite R; assumption). intros j _. exact (E LA j).
Qed.
Print Assumptions C70_solution.

(** If one column is left and a dof is listed on side B more than once, numpy's broadcasting makes the call succeed, and fields
    with equal values on tied dofs are lost: three nodes, node 2 tied to node 0 by two equal conditions. *)
Theorem C70_repeated_refuted : exists near (info : periodic_info Z) pts (P : mat Zops) (x : list Zops),
  periodic_boundary_conditions near info pts 1 = Ok P /\ length x = m_rows P /\ periodic_field near info pts 1 x /\ ~ exists y, product P y x.
Proof. exact repeated_lost. Qed.
Print Assumptions C70_repeated_refuted.

(** A strip of six nodes (0,0) .. (2,1), two components; the nodes of x = 2 follow those of x = 0 in both components. *)
Definition strip : list (list Z) := [[0;0]; [1;0]; [2;0]; [0;1]; [1;1]; [2;1]]%Z.
Definition same_point (a b : list Z) : bool := if list_eq_dec Z.eq_dec a b then true else false.
Definition left_right : periodic_info Z :=
  let left p := (nth 0 p 0 =? 0)%Z in let right p := (nth 0 p 0 =? 2)%Z in let shift p := [nth 0 p 0 + 2; nth 1 p 0]%Z in
  mkPeriodic [left; left] [right; right] [shift; shift] [0; 1].
Example C70_strip : match periodic_boundary_conditions (K := Zops) same_point left_right strip 2 with
  | Ok P => (m_rows P, m_cols P, [m_at P (dof 2 5 1) 5; m_at P (dof 2 3 1) 5; m_at P (dof 2 3 0) 5]) = (12, 8, [1; 1; 0]%Z)
  | Err _ => False end /\ tied same_point left_right strip 1 3 5 1.
Proof.
  split; [vm_compute; reflexivity|]. eexists _, _, _. repeat split; cbn; repeat constructor.
Qed.
(** Conditions in both directions on a square of four nodes: refused. *)
Example C70_corner : periodic_boundary_conditions (K := Zops) same_point
  (mkPeriodic [fun p => nth 0 p 0 =? 0; fun p => nth 1 p 0 =? 0]%Z [fun p => nth 0 p 0 =? 1; fun p => nth 1 p 0 =? 1]%Z
     [fun p => [nth 0 p 0 + 1; nth 1 p 0]; fun p => [nth 0 p 0; nth 1 p 0 + 1]]%Z [0; 0]) [[0;0]; [1;0]; [0;1]; [1;1]]%Z 1 = Err ValueErr.
Proof. reflexivity. Qed.
