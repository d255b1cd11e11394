(** C107: the analytical demonstration of the arc length method. *)
From Coq Require Import Reals List Arith Lia Lra Psatz Bool.
From Verif Require Import ArcDemo SpecArcDemo ArcDemoMain ArcDemoRun.
Import ListNotations.
Local Open Scope R_scope.

(** A pass gives the point of the circle and of the tangent with the greatest load; what is left is the square of the displacement of the pass. *)
Theorem C107_pass : forall Dl u0 l0 q u l u' l', arc_pass Dl u0 l0 q u l = Some (u', l') ->
  on_circle Dl u0 l0 q u' l' /\ on_tangent q u u' l' /\ out_of_balance q u' l' = - ((u' - u) * (u' - u)) /\ (forall x y, on_circle Dl u0 l0 q x y -> on_tangent q u x y -> y <= l').
Proof. exact pass_some. Qed.
Print Assumptions C107_pass.
(** It is nan exactly when the slope or the load vector is zero or the tangent misses the circle. *)
Theorem C107_nan : forall Dl u0 l0 q u l, arc_pass Dl u0 l0 q u l = None <-> 1 - 2 * u = 0 \/ q = 0 \/ forall x y, on_tangent q u x y -> ~ on_circle Dl u0 l0 q x y.
Proof. exact pass_nan. Qed.
Print Assumptions C107_nan.
(** What the solver returns. *)
Theorem C107_exit : forall fuel Dl u0 l0 q u' l', arc_length_solver fuel Dl u0 l0 q = Some (Some (u', l')) ->
  on_circle Dl u0 l0 q u' l' /\ exists x y, Rabs (out_of_balance q x y) <= / 10 ^ 6 /\ on_tangent q x u' l' /\ out_of_balance q u' l' = - ((u' - x) * (u' - x)).
Proof. exact solver_exit. Qed.
Print Assumptions C107_exit.
(** The fuel of the model does not influence a result. *)
Theorem C107_fuel : forall fuel k Dl u0 l0 q o, arc_length_solver fuel Dl u0 l0 q = Some o -> arc_length_solver (fuel + k) Dl u0 l0 q = Some o.
Proof. intros fuel k Dl u0 l0 q o. apply loop_more. Qed.
Print Assumptions C107_fuel.
(** All steps: n + 1 points, each at distance Delta_l from the one before, up to the first nan. *)
Theorem C107_steps : forall n fuel Dl q p l, arc_steps n fuel Dl q (Some p) = Some l -> length l = S n /\ exists l', l = Some p :: l' /\ chain Dl q p l'.
Proof. intros n fuel Dl q p l H. exact (steps_chain n fuel Dl q (Some p) l H). Qed.
Print Assumptions C107_steps.
(** From a point of the curve the first pass raises the load: before the limit point 1/2 the displacement grows, behind it the displacement decreases. *)
Theorem C107_first : forall Dl u0 l0, 0 < Dl -> 1 - 2 * u0 <> 0 -> out_of_balance (-1) u0 l0 = 0 ->
  exists u' l', arc_pass Dl u0 l0 (-1) u0 l0 = Some (u', l') /\ l0 < l' /\ (u0 < 1 / 2 -> u0 < u') /\ (1 / 2 < u0 -> u' < u0).
Proof.
  intros Dl u0 l0 HD HA R. destruct (first_pass Dl (-1) u0 l0 HD ltac:(lra) HA R) as (u' & l' & E & L & T). exists u', l'. split; [exact E|]. split; [exact L|]. split; intros H; nra.
Qed.
Print Assumptions C107_first.
(** The branch behind the limit point is therefore not followed: false that a pass from the curve never goes back. *)
Theorem C107_forward_refuted : ~ (forall Dl u0 l0 u' l', 0 < Dl -> 0 <= u0 -> out_of_balance (-1) u0 l0 = 0 -> arc_pass Dl u0 l0 (-1) u0 l0 = Some (u', l') -> u0 <= u').
Proof.
  intros H. destruct (C107_first (1 / 5) (3 / 4) (3 / 16) ltac:(lra) ltac:(lra) ltac:(unfold out_of_balance, force; lra)) as (u' & l' & E & _ & _ & B). specialize (H (1 / 5) (3 / 4) (3 / 16) u' l' ltac:(lra) ltac:(lra) ltac:(unfold out_of_balance, force; lra) E). specialize (B ltac:(lra)). lra.
Qed.
Print Assumptions C107_forward_refuted.
(** The first step of the demonstration, Delta_l = 0.2 from the origin, returns after at most six passes with a point of the circle in the positive quadrant close to the curve. *)
Theorem C107_demo : exists u l, arc_length_solver 6 (/ 5) 0 0 (-1) = Some (Some (u, l)) /\ u * u + l * l = / 25 /\ 0 <= u /\ 0 <= l /\ Rabs (u - u * u - l) <= / 10 ^ 6.
Proof. destruct demo as (u & l & E & (C & U & L) & B). exists u, l. repeat split; assumption. Qed.
Print Assumptions C107_demo.
