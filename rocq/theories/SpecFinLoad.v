(** Vocabulary for C110. *)
From Coq Require Import Reals List Arith Bool.
From Verif Require Import Num Fe SpecBc SpecVolume.
Import ListNotations.
Local Open Scope R_scope.

(** within the tolerance of 10 and of 1/4 *)
Definition near10 (x : R) : Prop := Rabs (x - 10) <= 11 / 10 ^ 5.
Definition near_quarter (x : R) : Prop := Rabs (x - 1 / 4) <= 5 / 4 / 10 ^ 5.
(** distance to the nearest of the four lines x = 0, x = 10, y = 0, y = 10 *)
Definition wall_distance (x y d : R) : Prop :=
  (d = Rabs x \/ d = Rabs (10 - x) \/ d = Rabs y \/ d = Rabs (10 - y)) /\ d <= Rabs x /\ d <= Rabs (10 - x) /\ d <= Rabs y /\ d <= Rabs (10 - y).
(** the field moves every point p to Q p + a *)
Definition moves (pts u : list (list Rops)) (Q : nat -> nat -> R) (a : nat -> R) : Prop :=
  forall n k, (n < length pts)%nat -> (k < 3)%nat -> let p := nth n pts [] in
  nth k (nth n u []) 0 = Q k 0%nat * nth 0 p 0 + Q k 1%nat * nth 1 p 0 + Q k 2%nat * nth 2 p 0 + a k - nth k p 0.
Definition diag3 (x y z : R) (i j : nat) : R := if (i =? j)%nat then match i with 0%nat => x | 1%nat => y | _ => z end else 0.
(** what the variable of the single cell prescribes when the top is moved by s *)
Definition cell_held (f f' : fe Rops) (s : R) : Prop := forall n, (n < length (points f))%nat -> let x k := nth k (nth n (points f) []) 0 in
  let origin := near0 (x 0%nat) /\ near0 (x 1%nat) /\ near0 (x 2%nat) in let corner := near1 (x 0%nat) /\ near0 (x 1%nat) /\ near0 (x 2%nat) in
  (origin -> prescribed f' n 0 = Some 0) /\ (~ origin -> prescribed f' n 0 = None) /\
  (origin \/ corner -> prescribed f' n 1 = Some 0) /\ (~ origin -> ~ corner -> prescribed f' n 1 = None) /\
  (near0 (x 2%nat) -> prescribed f' n 2 = Some 0) /\ (near1 (x 2%nat) -> prescribed f' n 2 = Some s) /\ (~ near0 (x 2%nat) -> ~ near1 (x 2%nat) -> prescribed f' n 2 = None) /\
  (forall k, (3 <= k)%nat -> prescribed f' n k = None).
(** what the variable of the plate prescribes at the scale s *)
Definition plate_held (f f' : fe Rops) (s : R) : Prop := forall n, (n < length (points f))%nat -> let x k := nth k (nth n (points f) []) 0 in
  let wall := near0 (x 0%nat) \/ near10 (x 0%nat) \/ near0 (x 1%nat) \/ near10 (x 1%nat) in
  (wall -> prescribed f' n 0 = Some 0 /\ prescribed f' n 1 = Some 0) /\ (~ wall -> prescribed f' n 0 = None /\ prescribed f' n 1 = None) /\
  (near_quarter (x 2%nat) -> forall d, wall_distance (x 0%nat) (x 1%nat) d -> prescribed f' n 2 = Some (- s * 10 * (d / 5 + / 10 ^ 10))) /\
  (wall -> ~ near_quarter (x 2%nat) -> prescribed f' n 2 = Some 0) /\ (~ wall -> ~ near_quarter (x 2%nat) -> prescribed f' n 2 = None).
