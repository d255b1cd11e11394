(** Vocabulary for C79; [solved] is that of SpecWave. *)
From Coq Require Import List Arith Bool Reals.
From Verif Require Import Num Arr Fe Problem SpecAssembly SpecBc SpecEnergy Elastic SpecElastic.
Import ListNotations.
Local Open Scope R_scope.

(** No motion is free: a field that is zero where values are prescribed and has no strain at any quadrature point is zero at every node. *)
Definition no_free_motion {V : Type} (p : problem Rops V) (f : fe Rops) (P : list (list Rops)) : Prop :=
  forall d, sol_ok p [d] ->
    (forall n k b, (n < length (points f))%nat -> (k < vec f)%nat -> prescribed f n k = Some b -> get2 (@zero Rops) d n k = 0) ->
    (forall e q i j, (e < p_num_cells p)%nat -> (q < num_quads f)%nat -> (i < dim f)%nat -> (j < dim f)%nat -> strain (sol_to_grad P f d e q) i j = 0) ->
    forall n k, (n < length (points f))%nat -> (k < vec f)%nat -> get2 (@zero Rops) d n k = 0.

(** The rule has points on a grid of two lines per axis, seen along the first axis: any tensor rule with two points per axis or more. *)
Definition grid_rule (d : nat) (pts : list (list Rops)) : Prop :=
  exists a b : R, a <> b /\
    forall y z : R, (y = a \/ y = b) -> (z = a \/ z = b) ->
      exists x, In x pts /\ length x = d /\ nth 1 x (@zero Rops) = y /\ (d = 3%nat -> nth 2 x (@zero Rops) = z).

(** Every component is prescribed at every node of the plane x = 0. *)
Definition left_held (f : fe Rops) : Prop :=
  forall n k, (n < length (points f))%nat -> (k < vec f)%nat -> nth 0 (nth n (points f) []) (@zero Rops) = 0 -> exists b, prescribed f n k = Some b.
