(** Vocabulary for C104: the mesh points as parameters. *)
From Coq Require Import String List Arith Bool Reals.
From Verif Require Import Num Arr Fe Problem SpecFe SpecAssembly SpecBc SpecLinear SpecPosed.
Import ListNotations.
Local Open Scope R_scope.

(** Both arrays of points have as many nodes, every location function tells the same of each node of both, and every value function
    has the same value at the nodes it is asked for. *)
Definition same_boundaries (dir : option (list (location_fn Rops) * list nat * list (list Rops -> Rops))) (locs : option (list (location_fn Rops))) (pts pts' : list (list Rops)) : Prop :=
  length pts' = length pts /\
  (forall ls vs ws, dir = Some (ls, vs, ws) ->
     (forall l n, In l ls -> (n < length pts)%nat -> loc_holds l (nth n pts' []) n = loc_holds l (nth n pts []) n) /\
     (forall i n l w, nth_error ls i = Some l -> nth_error ws i = Some w -> (n < length pts)%nat -> loc_holds l (nth n pts []) n = true -> w (nth n pts' []) = w (nth n pts []))) /\
  (forall ls l n, locs = Some ls -> In l ls -> (n < length pts)%nat -> loc_holds l (nth n pts' []) n = loc_holds l (nth n pts []) n).
(** every node of every cell exists *)
Definition cells_valid (cls : list (list nat)) (pts : list (list Rops)) : Prop := forall c n, In c cls -> In n c -> (n < length pts)%nat.

(** A solver that returns, for the problems of the application, solutions only, of the problem on its own points. *)
Definition exact_solver (make : list (list Rops) -> result (problem Rops unit)) (solver : problem Rops unit -> result (list (list (list Rops)))) : Prop :=
  forall pts p sol, make pts = Ok p -> solver p = Ok sol -> solves p [pts] sol.
(** A rule for the square with positive weights, on points of the unit square, enough of them to see every field. *)
Definition good_rule (quad : list (list Rops) * list Rops) : Prop :=
  full_grid 2 (fst quad) /\ forall q, (q < length (fst quad))%nat -> 0 <= nth 0 (nth q (fst quad) []) 0 <= 1 /\ 0 < nth q (snd quad) 0.
(** the sum of the squares of the values of the field x at the n nodes *)
Definition sum_of_squares (n : nat) (x : list (list Rops)) : R := sum_n (K := Rops) n (fun a => get2 (@zero Rops) x a 0 * get2 (@zero Rops) x a 0).
(** l is the limit of F(e) as e tends to 0, e > 0 *)
Definition tends_to (F : R -> R) (l : R) : Prop := forall d, 0 < d -> exists r, 0 < r /\ forall e, 0 < e < r -> Rabs (F e - l) < d.
