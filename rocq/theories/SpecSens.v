(** Vocabulary for C111. *)
From Coq Require Import Reals List Arith Bool.
From Verif Require Import Num Arr Fe Problem SpecBc SpecCrystal CrystalPlast SpecVolume SensStress.
Import ListNotations.
Local Open Scope R_scope.

(** f' holds the corner, slides on the bottom and moves the top by d *)
Definition pulled (f f' : fe Rops) (d : R) : Prop := forall n, (n < length (points f))%nat -> let x k := nth k (nth n (points f) []) 0 in
  let corner := near0 (x 0%nat) /\ near0 (x 1%nat) /\ near0 (x 2%nat) in
  (forall k, (k < 2)%nat -> (corner -> prescribed f' n k = Some 0) /\ (~ corner -> prescribed f' n k = None)) /\
  (near0 (x 2%nat) -> prescribed f' n 2 = Some 0) /\ (near1 (x 2%nat) -> prescribed f' n 2 = Some d) /\ (~ near0 (x 2%nat) -> ~ near1 (x 2%nat) -> prescribed f' n 2 = None) /\
  (forall k, (3 <= k)%nat -> prescribed f' n k = None).
(** the nodes that count as the corner are on the third axis *)
Definition corner_exact (f : fe Rops) : Prop := forall n, (n < length (points f))%nat -> let x k := nth k (nth n (points f) []) 0 in
  near0 (x 0%nat) -> near0 (x 1%nat) -> near0 (x 2%nat) -> x 0%nat = 0 /\ x 1%nat = 0.
(** an entry for each cell in each of the four arrays *)
Definition state_of (f : fe Rops) (ivs : list (list (nat -> cp_var))) : Prop :=
  exists a b c d, ivs = [a; b; c; d] /\ length a = num_cells f /\ length b = num_cells f /\ length c = num_cells f /\ length d = num_cells f.
(** the same state at every quadrature point *)
Definition same_state (f : fe Rops) (ivs ivs' : list (list (nat -> cp_var))) : Prop := state_of f ivs /\ state_of f ivs' /\ forall c q, (c < num_cells f)%nat -> (q < num_quads f)%nat ->
  kept_Fp ivs' c q = kept_Fp ivs c q /\ kept_g ivs' c q = kept_g ivs c q /\ kept_slip ivs' c q = kept_slip ivs c q /\ kept_rot ivs' c q = kept_rot ivs c q.
(** the deformation gradient of the solution *)
Definition deformation (P : list (list Rops)) (f : fe Rops) (u : list (list Rops)) (c q : nat) : nat -> nat -> R := fun a b => sol_to_grad P f u c q a b + (if (a =? b)%nat then 1 else 0).
(** step number k of a history *)
Definition step_at (h : list ss_step) (k : nat) : ss_step := nth k h (mkSs (mkProblem [] [] (cp_maps [] 0 (fun _ v => v) 0) [] []) [] 0 []).
(** the state before step number k *)
Definition before_at (iv0 : list (list (nat -> cp_var))) (h : list ss_step) (k : nat) : list (list (nat -> cp_var)) := nth k (iv0 :: map ss_vars h) [].
