(** C110: the load programs of the finite plasticity examples. *)
From Coq Require Import Reals String List Arith Lia Lra Bool.
From Verif Require Import Num Arr Fe Problem SpecBc SpecVolume FinLoad SpecFinLoad FinLoadMain.
Import ListNotations.
Local Open Scope R_scope.

(** The scales of the single cell go up from 0 to 0.01 in ten steps and come back over the same values. *)
Theorem C110_cell_scales : length sc_scales = 22%nat /\ (forall i, (i < 11)%nat -> nth i sc_scales 0 = INR i / 1000) /\ forall i, (i < 22)%nat -> nth i sc_scales 0 = nth (21 - i) sc_scales 0.
Proof. exact cell_scales. Qed.
Print Assumptions C110_cell_scales.
(** Those of the plate go up from 0 to 0.2 in four steps and come back. *)
Theorem C110_plate_scales : length tp_scales = 10%nat /\ (forall i, (i < 5)%nat -> nth i tp_scales 0 = INR i / 20) /\ forall i, (i < 10)%nat -> nth i tp_scales 0 = nth (9 - i) tp_scales 0.
Proof. exact plate_scales. Qed.
Print Assumptions C110_plate_scales.
(** For every mesh, every initial scale and every list of scales: the loop never fails, keeps the mesh, and the variable of step i prescribes exactly the conditions of scale i. *)
Theorem C110_cell : forall (f : fe Rops) s0 ss, exists fs, load_steps sc_value f (sc_info s0) ss = Ok fs /\ length fs = length ss /\
  forall i, (i < length ss)%nat -> same_mesh f (nth i fs f) /\ cell_held f (nth i fs f) (nth i ss 0).
Proof. exact cell_program. Qed.
Print Assumptions C110_cell.
Theorem C110_plate : forall (f : fe Rops) s0 ss, exists fs, load_steps tp_value f (tp_info s0) ss = Ok fs /\ length fs = length ss /\
  forall i, (i < length ss)%nat -> same_mesh f (nth i fs f) /\ plate_held f (nth i fs f) (nth i ss 0).
Proof. exact plate_program. Qed.
Print Assumptions C110_plate.
(** On the plate the distance that the indentation follows is between 0 at the walls only and 5 at the centre only. *)
Theorem C110_profile : forall x y, 0 <= x <= 10 -> 0 <= y <= 10 -> exists d, wall_distance x y d /\ (forall e, wall_distance x y e -> e = d) /\
  0 <= d <= 5 /\ (d = 0 <-> x = 0 \/ x = 10 \/ y = 0 \/ y = 10) /\ (d = 5 <-> x = 5 /\ y = 5).
Proof. intros x y Hx Hy. eexists. split; [apply distance_of|]. split; [intros e He; exact (distance_unique _ _ _ _ He (distance_of x y))|]. exact (profile x y _ Hx Hy (distance_of x y)). Qed.
Print Assumptions C110_profile.
(** False that the walls are held: on the top edge the later condition wins, and its value is not zero there. *)
Theorem C110_edge_refuted : ~ (forall (f : fe Rops) s0 ss fs i n, load_steps tp_value f (tp_info s0) ss = Ok fs -> (i < length ss)%nat -> (n < length (points f))%nat -> nth 0 (nth n (points f) []) 0 = 0 -> prescribed (nth i fs f) n 2 = Some 0).
Proof. exact edge_moves. Qed.
Print Assumptions C110_edge_refuted.
(** The value there: for every mesh and every scale. *)
Theorem C110_edge : forall (f f' : fe Rops) s n, plate_held f f' s -> (n < length (points f))%nat -> let x k := nth k (nth n (points f) []) 0 in
  near_quarter (x 2%nat) -> 0 <= x 0%nat <= 10 -> 0 <= x 1%nat <= 10 -> x 0%nat = 0 \/ x 0%nat = 10 \/ x 1%nat = 0 \/ x 1%nat = 10 -> prescribed f' n 2 = Some (- s / 10 ^ 9).
Proof. exact edge_value. Qed.
Print Assumptions C110_edge.
(** The unloaded cell: a rigid motion that obeys the conditions keeps the origin and is the identity or changes the sign of x or of y. *)
Theorem C110_rigid : forall (f f' : fe Rops) u Q a, In [0; 0; 0] (points f) -> In [1; 0; 0] (points f) -> In [0; 1; 0] (points f) -> In [0; 0; 1] (points f) ->
  same_mesh f f' -> cell_held f f' 0 -> moves (points f) u Q a -> obeys f' u -> orthonormal 3 Q ->
  (forall k, (k < 3)%nat -> a k = 0) /\ exists s t, (s = 1 \/ s = -1) /\ (t = 1 \/ t = -1) /\ forall i j, (i < 3)%nat -> (j < 3)%nat -> Q i j = diag3 s t 1 i j.
Proof. exact rigid_two. Qed.
Print Assumptions C110_rigid.
(** These do obey them on a cell whose nodes are corners, so the half turn about z is not excluded by the conditions. *)
Theorem C110_half_turn : forall (f f' : fe Rops) u s t, (forall p k, In p (points f) -> (k < 3)%nat -> nth k p 0 = 0 \/ nth k p 0 = 1) -> same_mesh f f' -> cell_held f f' 0 ->
  moves (points f) u (diag3 s t 1) (fun _ => 0) -> obeys f' u.
Proof. exact signs_obey. Qed.
Print Assumptions C110_half_turn.
(** Small rigid motions (identity plus a skew matrix) are excluded altogether. *)
Theorem C110_small : forall (f f' : fe Rops) u Q a, In [0; 0; 0] (points f) -> In [1; 0; 0] (points f) -> In [0; 1; 0] (points f) -> In [0; 0; 1] (points f) ->
  same_mesh f f' -> cell_held f f' 0 -> moves (points f) u Q a -> obeys f' u ->
  (forall i j, (i < 3)%nat -> (j < 3)%nat -> Q i j + Q j i = 2 * (if (i =? j)%nat then 1 else 0)) -> forall n k, (n < length (points f))%nat -> (k < 3)%nat -> nth k (nth n u []) 0 = 0.
Proof. exact rigid_small. Qed.
Print Assumptions C110_small.
(** The same conditions at a positive scale admit no rigid motion. *)
Theorem C110_stretch : forall (f f' : fe Rops) u Q a s, 0 < s -> In [0; 0; 0] (points f) -> In [0; 0; 1] (points f) ->
  same_mesh f f' -> cell_held f f' s -> moves (points f) u Q a -> obeys f' u -> ~ orthonormal 3 Q.
Proof. exact rigid_stretch. Qed.
Print Assumptions C110_stretch.

(** The hypotheses are met: the unloaded cell with its eight corners, the identity and the half turn; and the same cell stretched. *)
Definition corners : list (list Rops) := [[0; 0; 0]; [1; 0; 0]; [0; 1; 0]; [1; 1; 0]; [0; 0; 1]; [1; 0; 1]; [0; 1; 1]; [1; 1; 1]].
Definition turned (s t : R) : list (list Rops) := map (fun p => [(s - 1) * nth 0 p 0; (t - 1) * nth 1 p 0; 0]) corners.
Example C110_rigid_met : exists f', same_mesh (nodes_fe corners) f' /\ cell_held (nodes_fe corners) f' 0 /\ moves corners (turned (-1) (-1)) (diag3 (-1) (-1) 1) (fun _ => 0) /\
  obeys f' (turned (-1) (-1)) /\ orthonormal 3 (diag3 (-1) (-1) 1).
Proof.
  destruct (cell_program (nodes_fe corners) 0 [0]) as (fs & _ & _ & H). destruct (H 0%nat ltac:(cbn; lia)) as (SM & CH). exists (nth 0 fs (nodes_fe corners)). cbn [nth] in CH.
  assert (MV : moves corners (turned (-1) (-1)) (diag3 (-1) (-1) 1) (fun _ => 0)).
  { intros n k Hn Hk. cbn in Hn. do 8 (destruct n as [|n]; [destruct k as [|[|[|k]]]; [| | |lia]; cbn; unfold diag3; cbn; ring|]). lia. }
  split; [exact SM|]. split; [exact CH|]. split; [exact MV|]. split.
  - refine (signs_obey _ _ _ (-1) (-1) _ SM CH MV). intros p k Hp Hk. cbn in Hp. destruct k as [|[|[|k]]]; [| | |lia]; repeat (destruct Hp as [<-|Hp]; [cbn; tauto|]); contradiction.
  - intros i j Hi Hj. destruct i as [|[|[|i]]], j as [|[|[|j]]]; try lia; unfold sum_n, sum_over, diag3; cbn; lra.
Qed.
