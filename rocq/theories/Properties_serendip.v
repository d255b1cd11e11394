(** C114. The cube of 20-node elements of applications/serendipity: moving to the origin, held values, stress. *)
From Coq Require Import Reals String List Arith Lia Lra Bool.
From Verif Require Import Num Fe SpecBc BcFacts Serendip SpecSerendip SerendipMain.
Import ListNotations.
Local Open Scope R_scope.

(** The mesh is moved as a whole so that the least coordinate along each axis is zero; an empty mesh raises. *)
Theorem C114_origin : forall pts, in_space pts -> (pts = [] -> shifted pts = Err ValueErr) /\ (pts <> [] -> exists a, (forall k, (k < 3)%nat -> least pts k (a k)) /\ exists pts', shifted pts = Ok pts' /\ length pts' = length pts /\
  in_space pts' /\ (forall n k, (n < length pts)%nat -> (k < 3)%nat -> coord pts' n k = coord pts n k - a k) /\ forall k, (k < 3)%nat -> least pts' k 0).
Proof. exact origin_main. Qed.
Print Assumptions C114_origin.

(** Where the mesh file places the cube does not matter: every translation gives the same variable. *)
Theorem C114_moved : forall quad fquad normals a pts cls, in_space pts -> sd_variable quad fquad normals (moved_by a pts) cls = sd_variable quad fquad normals pts cls.
Proof. exact moved_variable. Qed.
Print Assumptions C114_moved.

(** The nodes at the greatest x are moved by a tenth of the extent and held across, those at the least x are held, all others are free; the far end wins where both tolerances meet. *)
Theorem C114_held : forall quad fquad normals pts cls, in_space pts -> pts <> [] -> exists f Lx, sd_variable quad fquad normals pts cls = Ok f /\ length (points f) = length pts /\ 0 <= Lx /\ greatest (points f) 0 Lx /\ least (points f) 0 0 /\ bc_ok f /\
  forall n k, (n < length (points f))%nat -> (k < 3)%nat -> let x := coord (points f) n 0 in
    (Rabs (x - Lx) <= / 10 ^ 5 + / 10 ^ 5 * Lx -> prescribed f n k = Some (match k with 0%nat => 1 / 10 * Lx | _ => 0 end)) /\
    (~ Rabs (x - Lx) <= / 10 ^ 5 + / 10 ^ 5 * Lx -> Rabs x <= / 10 ^ 5 -> prescribed f n k = Some 0) /\
    (~ Rabs (x - Lx) <= / 10 ^ 5 + / 10 ^ 5 * Lx -> ~ Rabs x <= / 10 ^ 5 -> prescribed f n k = None).
Proof. exact held_main. Qed.
Print Assumptions C114_held.

(** So some node is always moved by a tenth of the extent, and a cube longer than the tolerance has a node held at zero. *)
Theorem C114_ends : forall quad fquad normals pts cls f, in_space pts -> sd_variable quad fquad normals pts cls = Ok f -> exists Lx, greatest (points f) 0 Lx /\
  (exists n, (n < length (points f))%nat /\ prescribed f n 0 = Some (1 / 10 * Lx)) /\ (/ 10 ^ 4 <= Lx -> exists n, (n < length (points f))%nat /\ forall k, (k < 3)%nat -> prescribed f n k = Some 0).
Proof. exact ends_held. Qed.
Print Assumptions C114_ends.

(** Hooke's law with E = 70000 and nu = 0.3, as Lame constants. *)
Theorem C114_stress : forall G i j, (i < 3)%nat -> (j < 3)%nat ->
  sd_stress G i j = 525 * 10 ^ 3 / 13 * (G 0%nat 0%nat + G 1%nat 1%nat + G 2%nat 2%nat) * (if (i =? j)%nat then 1 else 0) + 350 * 10 ^ 3 / 13 * (G i j + G j i).
Proof. exact stress_main. Qed.
Print Assumptions C114_stress.

(** Hypotheses met: the corners of a box away from the origin; both ends are longer than the tolerance apart. *)
Example C114_met : let pts := [[1; 2; 3]; [3; 2; 3]; [3; 4; 3]; [1; 4; 3]; [1; 2; 5]; [3; 2; 5]; [3; 4; 5]; [1; 4; 5]] : list (list Rops) in
  in_space pts /\ pts <> [] /\ moved_by (fun _ => 1) pts <> pts /\ forall quad fquad normals cls, exists f, sd_variable quad fquad normals pts cls = Ok f /\ length (points f) = 8%nat.
Proof. exact serendip_met. Qed.
Print Assumptions C114_met.
