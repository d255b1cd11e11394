(** Vocabulary for C71. *)
From Coq Require Import List Arith Bool Permutation.
From Verif Require Import Quiet.
Import ListNotations.

(** the nodes of face f of cell c *)
Definition face_nodes (cells face_inds : list (list nat)) (c f : nat) : list nat := map (fun a => nth a (nth c cells []) 0) (nth f face_inds []).
(** face f of cell c exists and its cell is active *)
Definition active_face (cells face_inds : list (list nat)) (tab : list bool) (c f : nat) : Prop :=
  c < length cells /\ f < length face_inds /\ nth c tab false = true.
(** an outer face of the active part: no other face of an active cell has the same nodes *)
Definition outer_face (cells face_inds : list (list nat)) (tab : list bool) (c f : nat) : Prop :=
  active_face cells face_inds tab c f /\
  forall c' f', active_face cells face_inds tab c' f' -> Permutation (face_nodes cells face_inds c f) (face_nodes cells face_inds c' f') -> c' = c /\ f' = f.
(** no cell becomes quiet *)
Definition grows (old new : list bool) : Prop := length new = length old /\ forall c, nth c old false = true -> nth c new false = true.
Fixpoint grow (tab : list bool) (news : list (list bool)) : Prop :=
  match news with [] => True | new :: news' => grows tab new /\ grow new news' end.
