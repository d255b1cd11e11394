(** Vocabulary for C48-C50, C68. *)
From Coq Require Import String Ascii List Arith Bool.
From Verif Require Import Num Fe Utils.
Import ListNotations.

(** The characters of [l] from position k on are [p]. *)
Definition occurs (p l : text) (k : nat) : Prop := forall j, j < length p -> nth_error l (k + j) = nth_error p j.
(** Position i is inside an occurrence of [p] in [l]. *)
Definition covered (p l : text) (i : nat) : Prop := exists k, k <= i < k + length p /\ occurs p l k.

(** The entry of a dict for a key, and the last entry of a list of pairs with a name *)
Definition entry {V} (d : list (string * V)) (k : string) : option V :=
  match find (fun e => String.eqb (fst e) k) d with Some e => Some (snd e) | None => None end.
Definition last_named {V} (l : list (string * V)) (k : string) : option V := entry (rev l) k.
(** An optional list argument *)
Definition items {V} (o : option (list V)) : list V := match o with Some l => l | None => [] end.
(** The array has as many rows as the solution. *)
Definition good_point {X} (sol a : array X) : Prop := exists n s s', a_shape a = n :: s /\ a_shape sol = n :: s'.
