(** Vocabulary for C09, C10: what a selection of nodes and of faces has to be. *)
From Coq Require Import List Arith Bool Sorted.
From Verif Require Import Num Fe SpecFe.
Import ListNotations.

Section Spec.
  Context {K : ops}.
  (** Group i selects exactly the nodes satisfying location function i, in increasing order, all
      with component vecs[i] and with the value of value function i at the node's point. *)
  Definition dirichlet_ok (pts : list (list K)) (locs : list (location_fn K)) (vecs : list nat)
      (values : list (list K -> K)) (ns vs : list (list nat)) (ws : list (list K)) : Prop :=
    List.length ns = List.length locs /\ List.length vs = List.length locs /\ List.length ws = List.length locs /\
    forall i, i < List.length locs ->
      (forall n, In n (nth i ns []) <->
         n < List.length pts /\ loc_holds (nth i locs (LocOther 0)) (nth n pts []) n = true) /\
      StronglySorted lt (nth i ns []) /\
      nth i vs [] = repeat (nth i vecs 0) (List.length (nth i ns [])) /\
      nth i ws [] = map (fun n => nth i values (fun _ => zero) (nth n pts [])) (nth i ns []).
  (** The value finally prescribed at (n, j): that of the last group that selects it. *)
  Definition dirichlet_value (pts : list (list K)) (locs : list (location_fn K)) (vecs : list nat)
      (values : list (list K -> K)) (n j : nat) : option K :=
    fold_left (fun acc i =>
        if (n <? List.length pts) && (nth i vecs 0 =? j) && loc_holds (nth i locs (LocOther 0)) (nth n pts []) n
        then Some (nth i values (fun _ => zero) (nth n pts [])) else acc)
      (seq 0 (List.length locs)) None.

  Definition lex (a b : nat * nat) : Prop := fst a < fst b \/ fst a = fst b /\ snd a < snd b.
  (** [b] lists in lexicographic order exactly the (cell, face) pairs all of whose face
      vertices satisfy [l]. *)
  Definition faces_selected (f : fe K) (l : location_fn K) (b : list (nat * nat)) : Prop :=
    StronglySorted lex b /\
    forall c fc, In (c, fc) b <->
      c < List.length (cells f) /\ fc < List.length (face_inds f) /\ face_holds f l c fc.
End Spec.
