(** Vocabulary for the Dirichlet properties (C20-C23). *)
From Coq Require Import List Arith Bool.
From Verif Require Import Num Fe Problem SpecAssembly.
Import ListNotations.

Section Spec.
  Context {K : ops} {V : Type}.

  (** The constraints of a variable as a list of (node, component, value), group after group. *)
  Definition bc_entries (f : fe K) : list (nat * nat * K) :=
    flat_map (fun i => combine (combine (nth i (node_inds_list f) []) (nth i (vec_inds_list f) []))
                               (nth i (vals_list f) []))
             (seq 0 (length (node_inds_list f))).
  (** The value prescribed at (node n, component j): that of the last constraint on it. *)
  Definition prescribed (f : fe K) (n j : nat) : option K :=
    fold_left (fun acc e => if (fst (fst e) =? n) && (snd (fst e) =? j) then Some (snd e) else acc)
              (bc_entries f) None.
  Definition constrained (f : fe K) (n j : nat) : Prop := exists b, In ((n, j), b) (bc_entries f).

  (** Constraint lists are consistent: the three lists of every group have the same length, no
      group lists the same (node, component) twice. *)
  Definition bc_ok (f : fe K) : Prop :=
    forall i, i < length (node_inds_list f) ->
      length (nth i (vec_inds_list f) []) = length (nth i (node_inds_list f) []) /\
      length (nth i (vals_list f) []) = length (nth i (node_inds_list f) []) /\
      NoDup (combine (nth i (node_inds_list f) []) (nth i (vec_inds_list f) [])).
  Definition bcs_ok (p : problem K V) : Prop := forall f, In f (fes p) -> bc_ok f.
  (** constrained nodes and components exist *)
  Definition bc_in_range (f : fe K) : Prop :=
    forall n j b, In ((n, j), b) (bc_entries f) -> n < length (points f) /\ j < vec f.
End Spec.
