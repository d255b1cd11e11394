(** Python values and dicts, as far as option dicts need them. *)
From Coq Require Import String List Bool Reals ZArith.
From Verif Require Import Num XNum.
Import ListNotations.
Local Open Scope string_scope.

(** None, bool, float, int, str, any other object (array, callable, list of arrays), dict.
    A dict is the list of its items in insertion order.
    Simplification: keys are strings. *)
Inductive pyval (O : Type) :=
  | VNone | VBool (b : bool) | VNum (x : xr) | VInt (z : Z) | VStr (s : string) | VObj (o : O)
  | VDict (d : list (string * pyval O)).
Arguments VNone {O}. Arguments VBool {O}. Arguments VNum {O}. Arguments VInt {O}. Arguments VStr {O}.
Arguments VObj {O}. Arguments VDict {O}.

Section Dict.
  Context {O : Type}.
  Definition dict := list (string * pyval O).
  (** d[k] / d.get(k) *)
  Fixpoint lookup (d : dict) (k : string) : option (pyval O) :=
    match d with
    | [] => None
    | (k', v) :: d => if k =? k' then Some v else lookup d k
    end.
  (** k in d *)
  Definition has (d : dict) (k : string) : bool :=
    match lookup d k with Some _ => true | None => false end.
  (** d[k] = v: keeps the position of an existing key, appends a new one *)
  Fixpoint dset (d : dict) (k : string) (v : pyval O) : dict :=
    match d with
    | [] => [(k, v)]
    | (k', v') :: d => if k =? k' then (k', v) :: d else (k', v') :: dset d k v
    end.
  (** d.get(k, default) *)
  Definition get_default (d : dict) (k : string) (v : pyval O) : pyval O :=
    match lookup d k with Some w => w | None => v end.
  (** {k: d[k] for k in ks if k in d} *)
  Definition restrict (ks : list string) (d : dict) : dict :=
    flat_map (fun k => match lookup d k with Some v => [(k, v)] | None => [] end) ks.
  (** bool(v); objects are truthy (simplification: arrays of size other than 1 raise) *)
  Definition truthy (v : pyval O) : bool :=
    match v with
    | VNone => false
    | VBool b => b
    | VNum x => negb (xeqb x (Fin 0))
    | VInt z => negb (Z.eqb z 0)
    | VStr s => negb (s =? "")
    | VObj _ => true
    | VDict d => match d with [] => false | _ => true end
    end.
End Dict.
Arguments dict : clear implicits.
