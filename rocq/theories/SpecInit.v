(** Vocabulary for C19, C55. *)
From Coq Require Import String List Arith Bool.
From Verif Require Import Num Arr Fe Problem Basis SpecBasis SpecFe Init SpecAssembly.
Import ListNotations.

Section Spec.
  Context {K : ops} {V : Type}.
  (** number of location functions given by the user *)
  Definition num_locations (l : option (list (location_fn K))) : nat :=
    match l with None => 0 | Some fns => length fns end.
  (** number of surface integrands the subclass declares: surface maps if it has them, otherwise
      universal surface kernels, otherwise none *)
  Definition num_declared (m : user_maps K V) : nat :=
    match surface_maps m with
    | Some sms => length sms
    | None => match universal_kernels_surface m with Some uks => length uks | None => 0 end
    end.
  (** location functions take one or two arguments *)
  Definition locations_ok (l : option (list (location_fn K))) : Prop :=
    match l with None => True | Some fns => forall g, In g fns -> loc_wrong g = false end.
  (** the mesh of one variable: element supported, every cell has the element's nodes, nodes exist *)
  Definition mesh_arg_ok (a : var_args K) : Prop :=
    In (va_ele_type a) nine_names /\
    (forall cell, In cell (va_cells a) -> length cell = node_count (va_ele_type a) /\
       forall n, In n cell -> n < length (va_points a)) /\
    match va_bc a with
    | None => True
    | Some (locs, vecs, vals) => length locs = length vecs /\ length vals = length vecs /\
        forall g, In g locs -> loc_wrong g = false
    end.
  Definition args_ok (vars : list (var_args K)) : Prop :=
    vars <> [] /\ (forall a, In a vars -> mesh_arg_ok a) /\
    forall a b, In a vars -> In b vars -> length (va_cells a) = length (va_cells b).
End Spec.
