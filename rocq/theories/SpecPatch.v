(** Vocabulary for C69: fields and materials of the patch test. *)
From Coq Require Import List Arith Bool Reals.
From Verif Require Import Num Arr Fe Problem SpecAssembly SpecBc SpecFe SpecWeak.
Import ListNotations.

Section Spec.
  Context {V : Type}.
  (** The internal variables are the same in every cell (they may differ between quadrature points). *)
  Definition homogeneous {K : ops} (p : problem K V) : Prop :=
    forall c c' q, (c < p_num_cells p)%nat -> (c' < p_num_cells p)%nat -> iv_at p c q = iv_at p c' q.
  (** The source term at every quadrature point is the vector [load]. *)
  Definition uniform_load {K : ops} (p : problem K V) (f : fe K) (P sol : list (list K)) (load : nat -> K) : Prop :=
    forall c q k, (c < p_num_cells p)%nat -> (q < num_quads f)%nat -> (k < vec f)%nat -> source p f P sol c q k = load k.
  (** Coordinate i of node n is strictly between 0 and L *)
  Definition strictly_between (P : list (list Rops)) (n i : nat) (L : R) : Prop :=
    (0 < nth i (nth n P []) (@zero Rops))%R /\ (nth i (nth n P []) (@zero Rops) < L)%R.
  (** Node n is not on the boundary of [0, L 0] x ... x [0, L (d-1)]. *)
  Definition interior_node (d : nat) (L : nat -> R) (P : list (list Rops)) (n : nat) : Prop :=
    forall i, (i < d)%nat -> strictly_between P n i (L i).
  (** Dirichlet data: every node on the boundary is held in every component, and every held value is that of [sol]. *)
  Definition boundary_held (d : nat) (L : nat -> R) (P sol : list (list Rops)) (f : fe Rops) : Prop :=
    (forall n k, (n < length P)%nat -> (k < vec f)%nat -> ~ interior_node d L P n -> constrained f n k) /\
    (forall n k b, (n < length P)%nat -> (k < vec f)%nat -> prescribed f n k = Some b -> b = nth k (nth n sol []) (@zero Rops)).
  (** The Dirichlet data a user writes to hold the nodes selected by [g] at the affine field, component by component *)
  Definition hold_affine (d nvec : nat) (A : nat -> nat -> Rops) (b : nat -> Rops) (g : list Rops -> bool)
      : option (list (location_fn Rops) * list nat * list (list Rops -> Rops)) :=
    Some (repeat (Loc1 g) nvec, seq 0 nvec, map (fun k pt => affine d A b (fun i => nth i pt (@zero Rops)) k) (seq 0 nvec)).
  (** the array of the values of the affine field at the points *)
  Definition affine_values (d nvec : nat) (A : nat -> nat -> Rops) (b : nat -> Rops) (pts : list (list Rops)) : list (list Rops) :=
    map (fun pt => map (fun k => affine d A b (fun i => nth i pt (@zero Rops)) k) (seq 0 nvec)) pts.
  (** a subclass that only defines get_tensor_map *)
  Definition only_tensor_map {K : ops} (tm : (nat -> nat -> K) -> list V -> nat -> nat -> K) : user_maps K V := mkMaps (Some tm) None None None None.
End Spec.
