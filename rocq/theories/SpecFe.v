(** Vocabulary for C05-C10. *)
From Coq Require Import List Arith Bool String.
From Verif Require Import Num Fe Basis SpecBasis.
Import ListNotations.
Local Open Scope num_scope.

(** dimension of the element *)
Definition element_dim (s : string) : nat :=
  List.length (nth 0 (mesh_nodes2 s) []).

Section Spec.
  Context {K : ops}.

  (** Cells have one node number per node of the element, and the nodes exist. *)
  Definition mesh_ok (f : fe K) : Prop :=
    forall c, (c < List.length (cells f))%nat ->
      List.length (nth c (cells f) []) = num_nodes f /\
      forall n, In n (nth c (cells f) []) -> (n < List.length (points f))%nat.

  (** A x + b, component k, x in dimension d. *)
  Definition affine (d : nat) (A : nat -> nat -> K) (b : nat -> K) (x : nat -> K) (k : nat) : K :=
    sum_n d (fun m => A k m * x m) + b k.
  (** [sol] holds the values of the affine field at the points [pts]. *)
  Definition samples (d nvec : nat) (A : nat -> nat -> K) (b : nat -> K) (pts sol : list (list K)) : Prop :=
    List.length sol = List.length pts /\
    forall n k, (n < List.length pts)%nat -> (k < nvec)%nat ->
      nth k (nth n sol []) 0 = affine d A b (fun i => nth i (nth n pts []) 0) k.

  (** [pts'] is [pts] moved by the vector t. *)
  Definition translation (d : nat) (t : nat -> K) (pts pts' : list (list K)) : Prop :=
    List.length pts' = List.length pts /\
    forall n i, (n < List.length pts)%nat -> (i < d)%nat -> nth i (nth n pts' []) 0 = nth i (nth n pts []) 0 + t i.
  (** s3 = a s1 + b s2, entry by entry *)
  Definition combination (a b : K) (s1 s2 s3 : list (list K)) : Prop :=
    List.length s1 = List.length s3 /\ List.length s2 = List.length s3 /\
    forall n k, (n < List.length s3)%nat ->
      nth k (nth n s3 []) 0 = a * nth k (nth n s1 []) 0 + b * nth k (nth n s2 []) 0.
  (** Cell c is the image of the reference element under x -> M x + b. *)
  Definition affine_cell (half : K) (s : string) (pts : list (list K)) (f : fe K) (d c : nat)
      (M : nat -> nat -> K) (b : nat -> K) : Prop :=
    forall a i, (a < node_count s)%nat -> (i < d)%nat ->
      nth i (nth (nth a (nth c (cells f) []) 0%nat) pts []) 0
      = affine d M b (fun k => ref_coord half s a k) i.

  (** determinants of 2x2 and 3x3 matrices *)
  Definition det2 (m : nat -> nat -> K) : K := m 0%nat 0%nat * m 1%nat 1%nat - m 0%nat 1%nat * m 1%nat 0%nat.
  Definition det3 (m : nat -> nat -> K) : K :=
    m 0%nat 0%nat * (m 1%nat 1%nat * m 2%nat 2%nat - m 1%nat 2%nat * m 2%nat 1%nat)
    - m 0%nat 1%nat * (m 1%nat 0%nat * m 2%nat 2%nat - m 1%nat 2%nat * m 2%nat 0%nat)
    + m 0%nat 2%nat * (m 1%nat 0%nat * m 2%nat 1%nat - m 1%nat 1%nat * m 2%nat 0%nat).
  Definition det_dim (d : nat) (m : nat -> nat -> K) : K :=
    match d with 2%nat => det2 m | 3%nat => det3 m | _ => m 0%nat 0%nat end.

  (** coordinate i of the a-th node of cell c *)
  Definition vx (pts : list (list K)) (f : fe K) (c a i : nat) : K :=
    nth i (nth (nth a (nth c (cells f) []) 0%nat) pts []) 0.

  Definition loc_holds (l : location_fn K) (p : list K) (n : nat) : bool :=
    match l with Loc1 g => g p | Loc2 g => g p n | LocOther _ => false end.
  Definition loc_wrong (l : location_fn K) : bool :=
    match l with LocOther _ => true | _ => false end.
  Definition face_holds (f : fe K) (l : location_fn K) (c fc : nat) : Prop :=
    forall a, In a (nth fc (face_inds f) []) ->
      let n := nth a (nth c (cells f) []) 0%nat in loc_holds l (nth n (points f) []) n = true.
  (** every face vertex is a local node of every cell, nodes exist *)
  Definition faces_ok (f : fe K) : Prop :=
    mesh_ok f /\ forall face a, In face (face_inds f) -> In a face -> (a < num_nodes f)%nat.

  (** [f] is what FiniteElement builds, for some mesh, quadrature rules, normals and Dirichlet
      data, for the element [s] in its own dimension d, on a mesh that is well formed. *)
  Definition built_element (s : string) (d : nat) (f : fe K) : Prop :=
    In s nine_names /\ d = element_dim s /\ mesh_ok f /\
    exists sqrtK quad fquad normals pts cls v dir, fe_init sqrtK s quad fquad normals pts cls v d dir = Ok f.
End Spec.
