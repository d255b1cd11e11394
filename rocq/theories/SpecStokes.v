(** Vocabulary for C82: Stokes flow. *)
From Coq Require Import String List Arith Bool Reals.
From Verif Require Import Num Arr Fe Problem Basis SpecAssembly SpecBc SpecWeak SpecFe SpecEnergy SpecPosed Wave Stokes.
Import ListNotations.

(** ** The weak form *)
Section Weak.
  Context {K : ops} {V : Type}.
  Local Open Scope num_scope.
  Definition divergence (G : nat -> nat -> K) : K := G 0%nat 0%nat + G 1%nat 1%nat.
  (** A problem of the class StokesFlow: velocity with two components in the plane, scalar pressure, the same quadrature points. *)
  Definition stokes_problem (p : problem K V) (fu fp : fe K) : Prop :=
    fes p = [fu; fp] /\ maps p = stokes_maps [fu; fp] /\ boundary_inds_list p = [] /\ internal_vars p = [] /\ internal_vars_surfaces p = [] /\
    vec fu = 2%nat /\ dim fu = 2%nat /\ vec fp = 1%nat /\ num_quads fp = num_quads fu.
  (** integral of grad u : grad v + p div v *)
  Definition momentum (p : problem K V) (fu fp : fe K) (Pu : list (list K)) (u w v : list (list K)) : K :=
    over_cells p fu Pu (fun c q => dot2 2 2 (sol_to_grad Pu fu u c q) (sol_to_grad Pu fu v c q)
                                 + convert_from_dof_to_quad fp w c q 0 * divergence (sol_to_grad Pu fu v c q)).
  (** integral of q div u *)
  Definition continuity (p : problem K V) (fu fp : fe K) (Pu Pp : list (list K)) (u z : list (list K)) : K :=
    over_cells p fp Pp (fun c q => divergence (sol_to_grad Pu fu u c q) * convert_from_dof_to_quad fp z c q 0).
End Weak.

(** ** Taylor-Hood elements *)
Local Open Scope R_scope.
(** sum of the weights times g over the points of a rule *)
Definition rule_sum (quad : list (list Rops) * list Rops) (g : R -> R -> R) : R :=
  sum_n (K := Rops) (List.length (fst quad)) (fun q => nth q (snd quad) 0 * g (nth 0 (nth q (fst quad) []) 0) (nth 1 (nth q (fst quad) []) 0)).
(** positive weights, exact for the polynomials of degree two on the reference triangle *)
Definition degree_two (quad : list (list Rops) * list Rops) : Prop :=
  (forall q, (q < List.length (fst quad))%nat -> 0 < nth q (snd quad) 0) /\
  rule_sum quad (fun _ _ => 1) = / 2 /\ rule_sum quad (fun x _ => x) = / 6 /\ rule_sum quad (fun _ y => y) = / 6 /\
  rule_sum quad (fun x _ => x * x) = / 12 /\ rule_sum quad (fun x y => x * y) = / 24 /\ rule_sum quad (fun _ y => y * y) = / 12.
(** built by FiniteElement, with any constraints *)
Definition element_of (s : string) (quad : list (list Rops) * list Rops) (f : fe Rops) : Prop :=
  exists sqrtK fquad normals pts cls v dir f0 ns vs ws,
    fe_init (K := Rops) sqrtK s quad fquad normals pts cls v (element_dim s) dir = Ok f0 /\ f = set_bc f0 ns vs ws.
(** the corners at the ends of the edge with local midpoint a *)
Definition edge_ends (a : nat) : nat * nat := match a with 3 => (0, 1) | 4 => (1, 2) | _ => (2, 0) end%nat.
(** The six-node triangles lie on the three-node ones: same corners, and the other nodes are the midpoints of the edges. *)
Definition same_triangles (Pu Pp : list (list Rops)) (fu fp : fe Rops) : Prop :=
  List.length Pu = List.length (points fu) /\ List.length Pp = List.length (points fp) /\
  forall c i, (c < num_cells fu)%nat -> (i < 2)%nat ->
    (forall a, (a < 3)%nat -> vx Pu fu c a i = vx Pp fp c a i) /\
    (forall a, (3 <= a < 6)%nat -> vx Pu fu c a i = (vx Pp fp c (fst (edge_ends a)) i + vx Pp fp c (snd (edge_ends a)) i) / 2).
(** twice the signed area of triangle c *)
Definition area2 (P : list (list Rops)) (f : fe Rops) (c : nat) : R :=
  (vx P f c 1 0 - vx P f c 0 0) * (vx P f c 2 1 - vx P f c 0 1) - (vx P f c 2 0 - vx P f c 0 0) * (vx P f c 1 1 - vx P f c 0 1).
Definition taylor_hood (quad : list (list Rops) * list Rops) (Pu Pp : list (list Rops)) (fu fp : fe Rops) : Prop :=
  element_of "TRI6" quad fu /\ element_of "TRI3" quad fp /\ degree_two quad /\ same_triangles Pu Pp fu fp /\
  forall c, (c < num_cells fu)%nat -> 0 < area2 Pp fp c.
(** Node n of the velocity is the midpoint of the edge between the pressure nodes A and B, in every triangle where it occurs. *)
Definition midpoint_of (fu fp : fe Rops) (n A B : nat) : Prop :=
  (exists c a, (c < num_cells fu)%nat /\ (a < 6)%nat /\ cell_node fu c a = n) /\
  forall c a, (c < num_cells fu)%nat -> (a < 6)%nat -> cell_node fu c a = n -> (3 <= a)%nat /\
    let i := cell_node fp c (fst (edge_ends a)) in let j := cell_node fp c (snd (edge_ends a)) in (i = A /\ j = B) \/ (i = B /\ j = A).
(** Nothing is prescribed at the midpoint of the edge from A to B. *)
Definition free_edge (fu fp : fe Rops) (A B : nat) : Prop :=
  exists n, (n < List.length (points fu))%nat /\ midpoint_of fu fp n A B /\ prescribed fu n 0 = None /\ prescribed fu n 1 = None.
(** a chain of such edges *)
Inductive joined (fu fp : fe Rops) : nat -> nat -> Prop :=
| joined_refl A : joined fu fp A A
| joined_step A B C : free_edge fu fp A B -> joined fu fp B C -> joined fu fp A C.
(** Every node of the pressure is joined to one where the pressure is prescribed. *)
Definition pressure_anchored (fu fp : fe Rops) : Prop :=
  forall A, (A < List.length (points fp))%nat -> exists B b, (B < List.length (points fp))%nat /\ prescribed fp B 0 = Some b /\ joined fu fp A B.

(** ** The interior contour *)
(** Node c of the mesh occurs in one cell only, as local node a. *)
Definition alone (cls : list (list nat)) (cell : list nat) (a c : nat) : Prop :=
  In cell cls /\ (a < List.length cell)%nat /\ nth a cell 0%nat = c /\ count_occ Nat.eq_dec (concat cls) c = 1%nat.
(** n is a node of an edge whose midpoint occurs in one cell only: an edge on the boundary. *)
Definition on_boundary (cls : list (list nat)) (n : nat) : Prop :=
  exists cell a c, alone cls cell a c /\ (3 <= a < 6)%nat /\ (n = c \/ n = nth (fst (edge_ends a)) cell 0%nat \/ n = nth (snd (edge_ends a)) cell 0%nat).
(** list(set(l)): the elements of l, each once, in some order *)
Definition set_order (to_set : list nat -> list nat) : Prop := forall l, NoDup (to_set l) /\ forall x, In x (to_set l) <-> In x l.
