(** Independent vocabulary for the assembly properties (C11-C17): global dof
    numbers, well-formed problems, what one cell sees of the solution. *)
From Coq Require Import List Arith Bool Reals.
From Verif Require Import Num Arr Fe Problem.
Import ListNotations.

(** shapes: one pair (number of nodes, components per node) per variable. *)
Fixpoint dofs_before (shapes : list (nat * nat)) (v : nat) : nat :=
  match v, shapes with
  | S v', (n, c) :: t => n * c + dofs_before t v'
  | _, _ => 0
  end.
(** number of the dof (variable v, node n, component j): variables one after another,
    inside a variable node by node, inside a node component by component. *)
Definition dof_number (shapes : list (nat * nat)) (v n j : nat) : nat :=
  dofs_before shapes v + n * snd (nth v shapes (0, 0)) + j.
Definition valid_dof (shapes : list (nat * nat)) (v n j : nat) : Prop :=
  v < length shapes /\ n < fst (nth v shapes (0, 0)) /\ j < snd (nth v shapes (0, 0)).
Definition all_dofs (shapes : list (nat * nat)) : nat := dofs_before shapes (length shapes).

Section Spec.
  Context {K : ops} {V : Type}.

  (** A problem whose meshes are consistent: every variable has the same number of
      cells, cells have the element's number of nodes, node numbers exist, selected
      faces belong to existing cells. *)
  Record wf_problem (p : problem K V) : Prop := {
    wf_cells : forall f, In f (fes p) -> length (cells f) = p_num_cells p;
    wf_cell_len : forall f cell, In f (fes p) -> In cell (cells f) -> length cell = num_nodes f;
    wf_cell_node : forall f cell n, In f (fes p) -> In cell (cells f) -> In n cell -> n < num_total_nodes f;
    wf_boundary : forall b c fc, In b (boundary_inds_list p) -> In (c, fc) b -> c < p_num_cells p
  }.

  (** the fe of variable v *)
  Definition fe_of (p : problem K V) (v : nat) : fe K := nth v (fes p) (fe0 p).
  Definition global_shapes (p : problem K V) : list (nat * nat) :=
    map (fun f => (length (points f), vec f)) (fes p).
  Definition local_shapes (p : problem K V) : list (nat * nat) :=
    map (fun f => (num_nodes f, vec f)) (fes p).

  (** an array of shape (n, c) *)
  Definition shaped {A} (n c : nat) (x : list (list A)) : Prop :=
    length x = n /\ forall row, In row x -> length row = c.
  (** a solution list with one (num_total_nodes, vec) array per variable *)
  Definition sol_ok (p : problem K V) (sol : list (list (list K))) : Prop :=
    length sol = length (fes p) /\
    forall v, v < length (fes p) -> shaped (length (points (fe_of p v))) (vec (fe_of p v)) (nth v sol []).

  (** node number of local node a of cell c for variable v *)
  Definition node_of (p : problem K V) (v c a : nat) : nat := nth a (nth c (cells (fe_of p v)) []) 0.

  (** What cell c sees of the solution: the values of its nodes, variable by variable,
      node by node, component by component. *)
  Definition cell_values (p : problem K V) (sol : list (list (list K))) (c : nat) : list K :=
    flat_map (fun v => flat_map (fun a => nth (node_of p v c a) (nth v sol []) [])
                                (seq 0 (num_nodes (fe_of p v))))
             (seq 0 (length (fes p))).
  (** The global dof numbers of cell c in the same order. *)
  Definition elem_dofs (p : problem K V) (c : nat) : list nat :=
    flat_map (fun v => flat_map (fun a => map (fun j => dof_number (global_shapes p) v (node_of p v c a) j)
                                              (seq 0 (vec (fe_of p v))))
                                (seq 0 (num_nodes (fe_of p v))))
             (seq 0 (length (fes p))).

  (** Entry (g, h) of the matrix given by triplets: duplicates are summed. *)
  Definition coo_entry (I J : list nat) (W : list K) (g h : nat) : K :=
    sum_over (combine (combine I J) W)
             (fun t => if (fst (fst t) =? g) && (snd (fst t) =? h) then snd t else zero).

  (** The inputs the user's cell kernel receives for cell c, and the face kernel for the
      i-th selected face of a surface. *)
  Definition cell_input (p : problem K V) (pts : list (list (list K))) (sol : list (list (list K)))
      (c : nat) : cell_in K V :=
    mkCellIn (cell_values p sol c) (p_quad_points p pts c) (p_shape_grads p pts c) (p_JxW p pts c)
             (p_v_grads_JxW p pts c)
             (flat_map (fun iv => match nth_error iv c with Some x => [x] | None => [] end) (internal_vars p)).
  Definition face_input (sqrtK : K -> K) (p : problem K V) (pts : list (list (list K)))
      (sol : list (list (list K))) (s i : nat) : face_in K V :=
    let cf := nth i (nth s (boundary_inds_list p) []) (0, 0) in
    mkFaceIn (cell_values p sol (fst cf)) (p_surface_quad_points p pts cf) (p_face_vals p pts cf)
             (p_face_grads p pts cf) (p_nanson sqrtK p pts cf)
             (flat_map (fun iv => match nth_error iv i with Some x => [x] | None => [] end)
                       (nth s (internal_vars_surfaces p) [])).
  (** the cell that owns the i-th selected face of surface s *)
  Definition face_cell (p : problem K V) (s i : nat) : nat :=
    fst (nth i (nth s (boundary_inds_list p) []) (0, 0)).
  Definition num_sel_faces (p : problem K V) (s : nat) : nat := length (nth s (boundary_inds_list p) []).

  (** Internal variables have one entry per cell / per selected face. *)
  Definition ivs_ok (p : problem K V) : Prop :=
    (forall iv, In iv (internal_vars p) -> length iv = p_num_cells p) /\
    length (internal_vars_surfaces p) = length (boundary_inds_list p) /\
    forall s iv, s < length (boundary_inds_list p) -> In iv (nth s (internal_vars_surfaces p) []) ->
      length iv = num_sel_faces p s.
  (** kernels return one number per local dof *)
  Definition kernels_ok (p : problem K V) (kf : nat -> face_in K V -> list K) : Prop :=
    (forall ci, length (ci_sol ci) = all_dofs (local_shapes p) ->
       length (kernel_cell p ci) = all_dofs (local_shapes p)) /\
    (forall s, s < length (boundary_inds_list p) ->
       kernel_face p s = Ok (kf s) /\
       forall fi, length (fi_sol fi) = all_dofs (local_shapes p) ->
         length (kf s fi) = all_dofs (local_shapes p)).

  (** The kernel of cell c, and of the i-th selected face of surface s, as functions of the
      values at the cell's nodes. *)
  Definition cell_fun (p : problem K V) (pts sol : list (list (list K))) (c : nat) (x : list K) : list K :=
    kernel_cell p (with_sol (cell_input p pts sol c) x).
  Definition face_fun (sqrtK : K -> K) (p : problem K V) (pts sol : list (list (list K)))
      (kf : nat -> face_in K V -> list K) (s i : nat) (x : list K) : list K :=
    kf s (with_sol_f (face_input sqrtK p pts sol s i) x).

  (** x + t * d, for vectors and for solution lists *)
  Definition line1 (x d : list K) (t : K) : list K := map2 (fun a b => a + t * b)%num x d.
  Definition line3 (sol dsol : list (list (list K))) (t : K) : list (list (list K)) :=
    map2 (map2 (map2 (fun a b => a + t * b)%num)) sol dsol.

  (** f is affine and jax.jvp returns its linear part. *)
  Definition jvp_affine (jvp : (list K -> list K) -> list K -> list K -> list K)
      (f : list K -> list K) (x : list K) : Prop :=
    forall v k, length v = length x ->
      nth k (f (line1 x v one)) zero =
      (nth k (f x) 0 + sum_n (length x) (fun l => nth k (jvp f x (unit_vec (length x) l)) 0 * nth l v 0))%num.
End Spec.

(** jax.jvp returns directional derivatives, and the function is differentiable
    (the derivative along v is the combination of those along the basis vectors). *)
Definition jvp_correct (jvp : (list Rops -> list Rops) -> list Rops -> list Rops -> list Rops)
    (f : list Rops -> list Rops) (x : list Rops) : Prop :=
  forall v k, length v = length x ->
    derivable_pt_lim (fun t => nth k (f (line1 x v t)) (@zero Rops)) 0
      (sum_n (length x) (fun l => (nth k (jvp f x (unit_vec (length x) l)) 0 * nth l v 0)%num)).
