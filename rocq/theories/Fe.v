(** Model of jax_fem/fe.py (class FiniteElement).
    Arrays: inputs that are indexed by mesh data are lists; tables and computed
    arrays are index functions together with the sizes stored in the record, the
    broadcasting expressions of the source being written as index comprehensions. *)
From Coq Require Import List Arith Lia Bool.
From Verif Require Import Num Arr.
Import ListNotations.
Local Open Scope num_scope.

Section Fe.
  Context {K : ops}.

  (** fe.py:21-110, the attributes of FiniteElement read elsewhere. *)
  Record fe := mkFe {
    points : list (list K);                              (* (num_total_nodes, dim), fe.py:78 *)
    cells : list (list nat);                             (* (num_cells, num_nodes), fe.py:79 *)
    vec : nat;
    dim : nat;
    num_quads : nat;                                     (* fe.py:99-102 *)
    num_nodes : nat;
    num_faces : nat;
    num_face_quads : nat;
    shape_vals : nat -> nat -> K;                        (* (num_quads, num_nodes) *)
    shape_grads_ref : nat -> nat -> nat -> K;            (* (num_quads, num_nodes, dim) *)
    quad_weights : nat -> K;                             (* (num_quads,) *)
    face_shape_vals : nat -> nat -> nat -> K;            (* (num_faces, num_face_quads, num_nodes) *)
    face_shape_grads_ref : nat -> nat -> nat -> nat -> K;(* (num_faces, num_face_quads, num_nodes, dim) *)
    face_quad_weights : nat -> nat -> K;                 (* (num_faces, num_face_quads) *)
    face_normals : nat -> nat -> K;                      (* (num_faces, dim) *)
    face_inds : list (list nat);                         (* (num_faces, num_face_vertices) *)
    node_inds_list : list (list nat);                    (* fe.py:104 *)
    vec_inds_list : list (list nat);
    vals_list : list (list K)
  }.

  Definition num_cells (f : fe) : nat := length (cells f).             (* fe.py:80 *)
  Definition num_total_nodes (f : fe) : nat := length (points f).      (* fe.py:81 *)
  Definition num_total_dofs (f : fe) : nat := (num_total_nodes f * vec f)%nat. (* fe.py:82 *)

  (** Node number of local node a of cell c: self.cells[c, a]. *)
  Definition cell_node (f : fe) (c a : nat) : nat := nth a (nth c (cells f) []) 0%nat.

  (** physical_coos[c, a, i] = np.take(points, self.cells, axis=0)[c, a, i], fe.py:127. *)
  Definition coo (pts : list (list K)) (f : fe) (c a i : nat) : K :=
    nth i (gather [] pts (cell_node f c a)) 0.

  (** np.linalg.det by Laplace expansion along the first row (fe.py:131, 166).
      Simplification: exact arithmetic, no LU factorisation. *)
  Definition mat := nat -> nat -> K.
  Definition skip (k i : nat) : nat := if (i <? k)%nat then i else S i.
  Definition minor (m : mat) (i j : nat) : mat := fun p q => m (skip i p) (skip j q).
  Definition sgn (k : nat) : K := if Nat.even k then 1 else - (1).
  Fixpoint det (n : nat) (m : mat) : K :=
    match n with
    | O => 1
    | S n' => sum_n n (fun j => sgn j * m O j * det n' (minor m O j))
    end.
  (** np.linalg.inv as adjugate over determinant (fe.py:132, 167). *)
  Definition inv_mat (n : nat) (m : mat) : mat :=
    fun i j => sgn (i + j) * det (n - 1) (minor m j i) / det n m.

  (** jacobian_dx_deta[c, q, 0, i, j] of fe.py:129-130. *)
  Definition jacobian_dx_deta (pts : list (list K)) (f : fe) (c q : nat) : mat :=
    fun i j => sum_n (num_nodes f) (fun a => coo pts f c a i * shape_grads_ref f q a j).
  (** fe.py:135-136: shape_grads_physical[c, q, a, j]. *)
  Definition get_shape_grads (pts : list (list K)) (f : fe) (c q a j : nat) : K :=
    sum_n (dim f) (fun i => shape_grads_ref f q a i * inv_mat (dim f) (jacobian_dx_deta pts f c q) i j).
  (** fe.py:137: JxW[c, q]. *)
  Definition get_JxW (pts : list (list K)) (f : fe) (c q : nat) : K :=
    det (dim f) (jacobian_dx_deta pts f c q) * quad_weights f q.

  (** fe.py:164-165: jacobian at face quadrature point q of the selected face (c, fc). *)
  Definition face_jacobian (pts : list (list K)) (f : fe) (c fc q : nat) : mat :=
    fun i j => sum_n (num_nodes f) (fun a => coo pts f c a i * face_shape_grads_ref f fc q a j).
  (** fe.py:171-172 *)
  Definition get_face_shape_grads (pts : list (list K)) (f : fe) (c fc q a j : nat) : K :=
    sum_n (dim f) (fun i => face_shape_grads_ref f fc q a i * inv_mat (dim f) (face_jacobian pts f c fc q) i j).
  (** fe.py:176-178; [sqrtK] is the square root inside np.linalg.norm. *)
  Definition nanson_scale (sqrtK : K -> K) (pts : list (list K)) (f : fe) (c fc q : nat) : K :=
    let jd := inv_mat (dim f) (face_jacobian pts f c fc q) in
    let row j := sum_n (dim f) (fun i => face_normals f fc i * jd i j) in
    sqrtK (sum_n (dim f) (fun j => row j * row j))
    * det (dim f) (face_jacobian pts f c fc q)
    * face_quad_weights f fc q.

  (** fe.py:185-199 *)
  Definition get_physical_quad_points (pts : list (list K)) (f : fe) (c q i : nat) : K :=
    sum_n (num_nodes f) (fun a => shape_vals f q a * coo pts f c a i).
  (** fe.py:201-218, for the selected face (c, fc). *)
  Definition get_physical_surface_quad_points (pts : list (list K)) (f : fe) (c fc q i : nat) : K :=
    sum_n (num_nodes f) (fun a => face_shape_vals f fc q a * coo pts f c a i).

  (** sol[self.cells][c, a, k] *)
  Definition cell_sol_at (f : fe) (sol : list (list K)) (c a k : nat) : K :=
    nth k (gather [] sol (cell_node f c a)) 0.
  (** fe.py:324-341 *)
  Definition convert_from_dof_to_quad (f : fe) (sol : list (list K)) (c q k : nat) : K :=
    sum_n (num_nodes f) (fun a => cell_sol_at f sol c a k * shape_vals f q a).
  (** fe.py:343-364, for the selected face (c, fc). *)
  Definition convert_from_dof_to_face_quad (f : fe) (sol : list (list K)) (c fc q k : nat) : K :=
    sum_n (num_nodes f) (fun a => cell_sol_at f sol c a k * face_shape_vals f fc q a).
  (** fe.py:366-382, self.shape_grads being the array computed by
      problem.py:137 from the points [pts] in force at that time. *)
  Definition sol_to_grad (pts : list (list K)) (f : fe) (sol : list (list K)) (c q k j : nat) : K :=
    sum_n (num_nodes f) (fun a => cell_sol_at f sol c a k * get_shape_grads pts f c q a j).

  (** ** Boundary conditions *)
  (** A location function takes a point, or a point and its index (fe.py:246-252). *)
  Inductive location_fn :=
  | Loc1 (g : list K -> bool)
  | Loc2 (g : list K -> nat -> bool)
  | LocOther (num_args : nat).

  Inductive py_error := AssertionErr | ValueErr | TypeErr | NameErr | ZeroDivErr | NotImplementedErr | IndexErr | RuntimeErr
    | AttributeErr | KeyErr | OSErr.
  Inductive result (A : Type) := Ok (a : A) | Err (e : py_error).
  Arguments Ok {A}. Arguments Err {A}.

  (** fe.py:246-252 *)
  Definition as_loc2 (l : location_fn) : result (list K -> nat -> bool) :=
    match l with
    | Loc1 g => Ok (fun p _ => g p)
    | Loc2 g => Ok g
    | LocOther _ => Err ValueErr
    end.

  (** One pass of the loop body fe.py:246-260: the nodes and values of group i. *)
  Definition dirichlet_group (pts : list (list K)) (g : list K -> nat -> bool) (v : nat)
      (value : list K -> K) : list nat * list nat * list K :=
    let flags := map2 g pts (seq 0 (length pts)) in
    let node_inds := argwhere flags in
    (node_inds, map (fun _ => v) node_inds, map value (take [] pts node_inds)).

  Definition bc_lists := (list (list nat) * list (list nat) * list (list K))%type.

  (** The loop fe.py:245-260 over the remaining groups. *)
  Fixpoint dirichlet_loop (pts : list (list K)) (locs : list location_fn) (vecs : list nat)
      (values : list (list K -> K)) : result bc_lists :=
    match locs, vecs, values with
    | l :: locs', v :: vecs', w :: values' =>
        match as_loc2 l with
        | Err e => Err e
        | Ok g =>
            match dirichlet_loop pts locs' vecs' values' with
            | Err e => Err e
            | Ok (ns, vs, ws) =>
                let '(n0, v0, w0) := dirichlet_group pts g v w in
                Ok (n0 :: ns, v0 :: vs, w0 :: ws)
            end
        end
    | _, _, _ => Ok ([], [], [])
    end.

  (** fe.py:220-261 *)
  Definition Dirichlet_boundary_conditions (pts : list (list K))
      (info : option (list location_fn * list nat * list (list K -> K))) : result bc_lists :=
    match info with
    | None => Ok ([], [], [])
    | Some (locs, vecs, values) =>
        if (length locs =? length values)%nat && (length values =? length vecs)%nat
        then dirichlet_loop pts locs vecs values
        else Err AssertionErr
    end.

  (** fe.py:263-269 *)
  Definition update_Dirichlet_boundary_conditions (f : fe)
      (info : option (list location_fn * list nat * list (list K -> K))) : result fe :=
    match Dirichlet_boundary_conditions (points f) info with
    | Err e => Err e
    | Ok (ns, vs, ws) =>
        Ok (mkFe (points f) (cells f) (vec f) (dim f) (num_quads f) (num_nodes f) (num_faces f)
              (num_face_quads f) (shape_vals f) (shape_grads_ref f) (quad_weights f)
              (face_shape_vals f) (face_shape_grads_ref f) (face_quad_weights f) (face_normals f)
              (face_inds f) ns vs ws)
    end.

  (** fe.py:294-296 and 307-313: flags[c][fc] = all vertices of local face fc of
      cell c satisfy the location function. *)
  Definition boundary_flags (f : fe) (g : list K -> nat -> bool) : list (list bool) :=
    map (fun cell =>
           map (fun face =>
                  forallb (fun a => let n := gather 0%nat cell a in g (gather [] (points f) n) n) face)
               (face_inds f))
        (cells f).

  Fixpoint boundary_loop (f : fe) (locs : list location_fn) : result (list (list (nat * nat))) :=
    match locs with
    | [] => Ok []
    | l :: locs' =>
        match as_loc2 l with
        | Err e => Err e
        | Ok g =>
            match boundary_loop f locs' with
            | Err e => Err e
            | Ok r => Ok (argwhere2 (boundary_flags f g) :: r)
            end
        end
    end.

  (** fe.py:271-322 *)
  Definition get_boundary_conditions_inds (f : fe) (location_fns : option (list location_fn))
    : result (list (list (nat * nat))) :=
    match location_fns with
    | None => Ok []
    | Some locs => boundary_loop f locs
    end.
End Fe.
Arguments Ok {A}. Arguments Err {A}.
Arguments fe : clear implicits.
Arguments location_fn : clear implicits.
Arguments mat : clear implicits.
