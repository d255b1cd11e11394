(** Model of jax_fem/basis.py: element tables, index re-ordering, shape functions.
    The tables of the external library basix that the code reads (reference vertices,
    sub-entity connectivity, nodal points of the degree 1 and 2 Lagrange elements) are
    written out here as data, and tabulation of an element is the evaluation of the polynomials
    dual to its degrees of freedom: values at the nodes (Lagrange), values at the vertices and
    averages over the edges (serendipity, degree 2). *)
From Coq Require Import List Arith Lia Bool ZArith String InitialRing.
From Verif Require Import Num Arr Fe.
Import ListNotations.
Local Open Scope num_scope.

(** ** basix data *)
Inductive cell_type := Interval | Triangle | Quadrilateral | Tetrahedron | Hexahedron.
Inductive family := FamilyP | FamilySerendipity.

Definition cell_dim (c : cell_type) : nat :=
  match c with Interval => 1 | Triangle | Quadrilateral => 2 | Tetrahedron | Hexahedron => 3 end.
(** basix.geometry: coordinates of the reference vertices (all 0 or 1). *)
Definition geometry (c : cell_type) : list (list nat) :=
  match c with
  | Interval => [[0]; [1]]
  | Triangle => [[0; 0]; [1; 0]; [0; 1]]
  | Quadrilateral => [[0; 0]; [1; 0]; [0; 1]; [1; 1]]
  | Tetrahedron => [[0; 0; 0]; [1; 0; 0]; [0; 1; 0]; [0; 0; 1]]
  | Hexahedron => [[0; 0; 0]; [1; 0; 0]; [0; 1; 0]; [1; 1; 0]; [0; 0; 1]; [1; 0; 1]; [0; 1; 1]; [1; 1; 1]]
  end%nat.
(** basix.cell.sub_entity_connectivity: vertices of the edges, and of the faces *)
Definition edges (c : cell_type) : list (list nat) :=
  match c with
  | Interval => [[0; 1]]
  | Triangle => [[1; 2]; [0; 2]; [0; 1]]
  | Quadrilateral => [[0; 1]; [0; 2]; [1; 3]; [2; 3]]
  | Tetrahedron => [[2; 3]; [1; 3]; [1; 2]; [0; 3]; [0; 2]; [0; 1]]
  | Hexahedron => [[0; 1]; [0; 2]; [0; 4]; [1; 3]; [1; 5]; [2; 3]; [2; 6]; [3; 7]; [4; 5]; [4; 6]; [5; 7]; [6; 7]]
  end%nat.
Definition faces3 (c : cell_type) : list (list nat) :=
  match c with
  | Tetrahedron => [[1; 2; 3]; [0; 2; 3]; [0; 1; 3]; [0; 1; 2]]
  | Hexahedron => [[0; 1; 2; 3]; [0; 1; 4; 5]; [0; 2; 4; 6]; [1; 3; 5; 7]; [2; 3; 6; 7]; [4; 5; 6; 7]]
  | _ => []
  end%nat.
(** the facets (entities of dimension dim - 1) *)
Definition facets (c : cell_type) : list (list nat) :=
  match cell_dim c with 2%nat => edges c | 3%nat => faces3 c | _ => [[0]; [1]]%nat end.

(** Nodes of the Lagrange elements, coordinates doubled: vertices, then (degree 2) edge
    midpoints, then midpoints of quadrilateral faces, then the centre of a hexahedron or quadrilateral. *)
Definition vertex2 (c : cell_type) (i : nat) : list nat := map (Nat.mul 2) (nth i (geometry c) []).
Definition midpoint2 (c : cell_type) (vs : list nat) : list nat :=
  map (fun k => (2 * fold_right Nat.add 0 (map (fun i => nth k (nth i (geometry c) []) 0) vs) / List.length vs)%nat)
      (seq 0 (cell_dim c)).
Definition lagrange_nodes2 (c : cell_type) (degree : nat) : list (list nat) :=
  map (vertex2 c) (seq 0 (List.length (geometry c))) ++
  match degree with
  | 2%nat =>
      map (midpoint2 c) (edges c) ++
      match c with
      | Hexahedron => map (midpoint2 c) (faces3 c) ++ [[1; 1; 1]%nat]
      | Quadrilateral => [[1; 1]%nat]
      | _ => []
      end
  | _ => []
  end.

(** ** Polynomials *)
Inductive pexp :=
| PZ (z : Z) | PX (i : nat) | PAdd (p q : pexp) | PSub (p q : pexp) | PMul (p q : pexp).
Definition ofZ {K : ops} : Z -> K := gen_phiZ (@zero K) one add mul opp.
Fixpoint peval {K : ops} (x : nat -> K) (p : pexp) : K :=
  match p with
  | PZ z => ofZ z
  | PX i => x i
  | PAdd p q => peval x p + peval x q
  | PSub p q => peval x p - peval x q
  | PMul p q => peval x p * peval x q
  end.
(** partial derivative with respect to variable i *)
Fixpoint pderiv (i : nat) (p : pexp) : pexp :=
  match p with
  | PZ _ => PZ 0
  | PX j => PZ (if (i =? j)%nat then 1 else 0)
  | PAdd p q => PAdd (pderiv i p) (pderiv i q)
  | PSub p q => PSub (pderiv i p) (pderiv i q)
  | PMul p q => PAdd (PMul (pderiv i p) q) (PMul p (pderiv i q))
  end.

(** Nodal polynomials on [0,1]: the node is given by its doubled coordinate. *)
Definition lag1 (degree node : nat) (x : pexp) : pexp :=
  match degree, node with
  | 1%nat, 0%nat => PSub (PZ 1) x
  | 1%nat, _ => x
  | _, 0%nat => PMul (PSub (PZ 1) x) (PSub (PZ 1) (PMul (PZ 2) x))
  | _, 1%nat => PMul (PZ 4) (PMul x (PSub (PZ 1) x))
  | _, _ => PMul x (PSub (PMul (PZ 2) x) (PZ 1))
  end.
Fixpoint tensor (degree i : nat) (node : list nat) : pexp :=
  match node with
  | [] => PZ 1
  | [n] => lag1 degree n (PX i)
  | n :: t => PMul (lag1 degree n (PX i)) (tensor degree (S i) t)
  end.
(** barycentric coordinate of vertex i of the simplex *)
Definition bary (dim i : nat) : pexp :=
  match i with
  | O => fold_left PSub (map PX (seq 0 dim)) (PZ 1)
  | S i' => PX i'
  end.
(** doubled barycentric coordinates of a node *)
Definition bary2 (node : list nat) : list nat := (2 - fold_right Nat.add 0 node)%nat :: node.
Definition simplex_fn (dim degree : nat) (node : list nat) : pexp :=
  let support := filter (fun i => negb (nth i (bary2 node) 0 =? 0)%nat) (seq 0 (S dim)) in
  match degree, support with
  | 1%nat, i :: _ => bary dim i
  | _, [i] => PMul (bary dim i) (PSub (PMul (PZ 2) (bary dim i)) (PZ 1))
  | _, i :: j :: _ => PMul (PZ 4) (PMul (bary dim i) (bary dim j))
  | _, [] => PZ 0
  end.
Definition lagrange_fns (c : cell_type) (degree : nat) : list pexp :=
  map (match c with
       | Interval | Quadrilateral | Hexahedron => tensor degree 0
       | Triangle | Tetrahedron => simplex_fn (cell_dim c) degree
       end) (lagrange_nodes2 c degree).


(** basix's serendipity element of degree 2: the degrees of freedom are the values at the vertices and the
    averages over the edges (integral moments against the constants), in this order.  [bubble]: the function that is
    x (1 - x) along the edge whose midpoint has the doubled coordinates [node], linear across and zero on the other edges. *)
Fixpoint bubble (i : nat) (node : list nat) : pexp :=
  match node with
  | [] => PZ 1
  | n :: t =>
      let b := match n with 1%nat => PMul (PX i) (PSub (PZ 1) (PX i)) | _ => lag1 1 n (PX i) end in
      match t with [] => b | _ => PMul b (bubble (S i) t) end
  end.
Definition edge_fn (c : cell_type) (e : list nat) : pexp := PMul (PZ 6) (bubble 0 (midpoint2 c e)).
Definition corner_fn (c : cell_type) (v : nat) : pexp :=
  fold_left (fun p e => if existsb (Nat.eqb v) e then PSub p (PMul (PZ 3) (bubble 0 (midpoint2 c e))) else p) (edges c) (tensor 1 0 (vertex2 c v)).
Definition serendipity_fns (c : cell_type) : list pexp :=
  map (corner_fn c) (seq 0 (List.length (geometry c))) ++ map (edge_fn c) (edges c).

(** ** jax_fem/basis.py *)
Record element_info := mkInfo {
  element_family : family;
  basix_ele : cell_type;
  basix_face_ele : cell_type;
  quadrature_order_default : nat;
  degree : nat;
  re_order : list nat
}.
Local Open Scope nat_scope.
(** basis.py:19-114 *)
Definition get_elements (ele_type : string) : result element_info :=
  if String.eqb ele_type "HEX8" then
    Ok (mkInfo FamilyP Hexahedron Quadrilateral 2 1 [0; 1; 3; 2; 4; 5; 7; 6])
  else if String.eqb ele_type "HEX27" then
    Ok (mkInfo FamilyP Hexahedron Quadrilateral 10 2
         [0; 1; 3; 2; 4; 5; 7; 6; 8; 11; 13; 9; 16; 18; 19; 17; 10; 12; 15; 14; 22; 23; 21; 24; 20; 25; 26])
  else if String.eqb ele_type "HEX20" then
    Ok (mkInfo FamilySerendipity Hexahedron Quadrilateral 2 2
         [0; 1; 3; 2; 4; 5; 7; 6; 8; 11; 13; 9; 16; 18; 19; 17; 10; 12; 15; 14])
  else if String.eqb ele_type "TET4" then
    Ok (mkInfo FamilyP Tetrahedron Triangle 0 1 [0; 1; 2; 3])
  else if String.eqb ele_type "TET10" then
    Ok (mkInfo FamilyP Tetrahedron Triangle 2 2 [0; 1; 2; 3; 9; 6; 8; 7; 5; 4])
  else if String.eqb ele_type "QUAD4" then
    Ok (mkInfo FamilyP Quadrilateral Interval 2 1 [0; 1; 3; 2])
  else if String.eqb ele_type "QUAD8" then
    Ok (mkInfo FamilySerendipity Quadrilateral Interval 2 2 [0; 1; 3; 2; 4; 6; 7; 5])
  else if String.eqb ele_type "TRI3" then
    Ok (mkInfo FamilyP Triangle Interval 0 1 [0; 1; 2])
  else if String.eqb ele_type "TRI6" then
    Ok (mkInfo FamilyP Triangle Interval 2 2 [0; 1; 2; 5; 3; 4])
  else Err NotImplementedErr.

(** onp.argwhere(re_order == ind), basis.py:122: all positions of ind. *)
Definition positions (re_order : list nat) (ind : nat) : list nat :=
  argwhere (map (Nat.eqb ind) re_order).
(** basis.py:117-124.  The result is reshaped to the shape of [inds]; this succeeds only if
    there are as many hits as entries. numpy builds a rectangular array only if all rows have
    the same number of hits; ragged rows raise. *)
Definition reorder_inds (inds : list (list nat)) (re_order : list nat) : result (list (list nat)) :=
  let hits := map (map (positions re_order)) inds in
  if forallb (forallb (fun h => List.length h =? 1)) hits
  then Ok (map (map (fun h => hd 0 h)) hits)
  else Err ValueErr.

(** generate_mesh.py:83-117 *)
Definition get_meshio_cell_type (ele_type : string) : result string :=
  if String.eqb ele_type "TET4" then Ok "tetra"%string
  else if String.eqb ele_type "TET10" then Ok "tetra10"%string
  else if String.eqb ele_type "HEX8" then Ok "hexahedron"%string
  else if String.eqb ele_type "HEX27" then Ok "hexahedron27"%string
  else if String.eqb ele_type "HEX20" then Ok "hexahedron20"%string
  else if String.eqb ele_type "TRI3" then Ok "triangle"%string
  else if String.eqb ele_type "TRI6" then Ok "triangle6"%string
  else if String.eqb ele_type "QUAD4" then Ok "quad"%string
  else if String.eqb ele_type "QUAD8" then Ok "quad8"%string
  else Err NotImplementedErr.
Local Close Scope nat_scope.

Section Tables.
  Context {K : ops}.
  Definition pt (x : list K) (i : nat) : K := nth i x 0.

  (** basix.create_element(element_family, basix_ele, degree), basis.py:170, 242: its functions.  Simplification: the serendipity
      family only with degree 2, which is the one get_elements asks for. *)
  Definition element_fns (info : element_info) : list pexp :=
    match element_family info with
    | FamilyP => lagrange_fns (basix_ele info) (degree info)
    | FamilySerendipity => serendipity_fns (basix_ele info)
    end.
  (** element.tabulate(1, pts)[:, :, re_order, :], basis.py:171-173:
      values and gradients of the a-th re-ordered function at the point x. *)
  Definition shape_value (info : element_info) (x : list K) (a : nat) : K :=
    peval (pt x) (nth (nth a (re_order info) 0%nat) (element_fns info) (PZ 0)).
  Definition shape_grad (info : element_info) (x : list K) (a j : nat) : K :=
    peval (pt x) (pderiv j (nth (nth a (re_order info) 0%nat) (element_fns info) (PZ 0))).

  (** coordinates of reference vertex i as numbers *)
  Definition vertexK (c : cell_type) (i j : nat) : K :=
    ofZ (Z.of_nat (nth j (nth i (geometry c) []) 0%nat)).
  (** basis.py:203-217: the face quadrature point x mapped to facet number f.
      (sum of the facet's vertices weighted by the linear functions of the face cell). *)
  Definition facet_point (info : element_info) (f : nat) (x : list K) : list K :=
    let facet := nth f (facets (basix_ele info)) [] in
    let fns := lagrange_fns (basix_face_ele info) 1 in
    map (fun j => sum_n (List.length facet) (fun k =>
           vertexK (basix_ele info) (nth k facet 0%nat) j * peval (pt x) (nth k fns (PZ 0))))
        (seq 0 (cell_dim (basix_ele info))).
  (** basix.cell.facet_jacobians: column k of facet f is vertex k+1 minus vertex 0 of the facet. *)
  Definition facet_jacobian (c : cell_type) (f j k : nat) : K :=
    let facet := nth f (facets c) [] in
    vertexK c (nth (S k) facet 0%nat) j - vertexK c (nth 0 facet 0%nat) j.
  Definition cross (a b : nat -> K) (i : nat) : K :=
    match i with
    | 0%nat => a 1%nat * b 2%nat - a 2%nat * b 1%nat
    | 1%nat => a 2%nat * b 0%nat - a 0%nat * b 2%nat
    | _ => a 0%nat * b 1%nat - a 1%nat * b 0%nat
    end.
  (** basis.py:219-223 *)
  Definition size_jacobian (sqrtK : K -> K) (c : cell_type) (f : nat) : K :=
    match cell_dim c with
    | 2%nat => sqrtK (sum_n 2 (fun j => facet_jacobian c f j 0 * facet_jacobian c f j 0))
    | _ => let n := cross (fun j => facet_jacobian c f j 0) (fun j => facet_jacobian c f j 1) in
           sqrtK (sum_n 3 (fun j => n j * n j))
    end.

  (** get_shape_vals_and_grads and get_face_shape_vals_and_grads (basis.py:141-250) filled into the
      attributes of FiniteElement (fe.py:76-106).  [quad], [fquad]: points and weights from
      basix.make_quadrature; [normals]: basix.cell.facet_outward_normals. *)
  Definition make_fe (sqrtK : K -> K) (info : element_info)
      (quad fquad : list (list K) * list K) (normals : nat -> nat -> K)
      (pts : list (list K)) (cls : list (list nat)) (vec_ dim_ : nat) (fi : list (list nat))
      (bc : list (list nat) * list (list nat) * list (list K)) : fe K :=
    let '(ns, vs, ws) := bc in
    mkFe pts cls vec_ dim_ (List.length (fst quad)) (List.length (re_order info))
      (List.length (facets (basix_ele info))) (List.length (fst fquad))
      (fun q a => shape_value info (nth q (fst quad) []) a)
      (fun q a j => shape_grad info (nth q (fst quad) []) a j)
      (fun q => nth q (snd quad) 0)
      (fun f q a => shape_value info (facet_point info f (nth q (fst fquad) [])) a)
      (fun f q a j => shape_grad info (facet_point info f (nth q (fst fquad) [])) a j)
      (fun f q => nth q (snd fquad) 0 * size_jacobian sqrtK (basix_ele info) f)
      normals fi ns vs ws.

  (** FiniteElement.__post_init__, fe.py:76-113. *)
  Definition fe_init (sqrtK : K -> K) (ele_type : string) (quad fquad : list (list K) * list K)
      (normals : nat -> nat -> K) (pts : list (list K)) (cls : list (list nat)) (vec_ dim_ : nat)
      (dirichlet : option (list (location_fn K) * list nat * list (list K -> K))) : result (fe K) :=
    match get_elements ele_type with
    | Err e => Err e
    | Ok info =>
        match reorder_inds (facets (basix_ele info)) (re_order info) with
        | Err e => Err e
        | Ok fi =>
            match Dirichlet_boundary_conditions pts dirichlet with
            | Err e => Err e
            | Ok bc => Ok (make_fe sqrtK info quad fquad normals pts cls vec_ dim_ fi bc)
            end
        end
    end.

  (** Mesh.count_selected_faces, generate_mesh.py:29-55; [ele_type] is the mesh's own.
      A cell with too few nodes makes onp.take raise IndexError.  Simplification: onp.take is taken
      to act as on numpy arrays (self.points is a jax array, whose take method may not accept
      numpy's default mode='raise'; that depends on the installed versions). *)
  Definition count_selected_faces (ele_type : string) (pts : list (list K)) (cls : list (list nat))
      (location_fn : list K -> bool) : result nat :=
    match get_elements ele_type with
    | Err e => Err e
    | Ok info =>
        match reorder_inds (facets (basix_ele info)) (re_order info) with
        | Err e => Err e
        | Ok fi =>
            if forallb (fun cell => forallb (forallb (fun a => a <? List.length cell)%nat) fi
                                    && forallb (fun n => n <? List.length pts)%nat cell) cls
            then Ok (List.length (argwhere2
                   (map (fun cell => map (forallb (fun a => location_fn (nth (nth a cell 0%nat) pts []))) fi) cls)))
            else Err IndexErr
        end
    end.
End Tables.
