(** C44-C47, C67: structured meshes, the clean-up of the cylinder mesh, the tetrahedron check. *)
From Coq Require Import String List Arith Reals ZArith.
From Verif Require Import Num Arr Fe Problem Basis SpecBasis SpecFe Mesh SpecMesh MeshMain MeshFe.
Import ListNotations.
Local Open Scope R_scope.

(** C44. *)
Theorem C44_layout : forall Nx Ny Lx Ly, (0 < Nx)%nat -> (0 < Ny)%nat ->
  let M := rectangle_mesh Nx Ny Lx Ly in
  let p i j := (i * (Ny + 1) + j)%nat in
  m_type M = "quad"%string /\
  length (m_points M) = ((Nx + 1) * (Ny + 1))%nat /\ length (m_cells M) = (Nx * Ny)%nat /\
  (forall i j, (i <= Nx)%nat -> (j <= Ny)%nat -> nth (p i j) (m_points M) [] = [INR i * Lx / INR Nx; INR j * Ly / INR Ny]) /\
  (forall i j, (i < Nx)%nat -> (j < Ny)%nat ->
     nth (i * Ny + j) (m_cells M) [] = [p i j; p (i + 1) j; p (i + 1) (j + 1); p i (j + 1)]%nat).
Proof.
  intros Nx Ny Lx Ly HX HY M p. split; [exact (rect_type Nx Ny Lx Ly)|]. split; [exact (rect_points_len Nx Ny Lx Ly HX HY)|].
  split; [exact (rect_cells_len Nx Ny Lx Ly HX HY)|]. split; [exact (rect_point Nx Ny Lx Ly HX HY)|exact (rect_cell Nx Ny Lx Ly HX HY)].
Qed.
Print Assumptions C44_layout.

(** Cells use existing points, every point is used, nothing is repeated. *)
Theorem C44_conforming : forall Nx Ny Lx Ly, (0 < Nx)%nat -> (0 < Ny)%nat ->
  let M := rectangle_mesh Nx Ny Lx Ly in
  NoDup (m_cells M) /\
  (forall c, In c (m_cells M) -> NoDup c /\ forall p, In p c -> (p < length (m_points M))%nat) /\
  (forall p, (p < length (m_points M))%nat -> exists c, In c (m_cells M) /\ In p c) /\
  (Lx <> 0 -> Ly <> 0 -> NoDup (m_points M)).
Proof.
  intros Nx Ny Lx Ly HX HY M. split; [exact (rect_nodup_cells Nx Ny Lx Ly HX HY)|]. split.
  - intros c Hc. split; [exact (rect_nodup_cell Nx Ny Lx Ly HX HY c Hc)|intros p; exact (rect_valid Nx Ny Lx Ly HX HY c p Hc)].
  - split; [exact (rect_used Nx Ny Lx Ly HX HY)|exact (rect_nodup_points Nx Ny Lx Ly HX HY)].
Qed.
Print Assumptions C44_conforming.

(** The cells are counter-clockwise, cover exactly the rectangle, and do not overlap; a point of the mesh that touches a
    cell is one of its corners; the areas add up. *)
Theorem C44_tiling : forall Nx Ny Lx Ly, (0 < Nx)%nat -> (0 < Ny)%nat -> 0 < Lx -> 0 < Ly ->
  let M := rectangle_mesh Nx Ny Lx Ly in
  (forall c, In c (m_cells M) -> 0 < quad_area M c) /\
  (forall x y, 0 <= x <= Lx /\ 0 <= y <= Ly <-> exists c, In c (m_cells M) /\ in_quad M c x y) /\
  (forall x y c c', In c (m_cells M) -> In c' (m_cells M) -> inside_quad M c x y -> inside_quad M c' x y -> c = c') /\
  (forall p c, (p < length (m_points M))%nat -> In c (m_cells M) ->
     in_quad M c (nth 0 (nth p (m_points M) []) 0) (nth 1 (nth p (m_points M) []) 0) -> In p c).
Proof.
  intros Nx Ny Lx Ly HX HY PX PY M. split; [exact (rect_oriented Nx Ny Lx Ly HX HY PX PY)|]. split; [exact (rect_cover Nx Ny Lx Ly HX HY PX PY)|].
  split; [exact (rect_disjoint Nx Ny Lx Ly HX HY PX PY)|exact (rect_no_hanging Nx Ny Lx Ly HX HY PX PY)].
Qed.
Print Assumptions C44_tiling.

Theorem C44_area : forall Nx Ny Lx Ly, (0 < Nx)%nat -> (0 < Ny)%nat ->
  let M := rectangle_mesh Nx Ny Lx Ly in over_cells M (quad_area M) = Lx * Ly.
Proof. exact rect_total. Qed.
Print Assumptions C44_area.

(** Both divisions are non-trivial. *)
Example C44_nonvacuous :
  m_cells (rectangle_mesh 2 3 4 6) = [[0; 4; 5; 1]; [1; 5; 6; 2]; [2; 6; 7; 3]; [4; 8; 9; 5]; [5; 9; 10; 6]; [6; 10; 11; 7]]%nat /\
  in_quad (rectangle_mesh 2 3 4 6) [5; 9; 10; 6]%nat 3 3 /\ ~ in_quad (rectangle_mesh 2 3 4 6) [4; 8; 9; 5]%nat 3 3.
Proof.
  split; [reflexivity|]. unfold in_quad, turn, vertex. cbn -[Rlt Rle Rplus Rmult Rminus Rdiv]. split.
  - repeat split; Lra.lra.
  - intros (_ & _ & H & _). Lra.lra.
Qed.

(** C45. *)
Theorem C45_layout : forall Nx Ny Nz Lx Ly Lz, (0 < Nx)%nat -> (0 < Ny)%nat -> (0 < Nz)%nat ->
  let M := box_mesh Nx Ny Nz Lx Ly Lz in
  let p i j k := ((i * (Ny + 1) + j) * (Nz + 1) + k)%nat in
  m_type M = "hexahedron"%string /\
  length (m_points M) = ((Nx + 1) * (Ny + 1) * (Nz + 1))%nat /\ length (m_cells M) = (Nx * Ny * Nz)%nat /\
  (forall i j k, (i <= Nx)%nat -> (j <= Ny)%nat -> (k <= Nz)%nat ->
     nth (p i j k) (m_points M) [] = [INR i * Lx / INR Nx; INR j * Ly / INR Ny; INR k * Lz / INR Nz]) /\
  (forall i j k, (i < Nx)%nat -> (j < Ny)%nat -> (k < Nz)%nat ->
     nth ((i * Ny + j) * Nz + k) (m_cells M) [] =
     [p i j k; p (i + 1) j k; p (i + 1) (j + 1) k; p i (j + 1) k;
      p i j (k + 1); p (i + 1) j (k + 1); p (i + 1) (j + 1) (k + 1); p i (j + 1) (k + 1)]%nat).
Proof.
  intros Nx Ny Nz Lx Ly Lz HX HY HZ M p. split; [exact (box_type Nx Ny Nz Lx Ly Lz)|]. split; [exact (box_points_len Nx Ny Nz Lx Ly Lz HX HY HZ)|].
  split; [exact (box_cells_len Nx Ny Nz Lx Ly Lz HX HY HZ)|].
  split; [exact (box_point Nx Ny Nz Lx Ly Lz HX HY HZ)|exact (box_cell Nx Ny Nz Lx Ly Lz HX HY HZ)].
Qed.
Print Assumptions C45_layout.

Theorem C45_conforming : forall Nx Ny Nz Lx Ly Lz, (0 < Nx)%nat -> (0 < Ny)%nat -> (0 < Nz)%nat ->
  let M := box_mesh Nx Ny Nz Lx Ly Lz in
  NoDup (m_cells M) /\
  (forall c, In c (m_cells M) -> NoDup c /\ forall p, In p c -> (p < length (m_points M))%nat) /\
  (forall p, (p < length (m_points M))%nat -> exists c, In c (m_cells M) /\ In p c) /\
  (Lx <> 0 -> Ly <> 0 -> Lz <> 0 -> NoDup (m_points M)).
Proof.
  intros Nx Ny Nz Lx Ly Lz HX HY HZ M. split; [exact (box_nodup_cells Nx Ny Nz Lx Ly Lz HX HY HZ)|]. split.
  - intros c Hc. split; [exact (box_nodup_cell Nx Ny Nz Lx Ly Lz HX HY HZ c Hc)|intros p; exact (box_valid Nx Ny Nz Lx Ly Lz HX HY HZ c p Hc)].
  - split; [exact (box_used Nx Ny Nz Lx Ly Lz HX HY HZ)|exact (box_nodup_points Nx Ny Nz Lx Ly Lz HX HY HZ)].
Qed.
Print Assumptions C45_conforming.

Theorem C45_tiling : forall Nx Ny Nz Lx Ly Lz, (0 < Nx)%nat -> (0 < Ny)%nat -> (0 < Nz)%nat -> 0 < Lx -> 0 < Ly -> 0 < Lz ->
  let M := box_mesh Nx Ny Nz Lx Ly Lz in
  (forall c, In c (m_cells M) -> 0 < hex_volume M c) /\
  (forall x y z, 0 <= x <= Lx /\ 0 <= y <= Ly /\ 0 <= z <= Lz <-> exists c, In c (m_cells M) /\ in_hex M c x y z) /\
  (forall x y z c c', In c (m_cells M) -> In c' (m_cells M) -> inside_hex M c x y z -> inside_hex M c' x y z -> c = c') /\
  (forall p c, (p < length (m_points M))%nat -> In c (m_cells M) ->
     (let X := nth p (m_points M) [] in in_hex M c (nth 0 X 0) (nth 1 X 0) (nth 2 X 0)) -> In p c).
Proof.
  intros Nx Ny Nz Lx Ly Lz HX HY HZ PX PY PZ M. split; [exact (box_oriented Nx Ny Nz Lx Ly Lz HX HY HZ PX PY PZ)|].
  split; [exact (box_cover Nx Ny Nz Lx Ly Lz HX HY HZ PX PY PZ)|].
  split; [exact (box_disjoint Nx Ny Nz Lx Ly Lz HX HY HZ PX PY PZ)|exact (box_no_hanging Nx Ny Nz Lx Ly Lz HX HY HZ PX PY PZ)].
Qed.
Print Assumptions C45_tiling.

Theorem C45_volume : forall Nx Ny Nz Lx Ly Lz, (0 < Nx)%nat -> (0 < Ny)%nat -> (0 < Nz)%nat ->
  let M := box_mesh Nx Ny Nz Lx Ly Lz in over_cells M (hex_volume M) = Lx * Ly * Lz.
Proof. exact box_total. Qed.
Print Assumptions C45_volume.

Example C45_nonvacuous :
  m_cells (box_mesh 2 1 1 2 1 1) = [[0; 4; 6; 2; 1; 5; 7; 3]; [4; 8; 10; 6; 5; 9; 11; 7]]%nat /\
  in_hex (box_mesh 2 1 1 2 1 1) [4; 8; 10; 6; 5; 9; 11; 7]%nat (3 / 2) (1 / 2) (1 / 2).
Proof.
  split; [reflexivity|]. unfold in_hex, vertex. cbn -[Rlt Rle Rplus Rmult Rminus Rdiv]. repeat split; Lra.lra.
Qed.

(** C46. *)
Theorem C46_coordinates_kept : forall (P : Type) (points : list P) cells,
  (forall cell c, In cell cells -> In c cell -> (0 < c < Z.of_nat (length points))%Z /\ c <> 14%Z) ->
  let '(points', cells') := cylinder_cleanup points cells in
  map (map (np_index points')) cells' = map (map (np_index points)) cells.
Proof. exact @cleanup_cells. Qed.
Print Assumptions C46_coordinates_kept.

(** If the two dropped points are the only unused ones, no unused point is left. *)
Theorem C46_no_orphans : forall (P : Type) (points : list P) cells, (15 <= length points)%nat ->
  (forall c, (0 < c < Z.of_nat (length points))%Z -> c <> 14%Z -> exists cell, In cell cells /\ In c cell) ->
  let '(points', cells') := cylinder_cleanup points cells in
  length points' = (length points - 2)%nat /\
  forall n, (n < length points')%nat -> exists cell, In cell cells' /\ In (Z.of_nat n) cell.
Proof. exact @cleanup_no_orphans. Qed.
Print Assumptions C46_no_orphans.

(** The hypothesis on the cells is needed: nothing raises if a cell uses a dropped point; it is attached to another one. *)
Theorem C46_dropped_point_refuted : ~ (forall (points : list nat) cells,
  (forall cell c, In cell cells -> In c cell -> (0 <= c < Z.of_nat (length points))%Z) ->
  let '(points', cells') := cylinder_cleanup points cells in
  map (map (np_index points')) cells' = map (map (np_index points)) cells).
Proof.
  intros H. specialize (H (seq 0 20) [[14%Z]]). cbv [cylinder_cleanup] in H.
  assert (A : forall cell c, In cell [[14%Z]] -> In c cell -> (0 <= c < Z.of_nat (length (seq 0 20)))%Z).
  { intros cell c [<-|[]] [<-|[]]. vm_compute. split; congruence. }
  apply H in A. vm_compute in A. discriminate.
Qed.
Print Assumptions C46_dropped_point_refuted.

Example C46_nonvacuous :
  cylinder_cleanup (seq 0 18) [[1; 13; 15; 17]%Z] = ([1; 2; 3; 4; 5; 6; 7; 8; 9; 10; 11; 12; 13; 15; 16; 17]%nat, [[0; 12; 13; 15]%Z]).
Proof. reflexivity. Qed.

(** C47.  The value returned for a cell is the factor between JxW and the quadrature weight, at every quadrature point. *)
Theorem C47_jacobian : forall (K : ops) (KR : ring_laws K) (half : K) (f : fe K), add half half = one ->
  built_element "TET4" 3 f -> (forall p, In p (points f) -> length p = 3%nat) ->
  exists qs, check_mesh_TET4 (points f) (cells f) = Ok qs /\ length qs = num_cells f /\
  forall c q, (c < num_cells f)%nat -> get_JxW (points f) f c q = mul (nth c qs zero) (quad_weights f q).
Proof. intros K KR. exact (check_is_jacobian KR). Qed.
Print Assumptions C47_jacobian.

Theorem C47_translation : forall (K : ops) (KR : ring_laws K) (pts pts' : list (list K)) cells t, tet_mesh pts cells ->
  (forall p, In p pts' -> length p = 3%nat) -> translation 3 t pts pts' -> check_mesh_TET4 pts' cells = check_mesh_TET4 pts cells.
Proof. intros K KR. exact (check_translated KR). Qed.
Print Assumptions C47_translation.

Theorem C47_orientation : forall (K : ops) (KR : ring_laws K) (pts : list (list K)) cells a b, tet_mesh pts cells ->
  (a < 4)%nat -> (b < 4)%nat -> a <> b ->
  exists qs, check_mesh_TET4 pts cells = Ok qs /\ check_mesh_TET4 pts (map (swap_at a b) cells) = Ok (map opp qs).
Proof. intros K KR. exact (check_swapped KR). Qed.
Print Assumptions C47_orientation.

Theorem C47_arity : forall (K : ops) (pts : list (list K)) cells c, In c cells -> length c <> 4%nat ->
  exists e, check_mesh_TET4 pts cells = Err e.
Proof. exact (@check_wrong_arity). Qed.
Print Assumptions C47_arity.

Example C47_nonvacuous :
  let pts : list (list Zops) := [[0; 0; 0]; [2; 0; 0]; [0; 3; 0]; [1; 1; 5]; [0; 0; -1]]%Z in
  tet_mesh pts [[0; 1; 2; 3]; [0; 1; 2; 4]]%nat /\
  check_mesh_TET4 pts [[0; 1; 2; 3]; [0; 1; 2; 4]]%nat = Ok [30; -6]%Z /\
  check_mesh_TET4 pts (map (swap_at 2 3) [[0; 1; 2; 3]; [0; 1; 2; 4]]%nat) = Ok [-30; 6]%Z.
Proof.
  cbv zeta. split; [split|split; reflexivity].
  - intros p Hp. cbn in Hp. repeat destruct Hp as [<-|Hp]; try reflexivity. destruct Hp.
  - intros c Hc. cbn in Hc. destruct Hc as [<-|[<-|[]]]; (split; [reflexivity|]); intros n Hn; cbn in Hn |- *; Lia.lia.
Qed.

(** C67. On these meshes every Jacobian is the cell size, so JxW adds up to the area or volume (times the sum of the weights). *)
Theorem C67_rectangle : forall Nx Ny Lx Ly, (0 < Nx)%nat -> (0 < Ny)%nat -> let M := rectangle_mesh Nx Ny Lx Ly in
  forall sqrtK quad fquad normals v dir (f : fe Rops), fe_init (K := Rops) sqrtK "QUAD4" quad fquad normals (m_points M) (m_cells M) v 2 dir = Ok f ->
  built_element "QUAD4" 2 f /\ num_cells f = (Nx * Ny)%nat /\
  (forall c q, (c < Nx * Ny)%nat -> get_JxW (m_points M) f c q = (Lx / INR Nx) * (Ly / INR Ny) * quad_weights f q) /\
  sum_n (K := Rops) (num_cells f) (fun c => sum_n (K := Rops) (num_quads f) (get_JxW (m_points M) f c))
  = Lx * Ly * sum_n (K := Rops) (num_quads f) (quad_weights f).
Proof.
  intros Nx Ny Lx Ly HX HY M sqrtK quad fquad normals v dir f B. split; [|split; [|split]].
  - exact (rect_element Nx Ny Lx Ly HX HY _ _ _ _ _ _ f B).
  - exact (rect_num_cells Nx Ny Lx Ly HX HY _ _ _ _ _ _ f B).
  - exact (rect_JxW Nx Ny Lx Ly HX HY _ _ _ _ _ _ f B).
  - exact (rect_integral Nx Ny Lx Ly HX HY _ _ _ _ _ _ f B).
Qed.
Print Assumptions C67_rectangle.

Theorem C67_box : forall Nx Ny Nz Lx Ly Lz, (0 < Nx)%nat -> (0 < Ny)%nat -> (0 < Nz)%nat -> let M := box_mesh Nx Ny Nz Lx Ly Lz in
  forall sqrtK quad fquad normals v dir (f : fe Rops), fe_init (K := Rops) sqrtK "HEX8" quad fquad normals (m_points M) (m_cells M) v 3 dir = Ok f ->
  built_element "HEX8" 3 f /\ num_cells f = (Nx * Ny * Nz)%nat /\
  (forall c q, (c < Nx * Ny * Nz)%nat -> get_JxW (m_points M) f c q = (Lx / INR Nx) * (Ly / INR Ny) * (Lz / INR Nz) * quad_weights f q) /\
  sum_n (K := Rops) (num_cells f) (fun c => sum_n (K := Rops) (num_quads f) (get_JxW (m_points M) f c))
  = Lx * Ly * Lz * sum_n (K := Rops) (num_quads f) (quad_weights f).
Proof.
  intros Nx Ny Nz Lx Ly Lz HX HY HZ M sqrtK quad fquad normals v dir f B. split; [|split; [|split]].
  - exact (box_element Nx Ny Nz Lx Ly Lz HX HY HZ _ _ _ _ _ _ f B).
  - exact (box_num_cells Nx Ny Nz Lx Ly Lz HX HY HZ _ _ _ _ _ _ f B).
  - exact (box_JxW Nx Ny Nz Lx Ly Lz HX HY HZ _ _ _ _ _ _ f B).
  - exact (box_integral Nx Ny Nz Lx Ly Lz HX HY HZ _ _ _ _ _ _ f B).
Qed.
Print Assumptions C67_box.

(** Such elements exist on every mesh: the constructor returns when there is no Dirichlet data. *)
Theorem C67_nonvacuous : forall Nx Ny Nz Lx Ly Lz quad fquad normals v,
  (exists f, fe_init (K := Rops) sqrt "QUAD4" quad fquad normals (m_points (rectangle_mesh Nx Ny Lx Ly)) (m_cells (rectangle_mesh Nx Ny Lx Ly)) v 2 None = Ok f) /\
  (exists f, fe_init (K := Rops) sqrt "HEX8" quad fquad normals (m_points (box_mesh Nx Ny Nz Lx Ly Lz)) (m_cells (box_mesh Nx Ny Nz Lx Ly Lz)) v 3 None = Ok f).
Proof. intros. split; eexists; reflexivity. Qed.
Print Assumptions C67_nonvacuous.
