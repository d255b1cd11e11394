(** C71: the bookkeeping of active and quiet elements. *)
From Coq Require Import String List Arith Bool Permutation.
From Verif Require Import Num Arr Fe Problem Basis SpecFe SpecBc SelectFacts Quiet SpecQuiet QuietFacts QuietMain.
Import ListNotations.

(** C71. Whatever cells become active in whatever order, the faces reported after the last change are the outer faces of the
    active part, each once; *)
Theorem C71_external : forall cells face_inds tab news, List.length tab = List.length cells -> grow tab news ->
  exists ext, external_faces cells face_inds tab news = Ok ext /\ NoDup ext /\
    forall c f, In (c, f) ext <-> outer_face cells face_inds (last news tab) c f.
Proof. exact external_ok. Qed.
Print Assumptions C71_external.

(** the table of face markers has in the row of each boundary face whether it is an outer face, and whether moreover all its
    points are at the height of the laser; it is built without error; *)
Theorem C71_markers : forall (K : ops) sqrtK s quad fquad normals pts cls v d dir (f : fe K),
  fe_init sqrtK s quad fquad normals pts cls v d dir = Ok f -> mesh_ok f ->
  forall top tab news b, List.length tab = List.length (cells f) -> grow tab news ->
  get_boundary_conditions_inds f (Some [Loc1 (fun _ => true)]) = Ok [b] ->
  exists ext ft, external_faces (cells f) (face_inds f) tab news = Ok ext /\
    get_active_face_truth_tab top (points f) (cells f) (face_inds f) b ext = Ok ft /\ List.length ft = List.length b /\
    forall i c fc, nth_error b i = Some (c, fc) ->
      (fst (nth i ft (false, false)) = true <-> outer_face (cells f) (face_inds f) (last news tab) c fc) /\
      (snd (nth i ft (false, false)) = true <-> outer_face (cells f) (face_inds f) (last news tab) c fc /\
         top (map (fun n => nth n (points f) []) (face_nodes (cells f) (face_inds f) c fc)) = true).
Proof.
  intros K sq s qd fq nm p cl v d dr f B HM top tab news b.
  exact (face_table f top (built_faces_ok _ _ _ _ _ _ _ _ _ _ _ B HM) tab news b).
Qed.
Print Assumptions C71_markers.

(** the points held at the given temperature are those of no active cell. *)
Theorem C71_held : forall (K : ops) (f f' : fe K) tab q (T : K),
  get_quiet_point_inds_set (List.length (points f)) (cells f) tab = Ok q ->
  update_Dirichlet_boundary_conditions f (Some ([Loc2 (dirichlet_location_fn q)], [0], [fun _ => T])) = Ok f' ->
  forall n, n < List.length (points f) ->
    ((forall c, c < List.length (cells f) -> nth c tab false = true -> ~ In n (nth c (cells f) [])) -> prescribed f' n 0 = Some T) /\
    ((exists c, c < List.length (cells f) /\ nth c tab false = true /\ In n (nth c (cells f) [])) -> prescribed f' n 0 = None) /\
    (forall j, j <> 0 -> prescribed f' n j = None).
Proof. exact (@quiet_held). Qed.
Print Assumptions C71_held.

(** The update checks only that the number of active cells does not fall: a cell that becomes quiet while another one becomes
    active keeps its faces.  Two cells with one face each; cell 0 is replaced by cell 1. *)
Theorem C71_shrinking_refuted : exists cells face_inds tab new ext, List.length tab = List.length cells /\ List.length new = List.length cells /\
  external_faces cells face_inds tab [new] = Ok ext /\ ~ (forall c f, In (c, f) ext <-> outer_face cells face_inds new c f).
Proof.
  exists [[0; 1]; [2; 3]], [[0; 1]], [true; false], [false; true], [(0, 0); (1, 0)].
  repeat (split; [reflexivity|]). intros H. destruct (proj1 (H 0 0) (or_introl eq_refl)) as [(_ & _ & A) _]. discriminate A.
Qed.
Print Assumptions C71_shrinking_refuted.

(** If it falls, AssertionError is raised. *)
Theorem C71_fewer_raises : forall old new cells_face st, count_true new < count_true old -> update_hash_map old new cells_face st = Err AssertionErr.
Proof. intros old new cf st H. unfold update_hash_map. now rewrite (proj2 (Nat.leb_gt _ _) H). Qed.
Print Assumptions C71_fewer_raises.

(** Three quadrilaterals in a row (nodes 0-3 below, 4-7 above), activated in the order 0, 2, 1: the end faces and the sides. *)
Definition row_cells : list (list nat) := [[0; 1; 5; 4]; [1; 2; 6; 5]; [2; 3; 7; 6]].
Definition quad_faces : list (list nat) := [[0; 1]; [1; 2]; [2; 3]; [3; 0]].
Example C71_row : grow [true; false; false] [[true; false; true]; [true; false; true]; [true; true; true]] /\
  external_faces row_cells quad_faces [true; false; false] [[true; false; true]] = Ok [(0, 0); (0, 1); (0, 2); (0, 3); (2, 0); (2, 1); (2, 2); (2, 3)] /\
  external_faces row_cells quad_faces [true; false; false] [[true; false; true]; [true; false; true]; [true; true; true]]
    = Ok [(0, 0); (0, 2); (0, 3); (2, 0); (2, 1); (2, 2); (1, 0); (1, 2)].
Proof. split; [|split; reflexivity]. cbn. repeat split; intros [|[|[|[|c]]]]; cbn; auto. Qed.
