(** Model of the active/quiet element bookkeeping, applications/quiet_element/example.py:91-250. *)
From Coq Require Import List Arith Bool.
From Verif Require Import Num Arr Fe Problem.
Import ListNotations.

(** (cell_id, face_id) *)
Definition cface := (nat * nat)%type.
Definition cface_eqb (a b : cface) : bool := (fst a =? fst b) && (snd a =? snd b).
Fixpoint key_eqb (a b : list nat) : bool :=
  match a, b with
  | [], [] => true
  | x :: a', y :: b' => (x =? y) && key_eqb a' b'
  | _, _ => false
  end.

(** onp.sort along the last axis *)
Fixpoint insert (x : nat) (l : list nat) : list nat :=
  match l with [] => [x] | y :: l' => if (x <=? y) then x :: l else y :: insert x l' end.
Fixpoint sort (l : list nat) : list nat := match l with [] => [] | x :: l' => insert x (sort l') end.

(** The objects that hash_map_for_faces changes in place: the dict, inner_faces, all_faces *)
Record hstate := mkH { h_map : list (list nat * cface); h_inner : list cface; h_all : list cface }.
Fixpoint lookup (k : list nat) (m : list (list nat * cface)) : option cface :=
  match m with [] => None | (k', v) :: m' => if key_eqb k k' then Some v else lookup k m' end.

(** example.py:127-134 *)
Definition add_face (cells_face : list (list (list nat))) (st : hstate) (x : cface) : hstate :=
  let key := nth (snd x) (nth (fst x) cells_face []) [] in
  match lookup key (h_map st) with
  | Some y => mkH (h_map st) (h_inner st ++ [y; x]) (h_all st ++ [x])
  | None => mkH (h_map st ++ [(key, x)]) (h_inner st) (h_all st ++ [x])
  end.
(** example.py:123-134: one cell; an index out of range raises *)
Definition add_cell (tab : list bool) (cells_face : list (list (list nat))) (st : hstate) (c : nat) : result hstate :=
  match nth_error tab c with
  | None => Err IndexErr
  | Some false => Ok st
  | Some true =>
      match nth_error cells_face c with
      | None => Err IndexErr
      | Some faces => Ok (fold_left (fun st f => add_face cells_face st (c, f)) (seq 0 (length faces)) st)
      end
  end.
Fixpoint add_cells (tab : list bool) (cells_face : list (list (list nat))) (st : hstate) (cs : list nat) : result hstate :=
  match cs with
  | [] => Ok st
  | c :: cs' => bind (add_cell tab cells_face st c) (fun st => add_cells tab cells_face st cs')
  end.
(** set(all_faces) - set(inner_faces).  The order of a Python set is not specified: only membership and the absence of
    repetitions are used below. *)
Definition member (x : cface) (l : list cface) : bool := existsb (cface_eqb x) l.
Fixpoint to_set (l : list cface) : list cface :=
  match l with [] => [] | x :: l' => if member x l' then to_set l' else x :: to_set l' end.
Definition set_minus (a b : list cface) : list cface := filter (fun x => negb (member x b)) (to_set a).
(** example.py:91-137 *)
Definition hash_map_for_faces (tab : list bool) (cells_face : list (list (list nat))) (st : hstate) (cell_inds : list nat) : result (list cface * hstate) :=
  bind (add_cells tab cells_face st cell_inds) (fun st => Ok (set_minus (h_all st) (h_inner st), st)).

(** example.py:149-152.  Simplification: the entries of face_inds are numbers of nodes of a cell. *)
Definition faces_of (cells face_inds : list (list nat)) : list (list (list nat)) :=
  map (fun cell => map (fun inds => sort (map (fun a => nth a cell 0) inds)) face_inds) cells.
(** example.py:140-158 *)
Definition initialize_hash_map (cells face_inds : list (list nat)) (tab : list bool) : result (list cface * list (list (list nat)) * hstate) :=
  let cells_face := faces_of cells face_inds in
  bind (hash_map_for_faces tab cells_face (mkH [] [] []) (seq 0 (length cells_face))) (fun r => Ok (fst r, cells_face, snd r)).

(** onp.sum of a truth table *)
Definition count_true (tab : list bool) : nat := length (filter (fun b => b) tab).
(** onp.argwhere(old != new).reshape(-1), for tables of equal length *)
Definition changed (old new : list bool) : list nat :=
  filter (fun c => negb (Bool.eqb (nth c old false) (nth c new false))) (seq 0 (length new)).
(** example.py:161-171 *)
Definition update_hash_map (old new : list bool) (cells_face : list (list (list nat))) (st : hstate) : result (list cface * hstate) :=
  if (count_true old <=? count_true new)
  then hash_map_for_faces new cells_face st (changed old new)
  else Err AssertionErr.

(** example.py:309-314 in the loop over time steps: update only if some cell changed.
    The state is the last table, external_faces, and the objects of hash_map_for_faces. *)
Definition step (cells_face : list (list (list nat))) (s : list bool * list cface * hstate) (new : list bool) : result (list bool * list cface * hstate) :=
  let '(old, ext, st) := s in
  if forallb (fun b => b) (map2 Bool.eqb new old) then Ok (new, ext, st)
  else bind (update_hash_map old new cells_face st) (fun r => Ok (new, fst r, snd r)).
Fixpoint steps (cells_face : list (list (list nat))) (s : list bool * list cface * hstate) (news : list (list bool)) : result (list bool * list cface * hstate) :=
  match news with
  | [] => Ok s
  | new :: news' => bind (step cells_face s new) (fun s => steps cells_face s news')
  end.
(** example.py:288 and the time steps: external_faces after the given tables *)
Definition external_faces (cells face_inds : list (list nat)) (tab : list bool) (news : list (list bool)) : result (list cface) :=
  bind (initialize_hash_map cells face_inds tab) (fun r =>
    let '(ext, cells_face, st) := r in
    bind (steps cells_face (tab, ext, st) news) (fun s => Ok (snd (fst s)))).

(** example.py:174-216.  [top] is the test of lines 205-206 on the points of the face: all z-coordinates close to the laser.
    The dict of boundary faces keeps the last index of a repeated face. *)
Section Table.
  Context {X : Type} (top : list (list X) -> bool).
  Fixpoint last_index (x : cface) (l : list cface) (i : nat) : option nat :=
    match l with
    | [] => None
    | y :: l' => match last_index x l' (S i) with Some j => Some j | None => if cface_eqb x y then Some i else None end
    end.
  (** tab[index] = True *)
  Fixpoint set_true (l : list bool) (i : nat) : list bool :=
    match l, i with
    | [], _ => []
    | _ :: t, O => true :: t
    | a :: t, S i' => a :: set_true t i'
    end.
  Definition face_points (points : list (list X)) (cells face_inds : list (list nat)) (x : cface) : list (list X) :=
    map (fun a => nth (nth a (nth (fst x) cells []) 0) points []) (nth (snd x) face_inds []).
  Fixpoint mark_faces (points : list (list X)) (cells face_inds : list (list nat)) (boundary : list cface) (ext : list cface)
      (tabs : list bool * list bool) : result (list bool * list bool) :=
    match ext with
    | [] => Ok tabs
    | x :: ext' =>
        match last_index x boundary 0 with
        | None => Err ValueErr
        | Some i =>
            let t1 := set_true (fst tabs) i in
            let t2 := if top (face_points points cells face_inds x) then set_true (snd tabs) i else snd tabs in
            mark_faces points cells face_inds boundary ext' (t1, t2)
        end
    end.
  (** the rows (external, top) of the boundary faces *)
  Definition get_active_face_truth_tab (points : list (list X)) (cells face_inds : list (list nat)) (boundary ext : list cface) : result (list (bool * bool)) :=
    let zero := repeat false (length boundary) in
    bind (mark_faces points cells face_inds boundary ext (zero, zero)) (fun t => Ok (combine (fst t) (snd t))).
End Table.

(** example.py:219-239; cells[table] raises if the lengths differ *)
Definition get_quiet_point_inds_set (num_points : nat) (cells : list (list nat)) (tab : list bool) : result (list nat) :=
  if (length tab =? length cells) then
    let active := concat (map (fun c => if nth c tab false then nth c cells [] else []) (seq 0 (length cells))) in
    Ok (filter (fun n => negb (existsb (Nat.eqb n) active)) (seq 0 num_points))
  else Err IndexErr.
(** example.py:242-245 *)
Definition dirichlet_location_fn {X} (quiet : list nat) (point : list X) (ind : nat) : bool := existsb (Nat.eqb ind) quiet.
