(** Model of the tangent cache, jax_fem/solver.py:469-537: the rows to overwrite are recomputed
    only if the index arrays are other objects than at the last refresh.
    Array objects have identities (numbers); jax arrays are immutable, so contents never change. *)
From Coq Require Import List Arith Bool.
From Verif Require Import Num Arr Fe Problem SolverBc.
Import ListNotations.

Section Cache.
  Context {K : ops} {V : Type}.

  (** _PetscTangentCache: solver.py:472-480 (the matrix itself is rebuilt from I, J, V at every
      update: setValuesCOO replaces all values of the fixed pattern). *)
  Record cache := mkCache {
    c_I : list nat;                     (* setPreallocationCOO, solver.py:477 *)
    c_J : list nat;
    c_rows : list (list nat);           (* bc_row_inds_list *)
    c_sources : list (nat * nat)        (* identities of (node_inds, vec_inds) *)
  }.
  (** The program state: the problem, the identities of the arrays in node_inds_list and
      vec_inds_list of every fe, the next unused identity, problem._petsc_tangent_cache. *)
  Record cstate := mkCState {
    s_p : problem K V;
    s_ids : list (list (nat * nat));
    s_next : nat;
    s_cache : option cache
  }.

  (** _get_bc_index_sources, solver.py:483-491 *)
  Definition bc_index_sources (s : cstate) : list (nat * nat) := concat (s_ids s).
  (** solver.py:495-503 *)
  Definition sources_unchanged (new old : list (nat * nat)) : bool :=
    (length new =? length old) &&
    forallb (fun t => (fst (fst t) =? fst (snd t)) && (snd (fst t) =? snd (snd t))) (combine new old).
  (** _refresh_bc_rows_if_needed, solver.py:493-517 *)
  Definition refresh (s : cstate) (c : cache) : cache :=
    let sources := bc_index_sources s in
    if sources_unchanged sources (c_sources c) then c
    else mkCache (c_I c) (c_J c) (bc_rows (s_p s)) sources.
  (** __init__, solver.py:472-481 *)
  Definition new_cache (s : cstate) : cache :=
    refresh s (mkCache (p_I (s_p s)) (p_J (s_p s)) [] []).
  (** _get_petsc_tangent_cache, solver.py:532-537 *)
  Definition get_cache (s : cstate) : cache :=
    match s_cache s with Some c => c | None => new_cache s end.
  (** update, solver.py:519-526, called by get_A, solver.py:540-542; [W] is problem.V *)
  Definition get_A_cached (s : cstate) (W : list K) : cstate * (nat -> nat -> K) :=
    let c := refresh s (get_cache s) in
    (mkCState (s_p s) (s_ids s) (s_next s) (Some c),
     fold_left (fun A rows => zero_rows rows A) (c_rows c) (set_values_coo (c_I c) (c_J c) W)).

  Definition set_fe (p : problem K V) (i : nat) (f : fe K) : problem K V :=
    mkProblem (upd_nth i (fun _ => f) (fes p)) (boundary_inds_list p) (maps p) (internal_vars p)
              (internal_vars_surfaces p).
  (** the identities of n newly made pairs of arrays *)
  Definition fresh_ids (next n : nat) : list (nat * nat) :=
    map (fun k => (next + 2 * k, next + 2 * k + 1)) (seq 0 n).

  (** What a program does between solves. *)
  Inductive op :=
    (** problem.fes[i].update_Dirichlet_boundary_conditions(info), fe.py:263-269: new arrays *)
    | UpdateBC (i : nat) (info : option (list (location_fn K) * list nat * list (list K -> K)))
    (** get_A(problem) when problem.V = W *)
    | GetA (W : list K)
    (** fes[j].node_inds_list, vec_inds_list, vals_list = those of fes[i]; those of fes[i] = [] *)
    | MoveLists (i j : nat).

  Definition step (s : cstate) (o : op) : cstate :=
    match o with
    | UpdateBC i info =>
        match nth_error (fes (s_p s)) i with
        | None => s                                        (* IndexError *)
        | Some f =>
            match update_Dirichlet_boundary_conditions f info with
            | Err _ => s
            | Ok f' =>
                let n := length (node_inds_list f') in
                mkCState (set_fe (s_p s) i f')
                         (upd_nth i (fun _ => fresh_ids (s_next s) n) (s_ids s))
                         (s_next s + 2 * n) (s_cache s)
            end
        end
    | GetA W => fst (get_A_cached s W)
    | MoveLists i j =>
        match nth_error (fes (s_p s)) i, nth_error (fes (s_p s)) j with
        | Some fi, Some fj =>
            let with_lists f ns vs ws :=
              mkFe (points f) (cells f) (vec f) (dim f) (num_quads f) (num_nodes f) (num_faces f)
                (num_face_quads f) (shape_vals f) (shape_grads_ref f) (quad_weights f)
                (face_shape_vals f) (face_shape_grads_ref f) (face_quad_weights f) (face_normals f)
                (face_inds f) ns vs ws in
            let p1 := set_fe (s_p s) j (with_lists fj (node_inds_list fi) (vec_inds_list fi) (vals_list fi)) in
            mkCState (set_fe p1 i (with_lists fi [] [] []))
                     (upd_nth i (fun _ => []) (upd_nth j (fun _ => nth i (s_ids s) []) (s_ids s)))
                     (s_next s) (s_cache s)
        | _, _ => s
        end
    end.
  Definition run (s : cstate) (ops : list op) : cstate := fold_left step ops s.

  (** The state right after the problem was constructed: every array is its own object. *)
  Fixpoint initial_ids (next : nat) (sizes : list nat) : list (list (nat * nat)) :=
    match sizes with
    | [] => []
    | n :: sizes => fresh_ids next n :: initial_ids (next + 2 * n) sizes
    end.
  Definition initial_state (p : problem K V) : cstate :=
    let sizes := map (fun f => length (node_inds_list f)) (fes p) in
    mkCState p (initial_ids 0 sizes) (2 * fold_right plus 0 sizes) None.
End Cache.
Arguments cstate : clear implicits.
Arguments op : clear implicits.
