(** Model of jax_fem/problem.py (class Problem): dof numbering, kernels, batching,
    residual and tangent assembly. *)
From Coq Require Import List Arith Lia Bool.
From Verif Require Import Num Arr Fe.
Import ListNotations.
Local Open Scope num_scope.

(** Sequencing of Python statements that may raise. *)
Definition bind {A B} (r : result A) (f : A -> result B) : result B :=
  match r with Ok a => f a | Err e => Err e end.
Fixpoint mapM {A B} (f : A -> result B) (l : list A) : result (list B) :=
  match l with
  | [] => Ok []
  | x :: t => bind (f x) (fun y => bind (mapM f t) (fun ys => Ok (y :: ys)))
  end.

(** ** Dof numbering, problem.py:82-107 *)

(** problem.py:82-84; [dofs] lists fe.num_total_dofs. *)
Definition offset (dofs : list nat) : list nat :=
  fold_left (fun off i => off ++ [nth i off 0 + nth i dofs 0]%nat) (seq 0 (length dofs - 1)) [0%nat].

(** problem.py:86-92; [vecs] lists fe.vec, [xs] the node numbers of one cell per variable. *)
Definition find_ind (vecs off : list nat) (xs : list (list nat)) : list nat :=
  concat (map (fun i => flat_map (fun n => map (fun j => (nth i vecs 0 * n + j + nth i off 0)%nat)
                                               (seq 0 (nth i vecs 0%nat)))
                                 (nth i xs []))
              (seq 0 (length xs))).

(** jax.vmap over the leading axis of one array per variable (problem.py:95, 102, 109, 442):
    row c of every array. [n] is the common leading size. *)
Definition rows_at {A} (c : nat) (arrs : list (list (list A))) : list (list A) :=
  map (fun x => nth c x []) arrs.

(** problem.py:96-97 / 103-104: onp.repeat + reshape of the index rows. *)
Definition repeat_I (inds : list (list nat)) : list nat :=
  flat_map (fun row => flat_map (fun x => repeat x (length row)) row) inds.
Definition repeat_J (inds : list (list nat)) : list nat :=
  flat_map (fun row => concat (repeat row (length row))) inds.

Section Problem.
  Context {K : ops}.
  (** V: the type of one internal variable at one quadrature point. *)
  Context {V : Type}.

  (** Inputs of the cell kernel for one cell (problem.py:269). *)
  Record cell_in := mkCellIn {
    ci_sol : list K;                     (* (num_nodes*vec + ...,) *)
    ci_x : nat -> nat -> K;              (* physical_quad_points (num_quads, dim) *)
    ci_grads : nat -> nat -> nat -> K;   (* shape_grads (num_quads, num_nodes + ..., dim) *)
    ci_JxW : nat -> nat -> K;            (* (num_vars, num_quads) *)
    ci_vgJxW : nat -> nat -> nat -> K;   (* (num_quads, num_nodes + ..., 1, dim), the size-1 axis dropped *)
    ci_iv : list (nat -> V)              (* internal variables, indexed by quadrature point *)
  }.
  (** Inputs of the face kernel for one selected face (problem.py:306). *)
  Record face_in := mkFaceIn {
    fi_sol : list K;
    fi_x : nat -> nat -> K;              (* (num_face_quads, dim) *)
    fi_vals : nat -> nat -> K;           (* (num_face_quads, num_nodes + ...) *)
    fi_grads : nat -> nat -> nat -> K;   (* (num_face_quads, num_nodes + ..., dim) *)
    fi_nanson : nat -> nat -> K;         (* (num_vars, num_face_quads) *)
    fi_iv : list (nat -> V)
  }.

  (** What a user subclass defines; None = the attribute is absent (hasattr tests). *)
  Record user_maps := mkMaps {
    tensor_map : option ((nat -> nat -> K) -> list V -> nat -> nat -> K);
    mass_map : option ((nat -> K) -> (nat -> K) -> list V -> nat -> K);
    universal_kernel : option (cell_in -> list K);
    surface_maps : option (list ((nat -> K) -> (nat -> K) -> list V -> nat -> K));
    universal_kernels_surface : option (list (face_in -> list K))
  }.

  Record problem := mkProblem {
    fes : list (fe K);
    boundary_inds_list : list (list (nat * nat));       (* problem.py:80 *)
    maps : user_maps;
    internal_vars : list (list (nat -> V));             (* each of leading size num_cells *)
    internal_vars_surfaces : list (list (list (nat -> V)))
  }.

  Definition p_vecs (p : problem) : list nat := map vec (fes p).
  Definition p_offset (p : problem) : list nat := offset (map num_total_dofs (fes p)).
  Definition cells_list (p : problem) : list (list (list nat)) := map cells (fes p).
  Definition fe0 (p : problem) : fe K :=
    hd (mkFe [] [] 0 0 0 0 0 0 (fun _ _ => 0) (fun _ _ _ => 0) (fun _ => 0) (fun _ _ _ => 0)
             (fun _ _ _ _ => 0) (fun _ _ => 0) (fun _ _ => 0) [] [] [] []) (fes p).
  (** problem.py:79 *)
  Definition p_num_cells (p : problem) : nat := num_cells (fe0 p).
  (** shapes of the unflatten functions, problem.py:111-118 *)
  Definition dof_shapes (p : problem) : list (nat * nat) := map (fun f => (num_nodes f, vec f)) (fes p).
  Definition sol_shapes (p : problem) : list (nat * nat) := map (fun f => (num_total_nodes f, vec f)) (fes p).
  Definition num_total_dofs_all_vars (p : problem) : nat := total_size (sol_shapes p).

  (** problem.py:95 *)
  Definition cell_inds (p : problem) : list (list nat) :=
    map (fun c => find_ind (p_vecs p) (p_offset p) (rows_at c (cells_list p))) (seq 0 (p_num_cells p)).
  (** problem.py:101: cells[boundary_inds[:, 0]] per variable *)
  Definition cells_list_face (p : problem) (b : list (nat * nat)) : list (list (list nat)) :=
    map (fun cs => take [] cs (map fst b)) (cells_list p).
  (** problem.py:102 *)
  Definition face_dof_inds (p : problem) (b : list (nat * nat)) : list (list nat) :=
    map (fun i => find_ind (p_vecs p) (p_offset p) (rows_at i (cells_list_face p b))) (seq 0 (length b)).
  (** problem.py:96, 105 *)
  Definition p_I (p : problem) : list nat :=
    repeat_I (cell_inds p) ++ flat_map (fun b => repeat_I (face_dof_inds p b)) (boundary_inds_list p).
  (** problem.py:97, 106 *)
  Definition p_J (p : problem) : list nat :=
    repeat_J (cell_inds p) ++ flat_map (fun b => repeat_J (face_dof_inds p b)) (boundary_inds_list p).

  (** ** Geometric quantities, problem.py:130-182 *)
  (** np.concatenate along the node axis: entry A of the concatenation of arrays of sizes ns. *)
  Fixpoint cat_axis {X} (d : X) (parts : list (nat * (nat -> X))) (A : nat) : X :=
    match parts with
    | [] => d
    | (n, f) :: t => if (A <? n)%nat then f A else cat_axis d t (A - n)
    end.

  (** fes_points: one array of points per variable, default fe.points (problem.py:133). *)
  Definition p_points (p : problem) (fes_points : option (list (list (list K)))) : list (list (list K)) :=
    match fes_points with None => map points (fes p) | Some l => l end.

  (** problem.py:145 *)
  Definition p_shape_grads (p : problem) (pts : list (list (list K))) (c q A i : nat) : K :=
    cat_axis 0 (map (fun fp => (num_nodes (fst fp),
                                fun a => get_shape_grads (snd fp) (fst fp) c q a i))
                    (combine (fes p) pts)) A.
  (** problem.py:143 *)
  Definition p_JxW (p : problem) (pts : list (list (list K))) (c v q : nat) : K :=
    nth v (map (fun fp => get_JxW (snd fp) (fst fp) c q) (combine (fes p) pts)) 0.
  (** problem.py:139, 147 *)
  Definition p_v_grads_JxW (p : problem) (pts : list (list (list K))) (c q A i : nat) : K :=
    cat_axis 0 (map (fun fp => (num_nodes (fst fp),
                                fun a => get_shape_grads (snd fp) (fst fp) c q a i
                                         * get_JxW (snd fp) (fst fp) c q))
                    (combine (fes p) pts)) A.
  (** problem.py:151 *)
  Definition p_quad_points (p : problem) (pts : list (list (list K))) (c q i : nat) : K :=
    get_physical_quad_points (hd [] pts) (fe0 p) c q i.
  (** problem.py:163, 170 for the selected face (c, fc) *)
  Definition p_face_grads (p : problem) (pts : list (list (list K))) (cf : nat * nat) (q A i : nat) : K :=
    cat_axis 0 (map (fun fp => (num_nodes (fst fp),
                                fun a => get_face_shape_grads (snd fp) (fst fp) (fst cf) (snd cf) q a i))
                    (combine (fes p) pts)) A.
  (** problem.py:164, 174 *)
  Definition p_face_vals (p : problem) (pts : list (list (list K))) (cf : nat * nat) (q A : nat) : K :=
    cat_axis 0 (map (fun fp => (num_nodes (fst fp), fun a => face_shape_vals (fst fp) (snd cf) q a))
                    (combine (fes p) pts)) A.
  (** problem.py:172 *)
  Definition p_nanson (sqrtK : K -> K) (p : problem) (pts : list (list (list K))) (cf : nat * nat) (v q : nat) : K :=
    nth v (map (fun fp => nanson_scale sqrtK (snd fp) (fst fp) (fst cf) (snd cf) q)
               (combine (fes p) pts)) 0.
  (** problem.py:176 *)
  Definition p_surface_quad_points (p : problem) (pts : list (list (list K))) (cf : nat * nat) (q i : nat) : K :=
    get_physical_surface_quad_points (hd [] pts) (fe0 p) (fst cf) (snd cf) q i.

  (** ** Kernels, problem.py:189-332 *)
  Definition at_quad (ivs : list (nat -> V)) (q : nat) : list V := map (fun iv => iv q) ivs.
  (** cell_sol_list[0] of problem.py:197-199 *)
  Definition cell_sol0 (p : problem) (sol : list K) : list (list K) := nth 0 (unravel (dof_shapes p) sol) [].

  (** problem.py:189-214 *)
  Definition laplace_kernel (p : problem) (tm : (nat -> nat -> K) -> list V -> nat -> nat -> K)
      (ci : cell_in) : list K :=
    let f0 := fe0 p in
    let cs := cell_sol0 p (ci_sol ci) in
    let u_grad q k j := sum_n (num_nodes f0) (fun a => get2 0 cs a k * ci_grads ci q a j) in
    let u_physics q := tm (u_grad q) (at_quad (ci_iv ci) q) in
    flat_map (fun a => map (fun k =>
        sum_n (num_quads f0) (fun q => sum_n (dim f0) (fun j => u_physics q k j * ci_vgJxW ci q a j)))
      (seq 0 (vec f0))) (seq 0 (num_nodes f0)).

  (** problem.py:216-236 *)
  Definition mass_kernel (p : problem) (mm : (nat -> K) -> (nat -> K) -> list V -> nat -> K)
      (ci : cell_in) : list K :=
    let f0 := fe0 p in
    let cs := cell_sol0 p (ci_sol ci) in
    let u q k := sum_n (num_nodes f0) (fun a => get2 0 cs a k * shape_vals f0 q a) in
    let u_physics q := mm (u q) (ci_x ci q) (at_quad (ci_iv ci) q) in
    flat_map (fun a => map (fun k =>
        sum_n (num_quads f0) (fun q => u_physics q k * shape_vals f0 q a * ci_JxW ci 0 q))
      (seq 0 (vec f0))) (seq 0 (num_nodes f0)).

  (** problem.py:238-259 *)
  Definition surface_kernel (p : problem) (sm : (nat -> K) -> (nat -> K) -> list V -> nat -> K)
      (fi : face_in) : list K :=
    let f0 := fe0 p in
    let cs := cell_sol0 p (fi_sol fi) in
    let u q k := sum_n (num_nodes f0) (fun a => get2 0 cs a k * fi_vals fi q a) in
    let u_physics q := sm (u q) (fi_x fi q) (at_quad (fi_iv fi) q) in
    flat_map (fun a => map (fun k =>
        sum_n (num_face_quads f0) (fun q => u_physics q k * fi_vals fi q a * fi_nanson fi 0 q))
      (seq 0 (vec f0))) (seq 0 (num_nodes f0)).

  (** [0.] of an absent map is the scalar zero, which broadcasts (problem.py:281, 287, 294).
      Simplification: two arrays of different lengths, on which numpy raises, are
      truncated; the theorems assume kernel outputs of the cell dof length. *)
  Definition badd (x y : option (list K)) : option (list K) :=
    match x, y with
    | None, _ => y
    | _, None => x
    | Some a, Some b => Some (map2 add a b)
    end.
  Definition unscalar (x : option (list K)) : list K := match x with None => [] | Some l => l end.

  (** problem.py:269-296 *)
  Definition kernel_cell (p : problem) (ci : cell_in) : list K :=
    let m := maps p in
    let mass_val := option_map (fun mm => mass_kernel p mm ci) (mass_map m) in
    let laplace_val := option_map (fun tm => laplace_kernel p tm ci) (tensor_map m) in
    let universal_val := option_map (fun uk => uk ci) (universal_kernel m) in
    unscalar (badd (badd laplace_val mass_val) universal_val).

  (** problem.py:306-325 for the surface number [ind]; a list that is too short raises IndexError. *)
  Definition kernel_face (p : problem) (ind : nat) : result (face_in -> list K) :=
    let m := maps p in
    match surface_maps m, universal_kernels_surface m with
    | None, None => Ok (fun _ => [])
    | Some sms, None =>
        match nth_error sms ind with
        | Some sm => Ok (surface_kernel p sm)
        | None => Err IndexErr
        end
    | None, Some uks =>
        match nth_error uks ind with
        | Some uk => Ok uk
        | None => Err IndexErr
        end
    | Some sms, Some uks =>
        match nth_error sms ind, nth_error uks ind with
        | Some sm, Some uk => Ok (fun fi => map2 add (surface_kernel p sm fi) (uk fi))
        | _, _ => Err IndexErr
        end
    end.

  (** problem.py:340-346 *)
  Definition pre_jit_check (p : problem) : result unit :=
    let num_surfaces := length (boundary_inds_list p) in
    match surface_maps (maps p), universal_kernels_surface (maps p) with
    | Some sms, _ => if (num_surfaces =? length sms)%nat then Ok tt else Err AssertionErr
    | None, Some uks => if (num_surfaces =? length uks)%nat then Ok tt else Err AssertionErr
    | None, None => if (num_surfaces =? 0)%nat then Ok tt else Err AssertionErr
    end.

  (** value_and_jacfwd, problem.py:262-266.  [jvp f x v] is the tangent output of
      jax.jvp; its primal output is f x.  jac[a][b] is component a of the tangent
      along the b-th basis vector (out_axes = -1). *)
  Variable jvp : (list K -> list K) -> list K -> list K -> list K.
  Definition unit_vec (n b : nat) : list K := map (fun i => if (i =? b)%nat then 1 else 0) (seq 0 n).
  Definition value_and_jacfwd (f : list K -> list K) (x : list K) : list K * list (list K) :=
    let n := length x in
    (f x, map (fun a => map (fun b => nth a (jvp f x (unit_vec n b)) 0) (seq 0 n)) (seq 0 (length (f x)))).

  Definition with_sol (ci : cell_in) (s : list K) : cell_in :=
    mkCellIn s (ci_x ci) (ci_grads ci) (ci_JxW ci) (ci_vgJxW ci) (ci_iv ci).
  Definition with_sol_f (fi : face_in) (s : list K) : face_in :=
    mkFaceIn s (fi_x fi) (fi_vals fi) (fi_grads fi) (fi_nanson fi) (fi_iv fi).
  (** problem.py:299-301 and 327-330 *)
  Definition kernel_jac_cell (p : problem) (ci : cell_in) : list K * list (list K) :=
    value_and_jacfwd (fun s => kernel_cell p (with_sol ci s)) (ci_sol ci).
  Definition kernel_jac_face (k : face_in -> list K) (fi : face_in) : list K * list (list K) :=
    value_and_jacfwd (fun s => k (with_sol_f fi s)) (fi_sol fi).

  (** ** Batching, problem.py:359-396 *)
  (** The arrays of input_collection, each with the cells as leading axis. *)
  Record cell_cols := mkCols {
    cc_sol : list (list K);
    cc_x : list (nat -> nat -> K);
    cc_grads : list (nat -> nat -> nat -> K);
    cc_JxW : list (nat -> nat -> K);
    cc_vgJxW : list (nat -> nat -> nat -> K);
    cc_iv : list (list (nat -> V))
  }.
  (** tree_map of a slice over the collection, problem.py:374, 376 *)
  Definition map_cols (s : forall {A}, list A -> list A) (cc : cell_cols) : cell_cols :=
    mkCols (s (cc_sol cc)) (s (cc_x cc)) (s (cc_grads cc)) (s (cc_JxW cc)) (s (cc_vgJxW cc))
           (map s (cc_iv cc)).
  Definition col_sizes (cc : cell_cols) : list nat :=
    length (cc_x cc) :: length (cc_grads cc) :: length (cc_JxW cc) :: length (cc_vgJxW cc)
      :: map (@length _) (cc_iv cc).
  (** The inputs of cell i. *)
  Definition cell_at (cc : cell_cols) (i : nat) : cell_in :=
    mkCellIn (nth i (cc_sol cc) []) (nth i (cc_x cc) (fun _ _ => 0)) (nth i (cc_grads cc) (fun _ _ _ => 0))
             (nth i (cc_JxW cc) (fun _ _ => 0)) (nth i (cc_vgJxW cc) (fun _ _ _ => 0))
             (flat_map (fun iv => match nth_error iv i with Some x => [x] | None => [] end) (cc_iv cc)).
  (** jax.vmap of a kernel over the collection: leading sizes must agree (ValueError otherwise). *)
  Definition vmap_cols {O} (k : cell_in -> O) (cc : cell_cols) : result (list O) :=
    let n := length (cc_sol cc) in
    if forallb (fun m => (m =? n)%nat) (col_sizes cc)
    then Ok (map (fun i => k (cell_at cc i)) (seq 0 n))
    else Err ValueErr.

  (** The loop over cuts; problem.py:363-366, 372-380, 387-394.  vstack concatenates. *)
  Definition split_and_compute {O} (n_cells : nat) (k : cell_in -> O) (cc : cell_cols) : result (list O) :=
    let num_cuts := if (n_cells <? 20)%nat then n_cells else 20%nat in
    match num_cuts with
    | O => Err ZeroDivErr
    | _ =>
      let batch_size := (n_cells / num_cuts)%nat in
      bind (mapM (fun i =>
              if (i <? num_cuts - 1)%nat
              then vmap_cols k (map_cols (fun A => slice (i * batch_size) ((i + 1) * batch_size)) cc)
              else vmap_cols k (map_cols (fun A => slice_from (i * batch_size)) cc))
            (seq 0 num_cuts))
           (fun parts => Ok (concat parts))
    end.
  (** jac_flag = False *)
  Definition split_and_compute_cell (p : problem) (cc : cell_cols) : result (list (list K)) :=
    split_and_compute (p_num_cells p) (kernel_cell p) cc.
  (** jac_flag = True: values and Jacobians are stacked separately *)
  Definition split_and_compute_cell_jac (p : problem) (cc : cell_cols)
    : result (list (list K) * list (list (list K))) :=
    bind (split_and_compute (p_num_cells p) (kernel_jac_cell p) cc)
         (fun l => Ok (map fst l, map snd l)).

  (** problem.py:441-442 *)
  Definition cells_sol_flat (p : problem) (sol_list : list (list (list K))) : list (list K) :=
    let cells_sol_list := map (fun cs => map (fun cell => take [] (snd cs) cell) (fst cs))
                              (combine (cells_list p) sol_list) in
    map (fun c => ravel (map (fun x => nth c x []) cells_sol_list)) (seq 0 (p_num_cells p)).

  (** problem.py:367 *)
  Definition input_collection (p : problem) (pts : list (list (list K))) (csf : list (list K))
      (ivs : list (list (nat -> V))) : cell_cols :=
    let n := p_num_cells p in
    mkCols csf (map (p_quad_points p pts) (seq 0 n)) (map (p_shape_grads p pts) (seq 0 n))
           (map (p_JxW p pts) (seq 0 n)) (map (p_v_grads_JxW p pts) (seq 0 n)) ivs.

  (** ** Surface integrals, problem.py:398-424 *)
  (** inputs of the i-th selected face of a surface; a short internal variable array raises *)
  Definition face_inputs (sqrtK : K -> K) (p : problem) (pts : list (list (list K)))
      (csf : list (list K)) (b : list (nat * nat)) (ivs : list (list (nat -> V))) : result (list face_in) :=
    if forallb (fun iv => (length iv =? length b)%nat) ivs
    then Ok (map (fun i => let cf := nth i b (O, O) in
               mkFaceIn (gather [] csf (fst cf)) (p_surface_quad_points p pts cf) (p_face_vals p pts cf)
                        (p_face_grads p pts cf) (p_nanson sqrtK p pts cf)
                        (flat_map (fun iv => match nth_error iv i with Some x => [x] | None => [] end) ivs))
             (seq 0 (length b)))
    else Err ValueErr.

  (** One surface: kernel lookup then vmap.  *internal_vars_surfaces[i] raises if absent. *)
  Definition face_step {O} (jac : (face_in -> list K) -> face_in -> O) (sqrtK : K -> K) (p : problem)
      (pts : list (list (list K))) (csf : list (list K)) (ivss : list (list (list (nat -> V)))) (i : nat)
    : result (list O) :=
    match nth_error ivss i with
    | None => Err IndexErr
    | Some ivs =>
        bind (kernel_face p i) (fun k =>
        bind (face_inputs sqrtK p pts csf (nth i (boundary_inds_list p) []) ivs) (fun fis =>
        Ok (map (jac k) fis)))
    end.
  Definition compute_face (sqrtK : K -> K) (p : problem) (pts : list (list (list K)))
      (csf : list (list K)) (ivss : list (list (list (nat -> V)))) : result (list (list (list K))) :=
    mapM (face_step (fun k => k) sqrtK p pts csf ivss) (seq 0 (length (boundary_inds_list p))).
  Definition compute_face_jac (sqrtK : K -> K) (p : problem) (pts : list (list (list K)))
      (csf : list (list K)) (ivss : list (list (list (nat -> V))))
    : result (list (list (list K)) * list (list (list (list K)))) :=
    bind (mapM (face_step kernel_jac_face sqrtK p pts csf ivss) (seq 0 (length (boundary_inds_list p))))
         (fun l => Ok (map (map fst) l, map (map snd) l)).

  (** ** Residual and tangent assembly *)
  (** One variable's [.at[cells.reshape(-1)].add(weak.reshape(-1, vec))], problem.py:429-430 *)
  Definition scatter_var (v : nat) (shapes : list (nat * nat)) (res : list (list K))
      (node_rows : list (list nat)) (weak_flat : list (list K)) : list (list K) :=
    at_add_rows add res (concat node_rows) (concat (map (fun x => nth v (unravel shapes x) []) weak_flat)).

  (** problem.py:426-437 *)
  Definition compute_residual_vars_helper (p : problem) (weak_flat : list (list K))
      (weak_face_flat : list (list (list K))) : list (list (list K)) :=
    map (fun v =>
      let f := nth v (fes p) (fe0 p) in
      let res0 := zeros2 0 (num_total_nodes f) (vec f) in
      let res1 := scatter_var v (dof_shapes p) res0 (cells f) weak_flat in
      fold_left (fun res bw =>
          scatter_var v (dof_shapes p) res (nth v (cells_list_face p (fst bw)) []) (snd bw))
        (combine (boundary_inds_list p) weak_face_flat) res1)
      (seq 0 (length (fes p))).

  (** problem.py:439-445 *)
  Definition compute_residual_vars (sqrtK : K -> K) (p : problem) (pts : list (list (list K)))
      (sol_list : list (list (list K))) (ivs : list (list (nat -> V)))
      (ivss : list (list (list (nat -> V)))) : result (list (list (list K))) :=
    let csf := cells_sol_flat p sol_list in
    bind (split_and_compute_cell p (input_collection p pts csf ivs)) (fun weak =>
    bind (compute_face sqrtK p pts csf ivss) (fun weak_face =>
    Ok (compute_residual_vars_helper p weak weak_face))).

  (** problem.py:447-460; returns the residual and the stored values self.V *)
  Definition compute_newton_vars (sqrtK : K -> K) (p : problem) (pts : list (list (list K)))
      (sol_list : list (list (list K))) (ivs : list (list (nat -> V)))
      (ivss : list (list (list (nat -> V)))) : result (list (list (list K)) * list K) :=
    let csf := cells_sol_flat p sol_list in
    bind (split_and_compute_cell_jac p (input_collection p pts csf ivs)) (fun wj =>
    bind (compute_face_jac sqrtK p pts csf ivss) (fun wjf =>
    Ok (compute_residual_vars_helper p (fst wj) (fst wjf),
        concat (map (@concat K) (snd wj)) ++ concat (map (fun s => concat (map (@concat K) s)) (snd wjf))))).

  (** problem.py:462-491; the geometric arrays are those of the last
      initialize_geometric_quantities call, made with [pts]. *)
  Definition compute_residual (sqrtK : K -> K) (p : problem) (pts : list (list (list K)))
      (sol_list : list (list (list K))) : result (list (list (list K))) :=
    compute_residual_vars sqrtK p pts sol_list (internal_vars p) (internal_vars_surfaces p).
  Definition newton_update (sqrtK : K -> K) (p : problem) (pts : list (list (list K)))
      (sol_list : list (list (list K))) : result (list (list (list K)) * list K) :=
    compute_newton_vars sqrtK p pts sol_list (internal_vars p) (internal_vars_surfaces p).
End Problem.
Arguments problem : clear implicits.
Arguments user_maps : clear implicits.
Arguments cell_in : clear implicits.
Arguments face_in : clear implicits.
Arguments cell_cols : clear implicits.
