(** C11-C17: dof numbering, flattening, batching, residual and matrix assembly. *)
From Coq Require Import List Arith Bool Reals.
From Verif Require Import Num Arr ArrFacts Fe Problem BatchFacts SpecAssembly AssemblyFacts ProblemFacts
  ResidualFacts DerivFacts AgreeFacts.
Import ListNotations.

(** C11. (variable, node, component) -> dof number is a bijection onto 0..total-1; *)
Theorem C11_dof_numbering_bijection : forall shapes : list (nat * nat),
  (forall v n j, valid_dof shapes v n j -> dof_number shapes v n j < all_dofs shapes) /\
  (forall v n j v' n' j', valid_dof shapes v n j -> valid_dof shapes v' n' j' ->
     dof_number shapes v n j = dof_number shapes v' n' j' -> v = v' /\ n = n' /\ j = j') /\
  (forall g, g < all_dofs shapes -> exists v n j, valid_dof shapes v n j /\ dof_number shapes v n j = g).
Proof.
  intros shapes. split; [exact (dof_number_lt shapes)|split; [exact (dof_number_inj shapes)|exact (dof_number_surj shapes)]].
Qed.
Print Assumptions C11_dof_numbering_bijection.

(** it is the position at which flattening puts that component; *)
Theorem C11_flatten_position : forall (A : Type) (d : A) shapes l v n j,
  has_shapes shapes l -> valid_dof shapes v n j ->
  nth (dof_number shapes v n j) (ravel l) d = get2 d (nth v l []) n j.
Proof. exact (@nth_ravel_dof). Qed.
Print Assumptions C11_flatten_position.

(** and the element index rows used for cells and for selected faces use it. *)
Theorem C11_element_indices : forall (K : ops) (V : Type) (p : problem K V), wf_problem p ->
  cell_inds p = map (elem_dofs p) (seq 0 (p_num_cells p)) /\
  (forall b, In b (boundary_inds_list p) -> face_dof_inds p b = map (fun cf => elem_dofs p (fst cf)) b) /\
  (forall c v a j, valid_dof (local_shapes p) v a j ->
     nth (dof_number (local_shapes p) v a j) (elem_dofs p c) 0
     = dof_number (global_shapes p) v (node_of p v c a) j).
Proof.
  intros K V p WF. split; [exact (cell_inds_elem p WF)|split].
  - intros b Hb. apply (face_dof_inds_elem p WF b). intros [c f] Hc. exact (wf_boundary p WF b c f Hb Hc).
  - intros c v a j H. now apply elem_dofs_nth.
Qed.
Print Assumptions C11_element_indices.

(** C12. Flatten and unflatten are inverse. *)
Theorem C12_unflatten_flatten : forall (A : Type) shapes (l : list (list (list A))),
  has_shapes shapes l -> unravel shapes (ravel l) = l.
Proof. exact (@unravel_ravel). Qed.
Print Assumptions C12_unflatten_flatten.

Theorem C12_flatten_unflatten : forall (A : Type) shapes (l : list A),
  length l = total_size shapes -> ravel (unravel shapes l) = l /\ has_shapes shapes (unravel shapes l).
Proof. intros A shapes l H. split; [now apply ravel_unravel|now apply unravel_shapes]. Qed.
Print Assumptions C12_flatten_unflatten.

(** C13. Batching is invisible, for every number of cells >= 1, also when a call raises. *)
Theorem C13_batching_invisible : forall (K : ops) (V O : Type) n (k : cell_in K V -> O) (cc : cell_cols K V),
  0 < n -> length (cc_sol cc) = n -> split_and_compute n k cc = vmap_cols k cc.
Proof. exact (@split_and_compute_vmap). Qed.
Print Assumptions C13_batching_invisible.

Theorem C13_no_cells_raises : forall (K : ops) (V O : Type) (k : cell_in K V -> O) (cc : cell_cols K V),
  split_and_compute 0 k cc = Err ZeroDivErr.
Proof. exact (@split_zero). Qed.
Print Assumptions C13_no_cells_raises.

(** C14. compute_residual returns the sum of the element contributions. *)
Theorem C14_residual_assembly : forall (K : ops) (KR : ring_laws K) (V : Type) (sqrtK : K -> K)
    (p : problem K V) pts sol kf,
  wf_problem p -> 0 < p_num_cells p -> sol_ok p sol -> ivs_ok p -> kernels_ok p kf ->
  exists res, compute_residual sqrtK p pts sol = Ok res /\ has_shapes (global_shapes p) res /\
  forall v n j, valid_dof (global_shapes p) v n j ->
    (get2 0 (nth v res []) n j =
     sum_n (p_num_cells p) (fun c => sum_n (num_nodes (fe_of p v)) (fun a =>
       if (node_of p v c a =? n)%nat
       then nth (dof_number (local_shapes p) v a j) (kernel_cell p (cell_input p pts sol c)) 0 else 0)) +
     sum_n (length (boundary_inds_list p)) (fun s => sum_n (num_sel_faces p s) (fun e =>
       sum_n (num_nodes (fe_of p v)) (fun a =>
       if (node_of p v (face_cell p s e) a =? n)%nat
       then nth (dof_number (local_shapes p) v a j) (kf s (face_input sqrtK p pts sol s e)) 0 else 0))))%num.
Proof.
  intros K KR V sqrtK p pts sol kf WF NC SOL IVS KER. eexists. split.
  { exact (compute_residual_ok sqrtK p pts sol kf WF NC SOL IVS KER). }
  split; [exact (helper_shapes KR sqrtK p pts sol kf WF NC SOL KER)|].
  intros v n j (Hv & Hn & Hj). rewrite length_global_shapes in Hv. rewrite global_shapes_nth in Hn, Hj by auto.
  exact (proj2 (helper_var KR sqrtK p pts sol kf WF NC SOL KER v Hv) n j Hn Hj).
Qed.
Print Assumptions C14_residual_assembly.

(** The documented maps on one variable satisfy the kernel hypothesis. *)
Theorem C14_standard_kernels : forall (K : ops) (V : Type) (p : problem K V) (f : fe K) kf,
  fes p = [f] -> universal_kernel (maps p) = None -> universal_kernels_surface (maps p) = None ->
  (tensor_map (maps p) <> None \/ mass_map (maps p) <> None) ->
  match surface_maps (maps p) with
  | None => boundary_inds_list p = []
  | Some sms => length sms = length (boundary_inds_list p) /\
      forall s sm, nth_error sms s = Some sm -> kf s = surface_kernel p sm
  end ->
  kernels_ok p kf.
Proof. exact (@standard_kernels_ok). Qed.
Print Assumptions C14_standard_kernels.

(** C15. The triplets of newton_update: lengths, ranges, entries. *)
Theorem C15_matrix_assembly : forall (K : ops) (KR : ring_laws K) (V : Type)
    (jvp : (list K -> list K) -> list K -> list K -> list K) (sqrtK : K -> K)
    (p : problem K V) pts sol kf,
  wf_problem p -> 0 < p_num_cells p -> sol_ok p sol -> ivs_ok p -> kernels_ok p kf ->
  exists res W, newton_update jvp sqrtK p pts sol = Ok (res, W) /\
  length (p_I p) = length W /\ length (p_J p) = length W /\
  (forall g, In g (p_I p) \/ In g (p_J p) -> g < all_dofs (global_shapes p)) /\
  forall g h,
    (coo_entry (p_I p) (p_J p) W g h =
     let L := all_dofs (local_shapes p) in
     sum_n (p_num_cells p) (fun c => sum_n L (fun k => sum_n L (fun l =>
       if (nth k (elem_dofs p c) 0 =? g)%nat && (nth l (elem_dofs p c) 0 =? h)%nat
       then nth k (jvp (cell_fun p pts sol c) (cell_values p sol c) (unit_vec L l)) 0 else 0))) +
     sum_n (length (boundary_inds_list p)) (fun s => sum_n (num_sel_faces p s) (fun i =>
       sum_n L (fun k => sum_n L (fun l =>
       if (nth k (elem_dofs p (face_cell p s i)) 0 =? g)%nat && (nth l (elem_dofs p (face_cell p s i)) 0 =? h)%nat
       then nth k (jvp (face_fun sqrtK p pts sol kf s i) (cell_values p sol (face_cell p s i)) (unit_vec L l)) 0
       else 0)))))%num.
Proof.
  intros K KR V jvp sqrtK p pts sol kf WF NC SOL IVS KER.
  pose proof (newton_update_ok jvp sqrtK p pts sol kf WF NC SOL IVS KER) as E.
  do 2 eexists. split; [exact E|].
  destruct (coo_lengths jvp sqrtK p pts sol kf _ _ WF NC SOL IVS KER E) as [E1 E2].
  split; [exact E1|split; [exact E2|split]].
  - intros g Hg. exact (coo_in_range p g WF NC Hg).
  - intros g h. exact (matrix_entry KR jvp sqrtK p pts sol kf WF NC SOL KER g h).
Qed.
Print Assumptions C15_matrix_assembly.

(** C16. The matrix is the derivative of the residual. *)
Theorem C16_matrix_is_derivative : forall (V : Type)
    (jvp : (list Rops -> list Rops) -> list Rops -> list Rops -> list Rops) (sqrtK : R -> R)
    (p : problem Rops V) pts sol dsol kf,
  wf_problem p -> 0 < p_num_cells p -> sol_ok p sol -> sol_ok p dsol -> ivs_ok p -> kernels_ok p kf ->
  (forall c, c < p_num_cells p -> jvp_correct jvp (cell_fun p pts sol c) (cell_values p sol c)) ->
  (forall s i, s < length (boundary_inds_list p) -> i < num_sel_faces p s ->
     jvp_correct jvp (face_fun sqrtK p pts sol kf s i) (cell_values p sol (face_cell p s i))) ->
  forall g (res : R -> list (list (list Rops))) r0 W,
  g < all_dofs (global_shapes p) ->
  (forall t, compute_residual sqrtK p pts (line3 sol dsol t) = Ok (res t)) ->
  newton_update jvp sqrtK p pts sol = Ok (r0, W) ->
  derivable_pt_lim (fun t => nth g (ravel (res t)) (@zero Rops)) 0
    (sum_n (all_dofs (global_shapes p)) (fun h =>
       (coo_entry (p_I p) (p_J p) W g h * nth h (ravel dsol) 0)%num)).
Proof. exact (@residual_derivative). Qed.
Print Assumptions C16_matrix_is_derivative.

(** For affine kernels the identity residual(u + d) - residual(u) = A d is exact, over any ring. *)
Theorem C16_affine_exact : forall (K : ops) (KR : ring_laws K) (V : Type)
    (jvp : (list K -> list K) -> list K -> list K -> list K) (sqrtK : K -> K)
    (p : problem K V) pts sol dsol kf,
  wf_problem p -> 0 < p_num_cells p -> sol_ok p sol -> sol_ok p dsol -> ivs_ok p -> kernels_ok p kf ->
  (forall c, c < p_num_cells p -> jvp_affine jvp (cell_fun p pts sol c) (cell_values p sol c)) ->
  (forall s i, s < length (boundary_inds_list p) -> i < num_sel_faces p s ->
     jvp_affine jvp (face_fun sqrtK p pts sol kf s i) (cell_values p sol (face_cell p s i))) ->
  forall g r r1 r0 W, g < all_dofs (global_shapes p) ->
  compute_residual sqrtK p pts sol = Ok r ->
  compute_residual sqrtK p pts (line3 sol dsol one) = Ok r1 ->
  newton_update jvp sqrtK p pts sol = Ok (r0, W) ->
  (nth g (ravel r1) 0 - nth g (ravel r) 0 =
   sum_n (all_dofs (global_shapes p)) (fun h => coo_entry (p_I p) (p_J p) W g h * nth h (ravel dsol) 0))%num.
Proof. exact (@residual_affine). Qed.
Print Assumptions C16_affine_exact.

(** C17. newton_update and compute_residual agree, for every problem and state, also when they raise. *)
Theorem C17_newton_update_agrees : forall (K : ops) (V : Type)
    (jvp : (list K -> list K) -> list K -> list K -> list K) (sqrtK : K -> K) (p : problem K V) pts sol,
  compute_residual sqrtK p pts sol =
  match newton_update jvp sqrtK p pts sol with Ok (r, _) => Ok r | Err e => Err e end.
Proof.
  intros. rewrite (newton_agrees jvp). unfold rmap. destruct (newton_update jvp sqrtK p pts sol) as [[r W]|e]; reflexivity.
Qed.
Print Assumptions C17_newton_update_agrees.
