(** C20-C23: Dirichlet conditions in the residual, in vectors, in the tangent, in a Newton step. *)
From Coq Require Import List Arith Bool Reals.
From Verif Require Import Num Arr Fe Problem SpecAssembly SolverBc SpecBc BcFacts BcMain.
Import ListNotations.

(** C20. apply_bc_vec(r, u, scale) is r at a free dof, u - scale * u_b at a constrained one. *)
Theorem C20_apply_bc_vec : forall (K : ops) (KR : ring_laws K) (V : Type) (p : problem K V), bcs_ok p ->
  forall (res dofs : list K) (scale : K),
  length res = all_dofs (global_shapes p) -> length dofs = all_dofs (global_shapes p) ->
  length (apply_bc_vec res dofs p scale) = all_dofs (global_shapes p) /\
  forall v n j, valid_dof (global_shapes p) v n j ->
    nth (dof_number (global_shapes p) v n j) (apply_bc_vec res dofs p scale) zero =
    match prescribed (fe_of p v) n j with
    | Some b => (nth (dof_number (global_shapes p) v n j) dofs 0 - scale * b)%num
    | None => nth (dof_number (global_shapes p) v n j) res zero
    end.
Proof. exact (@apply_bc_vec_ring). Qed.
Print Assumptions C20_apply_bc_vec.

(** A dof is constrained exactly if some value is prescribed there. *)
Theorem C20_constrained_prescribed : forall (K : ops) (f : fe K) n j,
  constrained f n j <-> exists b, prescribed f n j = Some b.
Proof. exact (@prescribed_constrained). Qed.
Print Assumptions C20_constrained_prescribed.

(** C21. assign_bc, assign_ones_bc, assign_zeros_bc, copy_bc. *)
Theorem C21_assign_bc : forall (K : ops) (V : Type) (p : problem K V), bcs_ok p ->
  forall x : list K, length x = all_dofs (global_shapes p) ->
  length (assign_bc x p) = all_dofs (global_shapes p) /\
  forall v n j, valid_dof (global_shapes p) v n j ->
    nth (dof_number (global_shapes p) v n j) (assign_bc x p) zero =
    match prescribed (fe_of p v) n j with
    | Some b => b
    | None => nth (dof_number (global_shapes p) v n j) x zero
    end.
Proof. intros K V p BC x Hx. exact (assign_bc_spec p BC x Hx). Qed.
Print Assumptions C21_assign_bc.

Theorem C21_assign_bc_idempotent : forall (K : ops) (V : Type) (p : problem K V), bcs_ok p ->
  forall x : list K, length x = all_dofs (global_shapes p) -> assign_bc (assign_bc x p) p = assign_bc x p.
Proof. intros K V p BC x Hx. exact (assign_bc_idem p BC x Hx). Qed.
Print Assumptions C21_assign_bc_idempotent.

Theorem C21_assign_ones_bc : forall (K : ops) (V : Type) (p : problem K V), bcs_ok p ->
  forall x : list K, length x = all_dofs (global_shapes p) ->
  length (assign_ones_bc x p) = all_dofs (global_shapes p) /\
  forall v n j, valid_dof (global_shapes p) v n j ->
    nth (dof_number (global_shapes p) v n j) (assign_ones_bc x p) zero =
    match prescribed (fe_of p v) n j with
    | Some _ => one
    | None => nth (dof_number (global_shapes p) v n j) x zero
    end.
Proof. intros K V p BC x Hx. exact (assign_ones_bc_spec p BC x Hx). Qed.
Print Assumptions C21_assign_ones_bc.

Theorem C21_assign_zeros_bc : forall (K : ops) (V : Type) (p : problem K V), bcs_ok p ->
  forall x : list K, length x = all_dofs (global_shapes p) ->
  length (assign_zeros_bc x p) = all_dofs (global_shapes p) /\
  forall v n j, valid_dof (global_shapes p) v n j ->
    nth (dof_number (global_shapes p) v n j) (assign_zeros_bc x p) zero =
    match prescribed (fe_of p v) n j with
    | Some _ => zero
    | None => nth (dof_number (global_shapes p) v n j) x zero
    end.
Proof. intros K V p BC x Hx. exact (assign_zeros_bc_spec p BC x Hx). Qed.
Print Assumptions C21_assign_zeros_bc.

Theorem C21_copy_bc : forall (K : ops) (V : Type) (p : problem K V), bcs_ok p ->
  forall x : list K, length x = all_dofs (global_shapes p) ->
  length (copy_bc x p) = all_dofs (global_shapes p) /\
  forall v n j, valid_dof (global_shapes p) v n j ->
    nth (dof_number (global_shapes p) v n j) (copy_bc x p) zero =
    match prescribed (fe_of p v) n j with
    | Some _ => nth (dof_number (global_shapes p) v n j) x zero
    | None => zero
    end.
Proof. intros K V p BC x Hx. exact (copy_bc_spec p BC x Hx). Qed.
Print Assumptions C21_copy_bc.

(** C22. Identity rows at constrained dofs, assembled rows elsewhere; *)
Theorem C22_tangent_rows : forall (K : ops) (V : Type) (p : problem K V), bcs_ok p ->
  (forall f, In f (fes p) -> bc_in_range f) ->
  forall (W : list K) v n j h, valid_dof (global_shapes p) v n j ->
  let g := dof_number (global_shapes p) v n j in
  (constrained (fe_of p v) n j -> tangent p W g h = if g =? h then one else zero) /\
  (~ constrained (fe_of p v) n j -> tangent p W g h = coo_entry (p_I p) (p_J p) W g h).
Proof. intros K V p BC RNG W v n j h Hv. exact (tangent_spec p BC RNG W v n j h Hv). Qed.
Print Assumptions C22_tangent_rows.

(** it is the derivative of the residual with conditions applied. *)
Theorem C22_tangent_is_derivative : forall (V : Type)
    (jvp : (list Rops -> list Rops) -> list Rops -> list Rops -> list Rops) (sqrtK : R -> R)
    (p : problem Rops V) pts sol dsol kf,
  wf_problem p -> 0 < p_num_cells p -> sol_ok p sol -> sol_ok p dsol -> ivs_ok p -> kernels_ok p kf ->
  (forall c, c < p_num_cells p -> jvp_correct jvp (cell_fun p pts sol c) (cell_values p sol c)) ->
  (forall s i, s < length (boundary_inds_list p) -> i < num_sel_faces p s ->
     jvp_correct jvp (face_fun sqrtK p pts sol kf s i) (cell_values p sol (face_cell p s i))) ->
  bcs_ok p -> (forall f, In f (fes p) -> bc_in_range f) ->
  forall g (res : R -> list (list (list Rops))) r0 W,
  g < all_dofs (global_shapes p) ->
  (forall t, compute_residual sqrtK p pts (line3 sol dsol t) = Ok (res t)) ->
  newton_update jvp sqrtK p pts sol = Ok (r0, W) ->
  derivable_pt_lim
    (fun t => nth g (apply_bc_vec (ravel (res t)) (ravel (line3 sol dsol t)) p (@one Rops)) (@zero Rops)) 0
    (matvec (all_dofs (global_shapes p)) (tangent p W) (fun h => nth h (ravel dsol) (@zero Rops)) g).
Proof. exact (@tangent_derivative). Qed.
Print Assumptions C22_tangent_is_derivative.

(** C23. An increment that solves the Newton system exactly puts every constrained dof on its value; *)
Theorem C23_newton_step_enforces_bc : forall (K : ops) (KR : ring_laws K) (V : Type) (p : problem K V), bcs_ok p ->
  (forall f, In f (fes p) -> bc_in_range f) ->
  forall (W dofs res inc : list K),
  length res = all_dofs (global_shapes p) -> length dofs = all_dofs (global_shapes p) ->
  length inc = all_dofs (global_shapes p) ->
  (forall g, g < all_dofs (global_shapes p) ->
     matvec (all_dofs (global_shapes p)) (tangent p W) (fun h => nth h inc zero) g
     = nth g (newton_rhs (apply_bc_vec res dofs p one)) zero) ->
  forall v n j b, valid_dof (global_shapes p) v n j -> prescribed (fe_of p v) n j = Some b ->
    nth (dof_number (global_shapes p) v n j) (vadd dofs inc) zero = b.
Proof. exact (@newton_step_bc). Qed.
Print Assumptions C23_newton_step_enforces_bc.

(** and the starting point given to the linear solver satisfies every constrained row and is
    zero at every free dof. *)
Theorem C23_initial_guess : forall (K : ops) (KR : ring_laws K) (V : Type) (p : problem K V), bcs_ok p ->
  (forall f, In f (fes p) -> bc_in_range f) ->
  forall (W dofs res : list K),
  length res = all_dofs (global_shapes p) -> length dofs = all_dofs (global_shapes p) ->
  length (newton_x0 p dofs) = all_dofs (global_shapes p) /\
  forall v n j, valid_dof (global_shapes p) v n j ->
    let g := dof_number (global_shapes p) v n j in
    (constrained (fe_of p v) n j ->
       matvec (all_dofs (global_shapes p)) (tangent p W) (fun h => nth h (newton_x0 p dofs) zero) g
       = nth g (newton_rhs (apply_bc_vec res dofs p one)) zero) /\
    (~ constrained (fe_of p v) n j -> nth g (newton_x0 p dofs) zero = zero).
Proof.
  intros K KR V p BC RNG W dofs res Hr Hd.
  destruct (newton_x0_value KR p BC dofs Hd) as [L G]. split; [exact L|]. intros v n j Hv g. split.
  - intros C. exact (newton_x0_rows KR p BC RNG W dofs res Hr Hd v n j Hv C).
  - intros NC. unfold g. rewrite G by exact Hv.
    destruct (prescribed (fe_of p v) n j) eqn:E; [|reflexivity]. destruct NC. apply prescribed_constrained. eauto.
Qed.
Print Assumptions C23_initial_guess.
