(** The finite element model commutes with homomorphisms of numbers (C80). *)
From Coq Require Import List Arith Lia Bool.
From Verif Require Import Num Arr Fe Problem SolverBc ArrFacts BatchFacts SpecAssembly SpecLift ProblemFacts.
Import ListNotations.

Lemma combine_map {A B C D} (f : A -> C) (g : B -> D) l m :
  combine (map f l) (map g m) = map (fun ab => (f (fst ab), g (snd ab))) (combine l m).
Proof. revert m; induction l as [|x l IH]; intros [|y m]; cbn; auto. now rewrite IH. Qed.
Lemma combine_map_r {A B D} (g : B -> D) (l : list A) m :
  combine l (map g m) = map (fun ab => (fst ab, g (snd ab))) (combine l m).
Proof. revert m; induction l as [|x l IH]; intros [|y m]; cbn; auto. now rewrite IH. Qed.
Lemma map2_map {A B C A' B' C'} (f : A' -> B' -> C') (g : A -> B -> C) (a : A -> A') (b : B -> B') (c : C -> C') l m :
  (forall x y, f (a x) (b y) = c (g x y)) -> map2 f (map a l) (map b m) = map c (map2 g l m).
Proof.
  intros H. unfold map2. rewrite combine_map, !map_map. apply map_ext. intros [x y]; cbn. apply H.
Qed.
Lemma skipn_map {A B} (f : A -> B) n l : skipn n (map f l) = map f (skipn n l).
Proof. revert l; induction n as [|n IH]; intros [|x l]; cbn; auto. Qed.
Lemma chunk_map {A B} (f : A -> B) n c l : chunk n c (map f l) = map (map f) (chunk n c l).
Proof.
  revert l; induction n as [|n IH]; intros l; cbn; auto. now rewrite firstn_map, skipn_map, IH.
Qed.
Lemma unravel_map {A B} (f : A -> B) shapes l : unravel shapes (map f l) = map (map (map f)) (unravel shapes l).
Proof.
  revert l; induction shapes as [|[n c] t IH]; intros l; cbn; auto.
  now rewrite firstn_map, skipn_map, chunk_map, IH.
Qed.
Lemma ravel_map {A B} (f : A -> B) l : ravel (map (map (map f)) l) = map f (ravel l).
Proof.
  unfold ravel. rewrite concat_map, !map_map. f_equal. apply map_ext. intros x. now rewrite concat_map.
Qed.
Lemma upd_nth_map {A B} (f : A -> B) i (u : A -> A) (v : B -> B) l :
  (forall x, v (f x) = f (u x)) -> upd_nth i v (map f l) = map f (upd_nth i u l).
Proof.
  intros H. revert i; induction l as [|x l IH]; intros [|i]; cbn; auto; now rewrite ?H, ?IH.
Qed.
Lemma gather_map {A B} (f : A -> B) d d' l i : f d = d' -> gather d' (map f l) i = f (gather d l i).
Proof. intros <-. unfold gather. rewrite map_length. apply map_nth. Qed.
Lemma fold_left_map_rel {A B C D} (f : A -> C -> A) (g : B -> D -> B) (a : A -> B) (b : C -> D) l x :
  (forall x y, g (a x) (b y) = a (f x y)) -> fold_left g (map b l) (a x) = a (fold_left f l x).
Proof.
  intros H. revert x; induction l as [|y l IH]; intros x; cbn; auto. now rewrite H, IH.
Qed.
Lemma map_flat_map {A B C} (f : B -> C) (g : A -> list B) l : map f (flat_map g l) = flat_map (fun x => map f (g x)) l.
Proof. induction l; cbn; auto. now rewrite map_app, IHl. Qed.
Lemma map_repeat' {A B} (f : A -> B) x n : map f (repeat x n) = repeat (f x) n.
Proof. induction n; cbn; congruence. Qed.
Lemma mapM_map_result {A B C} (g : B -> C) (f1 : A -> result B) (f2 : A -> result C) l :
  (forall x, In x l -> f2 x = map_result g (f1 x)) -> mapM f2 l = map_result (map g) (mapM f1 l).
Proof.
  induction l as [|x l IH]; intros H; cbn; auto. rewrite (H x) by (now left).
  destruct (f1 x) as [y|e]; cbn; auto. rewrite IH by (intros; apply H; now right). destruct (mapM f1 l); reflexivity.
Qed.
Lemma Forall2_nth_error {A B} (R : A -> B -> Prop) l m i : Forall2 R l m ->
  match nth_error l i, nth_error m i with Some a, Some b => R a b | None, None => True | _, _ => False end.
Proof. intros H. revert i. induction H; intros [|i]; cbn; auto. apply IHForall2. Qed.

Section H.
  Context {K1 K2 : ops} {V : Type} (h : K1 -> K2) (HOM : hom K1 K2 h).
  Open Scope num_scope.
  Notation L1 := (lift1 h). Notation L2 := (lift2 h). Notation L3 := (lift3 h).

  Lemma lift_sum_over {A} (l : list A) f g : (forall x, In x l -> g x = h (f x)) -> sum_over l g = h (sum_over l f).
  Proof.
    induction l as [|x l IH]; intros H.
    - unfold sum_over; cbn. symmetry. apply (hom0 _ _ _ HOM).
    - rewrite !sum_over_cons, H by (now left). rewrite IH by (intros; apply H; now right).
      symmetry. apply (hom_add _ _ _ HOM).
  Qed.
  Lemma lift_sum_n n f g : (forall i, (i < n)%nat -> g i = h (f i)) -> sum_n n g = h (sum_n n f).
  Proof. intros H. apply lift_sum_over. intros x Hx. apply in_seq in Hx. apply H. lia. Qed.
  Lemma lift_nth l i : nth i (L1 l) 0 = h (nth i l 0).
  Proof. unfold lift1. rewrite <- (hom0 _ _ _ HOM). apply map_nth. Qed.
  Lemma lift_nth2 l i : nth i (L2 l) [] = L1 (nth i l []).
  Proof. unfold lift2. change (@nil K2) with (L1 []). apply map_nth. Qed.
  Lemma lift_nth3 l i : nth i (L3 l) [] = L2 (nth i l []).
  Proof. unfold lift3. change (@nil (list K2)) with (L2 []). apply map_nth. Qed.
  Lemma lift_get2 l i j : get2 0 (L2 l) i j = h (get2 0 l i j).
  Proof. unfold get2. now rewrite lift_nth2, lift_nth. Qed.
  Lemma lift_sgn k : @sgn K2 k = h (sgn k).
  Proof.
    unfold sgn. destruct (Nat.even k); rewrite ?(hom_opp _ _ _ HOM); now rewrite (hom1 _ _ _ HOM).
  Qed.
  Lemma lift_det n m m' : (forall i j, m' i j = h (m i j)) -> det n m' = h (det n m).
  Proof.
    revert m m'. induction n as [|n IH]; intros m m' H; cbn [det].
    - symmetry; apply (hom1 _ _ _ HOM).
    - apply lift_sum_n. intros j _. rewrite !(hom_mul _ _ _ HOM), lift_sgn, H. f_equal.
      apply IH. intros; unfold minor; apply H.
  Qed.
  Lemma lift_inv n m m' i j : (forall i j, m' i j = h (m i j)) -> det n m <> 0 -> inv_mat n m' i j = h (inv_mat n m i j).
  Proof.
    intros H D. unfold inv_mat. rewrite (hom_div _ _ _ HOM) by exact D. rewrite (hom_mul _ _ _ HOM), lift_sgn.
    rewrite (lift_det n m m' H). f_equal. f_equal. apply lift_det. intros; unfold minor; apply H.
  Qed.
  Lemma lift_coo P f c a i : coo (L2 P) (lift_fe h f) c a i = h (coo P f c a i).
  Proof.
    unfold coo. change (cell_node (lift_fe h f) c a) with (cell_node f c a).
    unfold lift2. rewrite (gather_map (lift1 h) [] []) by reflexivity. apply lift_nth.
  Qed.
  Lemma lift_jac P f c q i j : jacobian_dx_deta (L2 P) (lift_fe h f) c q i j = h (jacobian_dx_deta P f c q i j).
  Proof.
    unfold jacobian_dx_deta; cbn [num_nodes shape_grads_ref lift_fe]. apply lift_sum_n. intros a _.
    now rewrite lift_coo, (hom_mul _ _ _ HOM).
  Qed.
  Lemma lift_face_jac P f c fc q i j : face_jacobian (L2 P) (lift_fe h f) c fc q i j = h (face_jacobian P f c fc q i j).
  Proof.
    unfold face_jacobian; cbn [num_nodes face_shape_grads_ref lift_fe]. apply lift_sum_n. intros a _.
    now rewrite lift_coo, (hom_mul _ _ _ HOM).
  Qed.
  Lemma lift_shape_grads P f c q a j : det (dim f) (jacobian_dx_deta P f c q) <> 0 ->
    get_shape_grads (L2 P) (lift_fe h f) c q a j = h (get_shape_grads P f c q a j).
  Proof.
    intros D. unfold get_shape_grads; cbn [dim shape_grads_ref lift_fe]. apply lift_sum_n. intros i _.
    rewrite (hom_mul _ _ _ HOM). f_equal. apply lift_inv; auto. intros; apply lift_jac.
  Qed.
  Lemma lift_JxW P f c q : get_JxW (L2 P) (lift_fe h f) c q = h (get_JxW P f c q).
  Proof.
    unfold get_JxW; cbn [dim quad_weights lift_fe]. rewrite (hom_mul _ _ _ HOM). f_equal. apply lift_det.
    intros; apply lift_jac.
  Qed.
  Lemma lift_face_grads P f c fc q a j : det (dim f) (face_jacobian P f c fc q) <> 0 ->
    get_face_shape_grads (L2 P) (lift_fe h f) c fc q a j = h (get_face_shape_grads P f c fc q a j).
  Proof.
    intros D. unfold get_face_shape_grads; cbn [dim face_shape_grads_ref lift_fe]. apply lift_sum_n. intros i _.
    rewrite (hom_mul _ _ _ HOM). f_equal. apply lift_inv; auto. intros; apply lift_face_jac.
  Qed.
  Lemma lift_nanson s1 s2 P f c fc q : sqrt_agree h s1 s2 -> det (dim f) (face_jacobian P f c fc q) <> 0 ->
    nanson_scale s2 (L2 P) (lift_fe h f) c fc q = h (nanson_scale s1 P f c fc q).
  Proof.
    intros S D. unfold nanson_scale; cbn [dim face_normals face_quad_weights lift_fe]. cbv zeta.
    rewrite !(hom_mul _ _ _ HOM). f_equal. f_equal.
    - rewrite <- S. f_equal. apply lift_sum_n. intros j _. rewrite (hom_mul _ _ _ HOM).
      f_equal; apply lift_sum_n; intros i _; rewrite (hom_mul _ _ _ HOM); f_equal; apply lift_inv; auto;
        intros; apply lift_face_jac.
    - apply lift_det. intros; apply lift_face_jac.
  Qed.
  Lemma lift_quad_points P f c q i : get_physical_quad_points (L2 P) (lift_fe h f) c q i = h (get_physical_quad_points P f c q i).
  Proof.
    unfold get_physical_quad_points; cbn [num_nodes shape_vals lift_fe]. apply lift_sum_n. intros a _.
    now rewrite lift_coo, (hom_mul _ _ _ HOM).
  Qed.
  Lemma lift_surface_points P f c fc q i :
    get_physical_surface_quad_points (L2 P) (lift_fe h f) c fc q i = h (get_physical_surface_quad_points P f c fc q i).
  Proof.
    unfold get_physical_surface_quad_points; cbn [num_nodes face_shape_vals lift_fe]. apply lift_sum_n. intros a _.
    now rewrite lift_coo, (hom_mul _ _ _ HOM).
  Qed.

  Lemma lift_cat {X} (l : list X) (n1 n2 : X -> nat) f1 f2 A :
    (forall x, In x l -> n2 x = n1 x) -> (forall x a, In x l -> f2 x a = h (f1 x a)) ->
    cat_axis 0 (map (fun x => (n2 x, f2 x)) l) A = h (cat_axis 0 (map (fun x => (n1 x, f1 x)) l) A).
  Proof.
    revert A; induction l as [|x l IH]; intros A N F; cbn [map cat_axis].
    - symmetry; apply (hom0 _ _ _ HOM).
    - rewrite N, F by (now left). destruct (A <? n1 x)%nat; auto. apply IH; intros; [apply N|apply F]; now right.
  Qed.

  (** *** one problem *)
  Context (jvp1 : (list K1 -> list K1) -> list K1 -> list K1 -> list K1)
          (jvp2 : (list K2 -> list K2) -> list K2 -> list K2 -> list K2).
  Context (s1 : K1 -> K1) (s2 : K2 -> K2) (p : problem K1 V) (m2 : user_maps K2 V).
  Context (MA : maps_agree h (fe0 p) (maps p) m2) (JA : jvp_agree h jvp1 jvp2) (SA : sqrt_agree h s1 s2).
  Context (NC : (0 < p_num_cells p)%nat).
  Let p2 := lift_problem h m2 p.

  Lemma lift_fe0 : fe0 p2 = lift_fe h (fe0 p).
  Proof.
    unfold fe0, p2. cbn [fes lift_problem]. unfold p_num_cells, fe0 in NC. destruct (fes p); [cbn in NC; lia|reflexivity].
  Qed.
  Lemma lift_fe_nth v : nth v (fes p2) (fe0 p2) = lift_fe h (nth v (fes p) (fe0 p)).
  Proof. rewrite lift_fe0. unfold p2. cbn [fes lift_problem]. apply map_nth. Qed.
  Lemma lift_shapes : sol_shapes p2 = sol_shapes p.
  Proof.
    unfold sol_shapes, p2. cbn [fes lift_problem]. rewrite map_map. apply map_ext. intros f.
    unfold num_total_nodes. cbn. unfold lift2. now rewrite map_length.
  Qed.
  Lemma lift_dof_shapes : dof_shapes p2 = dof_shapes p.
  Proof. unfold dof_shapes, p2. cbn [fes lift_problem]. rewrite map_map. reflexivity. Qed.
  Lemma lift_total : num_total_dofs_all_vars p2 = num_total_dofs_all_vars p.
  Proof. unfold num_total_dofs_all_vars. now rewrite lift_shapes. Qed.
  Lemma lift_num_cells : p_num_cells p2 = p_num_cells p.
  Proof. unfold p_num_cells. rewrite lift_fe0. reflexivity. Qed.
  Lemma lift_cells_list : cells_list p2 = cells_list p.
  Proof. unfold cells_list, p2. cbn [fes lift_problem]. rewrite map_map. reflexivity. Qed.
  Lemma lift_vecs : p_vecs p2 = p_vecs p.
  Proof. unfold p_vecs, p2. cbn [fes lift_problem]. rewrite map_map. reflexivity. Qed.
  Lemma lift_offset : p_offset p2 = p_offset p.
  Proof.
    unfold p_offset, p2. cbn [fes lift_problem]. rewrite map_map. f_equal. apply map_ext. intros f.
    unfold num_total_dofs, num_total_nodes. cbn. unfold lift2. now rewrite map_length.
  Qed.
  Lemma lift_cell_inds : cell_inds p2 = cell_inds p.
  Proof. unfold cell_inds. now rewrite lift_vecs, lift_offset, lift_num_cells, lift_cells_list. Qed.
  Lemma lift_face_inds b : face_dof_inds p2 b = face_dof_inds p b.
  Proof. unfold face_dof_inds, cells_list_face. now rewrite lift_vecs, lift_offset, lift_cells_list. Qed.
  Lemma lift_I : p_I p2 = p_I p.
  Proof.
    unfold p_I. rewrite lift_cell_inds. f_equal. change (boundary_inds_list p2) with (boundary_inds_list p).
    apply flat_map_ext. intros b. now rewrite lift_face_inds.
  Qed.
  Lemma lift_J : p_J p2 = p_J p.
  Proof.
    unfold p_J. rewrite lift_cell_inds. f_equal. change (boundary_inds_list p2) with (boundary_inds_list p).
    apply flat_map_ext. intros b. now rewrite lift_face_inds.
  Qed.

  Lemma lift_cell_sol0 s : cell_sol0 p2 (L1 s) = L2 (cell_sol0 p s).
  Proof.
    unfold cell_sol0. rewrite lift_dof_shapes. unfold lift1 at 1. rewrite unravel_map. apply lift_nth3.
  Qed.

  Section Geo.
    Context (pts : list (list (list K1))) (RM : regular_mesh p pts).
    Let pts2 := L3 pts.
    Lemma lift_combine : combine (fes p2) pts2 = map (fun fp => (lift_fe h (fst fp), L2 (snd fp))) (combine (fes p) pts).
    Proof. unfold p2, pts2, lift3. cbn [fes lift_problem]. apply combine_map. Qed.
    Lemma lift_hd : hd [] pts2 = L2 (hd [] pts).
    Proof. unfold pts2. clear RM. destruct pts; reflexivity. Qed.

    Lemma lift_p_grads c q A i : (c < p_num_cells p)%nat -> (q < num_quads (fe0 p))%nat ->
      p_shape_grads p2 pts2 c q A i = h (p_shape_grads p pts c q A i).
    Proof.
      intros Hc Hq. unfold p_shape_grads. rewrite lift_combine, map_map. cbn [fst snd].
      apply (lift_cat (combine (fes p) pts) (fun fp => num_nodes (fst fp)) (fun fp => num_nodes (fst fp))
        (fun fp a => get_shape_grads (snd fp) (fst fp) c q a i)); [reflexivity|].
      intros [f P] a Hf. cbn [fst snd]. apply lift_shape_grads. now apply (proj1 RM).
    Qed.
    Lemma lift_p_vg c q A i : (c < p_num_cells p)%nat -> (q < num_quads (fe0 p))%nat ->
      p_v_grads_JxW p2 pts2 c q A i = h (p_v_grads_JxW p pts c q A i).
    Proof.
      intros Hc Hq. unfold p_v_grads_JxW. rewrite lift_combine, map_map. cbn [fst snd].
      apply (lift_cat (combine (fes p) pts) (fun fp => num_nodes (fst fp)) (fun fp => num_nodes (fst fp))
        (fun fp a => get_shape_grads (snd fp) (fst fp) c q a i * get_JxW (snd fp) (fst fp) c q)); [reflexivity|].
      intros [f P] a Hf. cbn [fst snd]. rewrite (hom_mul _ _ _ HOM), lift_JxW, lift_shape_grads; [reflexivity|].
      now apply (proj1 RM).
    Qed.
    Lemma lift_p_JxW c v q : p_JxW p2 pts2 c v q = h (p_JxW p pts c v q).
    Proof.
      unfold p_JxW. rewrite lift_combine, map_map. cbn [fst snd].
      rewrite <- lift_nth. f_equal. unfold lift1. rewrite map_map. apply map_ext. intros [f P]. cbn [fst snd]. apply lift_JxW.
    Qed.
    Lemma lift_p_quad c q i : p_quad_points p2 pts2 c q i = h (p_quad_points p pts c q i).
    Proof. unfold p_quad_points. rewrite lift_hd, lift_fe0. apply lift_quad_points. Qed.
    Lemma lift_p_fgrads b c fc q A i : In b (boundary_inds_list p) -> In (c, fc) b -> (q < num_face_quads (fe0 p))%nat ->
      p_face_grads p2 pts2 (c, fc) q A i = h (p_face_grads p pts (c, fc) q A i).
    Proof.
      intros Hb Hc Hq. unfold p_face_grads. rewrite lift_combine, map_map. cbn [fst snd].
      apply (lift_cat (combine (fes p) pts) (fun fp => num_nodes (fst fp)) (fun fp => num_nodes (fst fp))
        (fun fp a => get_face_shape_grads (snd fp) (fst fp) c fc q a i)); [reflexivity|].
      intros [f P] a Hf. cbn [fst snd]. apply lift_face_grads. now apply (proj2 RM f P b).
    Qed.
    Lemma lift_p_fvals cf q A : p_face_vals p2 pts2 cf q A = h (p_face_vals p pts cf q A).
    Proof.
      unfold p_face_vals. rewrite lift_combine, map_map. cbn [fst snd].
      apply (lift_cat (combine (fes p) pts) (fun fp => num_nodes (fst fp)) (fun fp => num_nodes (fst fp))
        (fun fp a => face_shape_vals (fst fp) (snd cf) q a)); reflexivity.
    Qed.
    Lemma lift_p_nanson b c fc v q : In b (boundary_inds_list p) -> In (c, fc) b -> (q < num_face_quads (fe0 p))%nat ->
      p_nanson s2 p2 pts2 (c, fc) v q = h (p_nanson s1 p pts (c, fc) v q).
    Proof.
      intros Hb Hc Hq. unfold p_nanson. rewrite lift_combine, map_map. cbn [fst snd].
      rewrite <- lift_nth. f_equal. unfold lift1. rewrite map_map. apply map_ext_in. intros [f P] Hf. cbn [fst snd].
      apply lift_nanson; auto. now apply (proj2 RM f P b).
    Qed.
    Lemma lift_p_squad cf q i : p_surface_quad_points p2 pts2 cf q i = h (p_surface_quad_points p pts cf q i).
    Proof. unfold p_surface_quad_points. rewrite lift_hd, lift_fe0. apply lift_surface_points. Qed.
  End Geo.

  (** *** kernels *)
  Let nq := num_quads (fe0 p).
  Let nfq := num_face_quads (fe0 p).

  Lemma lift_table (g1 : nat -> nat -> K1) (g2 : nat -> nat -> K2) n c :
    (forall a k, (a < n)%nat -> (k < c)%nat -> g2 a k = h (g1 a k)) ->
    flat_map (fun a => map (g2 a) (seq 0 c)) (seq 0 n) = L1 (flat_map (fun a => map (g1 a) (seq 0 c)) (seq 0 n)).
  Proof.
    intros H. unfold lift1. rewrite map_flat_map. apply flat_map_ext_in. intros a Ha. apply in_seq in Ha.
    rewrite map_map. apply map_ext_in. intros k Hk. apply in_seq in Hk. apply H; lia.
  Qed.

  Lemma lift_laplace t1 t2 ci1 ci2 :
    (forall g g' iv, (forall k j, g' k j = h (g k j)) ->
       forall k j, (k < vec (fe0 p))%nat -> (j < dim (fe0 p))%nat -> t2 g' iv k j = h (t1 g iv k j)) ->
    same_cell h nq ci1 ci2 -> laplace_kernel p2 t2 ci2 = L1 (laplace_kernel p t1 ci1).
  Proof.
    intros T (S & X & G & J & VG & IV). unfold laplace_kernel. rewrite lift_fe0. cbn [num_nodes vec num_quads dim lift_fe].
    rewrite S, lift_cell_sol0, IV. cbv zeta.
    apply (lift_table (fun a k => sum_n (num_quads (fe0 p)) (fun q => sum_n (dim (fe0 p)) (fun j =>
       t1 (fun k j => sum_n (num_nodes (fe0 p)) (fun a => get2 0 (cell_sol0 p (ci_sol ci1)) a k * ci_grads ci1 q a j))
         (at_quad (ci_iv ci1) q) k j * ci_vgJxW ci1 q a j)))). intros a k Ha Hk.
    apply lift_sum_n. intros q Hq. apply lift_sum_n. intros j Hj.
    rewrite (hom_mul _ _ _ HOM), VG by exact Hq. f_equal. apply T; auto. intros k' j'. apply lift_sum_n. intros a' Ha'.
    rewrite (hom_mul _ _ _ HOM), lift_get2, G by exact Hq. reflexivity.
  Qed.
  Lemma lift_mass t1 t2 ci1 ci2 : same_map h (vec (fe0 p)) t1 t2 ->
    same_cell h nq ci1 ci2 -> mass_kernel p2 t2 ci2 = L1 (mass_kernel p t1 ci1).
  Proof.
    intros T (S & X & G & J & VG & IV). unfold mass_kernel. rewrite lift_fe0.
    cbn [num_nodes vec num_quads dim lift_fe shape_vals].
    rewrite S, lift_cell_sol0, IV. cbv zeta.
    apply (lift_table (fun a k => sum_n (num_quads (fe0 p)) (fun q =>
       t1 (fun k => sum_n (num_nodes (fe0 p)) (fun a => get2 0 (cell_sol0 p (ci_sol ci1)) a k * shape_vals (fe0 p) q a))
         (ci_x ci1 q) (at_quad (ci_iv ci1) q) k * shape_vals (fe0 p) q a * ci_JxW ci1 0 q))). intros a k Ha Hk.
    apply lift_sum_n. intros q Hq. rewrite !(hom_mul _ _ _ HOM), J. f_equal. f_equal. apply T; auto.
    intros k'. apply lift_sum_n. intros a' Ha'. now rewrite (hom_mul _ _ _ HOM), lift_get2.
  Qed.
  Lemma lift_surface t1 t2 fi1 fi2 : same_map h (vec (fe0 p)) t1 t2 ->
    same_face h nfq fi1 fi2 -> surface_kernel p2 t2 fi2 = L1 (surface_kernel p t1 fi1).
  Proof.
    intros T (S & X & G & J & VG & IV). unfold surface_kernel. rewrite lift_fe0.
    cbn [num_nodes vec num_face_quads dim lift_fe].
    rewrite S, lift_cell_sol0, IV. cbv zeta.
    apply (lift_table (fun a k => sum_n (num_face_quads (fe0 p)) (fun q =>
       t1 (fun k => sum_n (num_nodes (fe0 p)) (fun a => get2 0 (cell_sol0 p (fi_sol fi1)) a k * fi_vals fi1 q a))
         (fi_x fi1 q) (at_quad (fi_iv fi1) q) k * fi_vals fi1 q a * fi_nanson fi1 0 q))). intros a k Ha Hk.
    apply lift_sum_n. intros q Hq. rewrite !(hom_mul _ _ _ HOM), VG, G by exact Hq. f_equal. f_equal. apply T; auto.
    intros k'. apply lift_sum_n. intros a' Ha'. now rewrite (hom_mul _ _ _ HOM), lift_get2, G.
  Qed.

  Lemma lift_map2_add a b : map2 add (L1 a) (L1 b) = L1 (map2 add a b).
  Proof. apply map2_map. intros. symmetry. apply (hom_add _ _ _ HOM). Qed.
  Lemma lift_badd x y : badd (option_map L1 x) (option_map L1 y) = option_map L1 (badd x y).
  Proof. destruct x, y; cbn; auto. now rewrite lift_map2_add. Qed.
  Lemma lift_option {A B} (R : A -> B -> Prop) (g1 : A -> list K1) (g2 : B -> list K2) x y :
    both R x y -> (forall a b, R a b -> g2 b = L1 (g1 a)) -> option_map g2 y = option_map L1 (option_map g1 x).
  Proof. destruct x, y; cbn; intros H G; try tauto. now rewrite (G _ _ H). Qed.

  Lemma lift_kernel ci1 ci2 : same_cell h nq ci1 ci2 -> kernel_cell p2 ci2 = L1 (kernel_cell p ci1).
  Proof.
    intros SC. destruct MA as (Ta & Ma & Ua & _ & _). unfold kernel_cell. change (maps p2) with m2.
    rewrite (lift_option _ (fun t => laplace_kernel p t ci1) (fun t => laplace_kernel p2 t ci2) _ _ Ta)
      by (intros; now apply lift_laplace).
    rewrite (lift_option _ (fun t => mass_kernel p t ci1) (fun t => mass_kernel p2 t ci2) _ _ Ma)
      by (intros; now apply lift_mass).
    rewrite (lift_option _ (fun t => t ci1) (fun t => t ci2) _ _ Ua) by (intros; auto).
    rewrite !lift_badd. destruct (badd _ _); reflexivity.
  Qed.
  Lemma lift_kernel_face i : match kernel_face p i with
    | Ok k1 => exists k2, kernel_face p2 i = Ok k2 /\ forall fi1 fi2, same_face h nfq fi1 fi2 -> k2 fi2 = L1 (k1 fi1)
    | Err e => kernel_face p2 i = Err e end.
  Proof.
    destruct MA as (_ & _ & _ & Sa & Ua). unfold kernel_face. change (maps p2) with m2.
    destruct (surface_maps (maps p)) as [a|], (surface_maps m2) as [b|]; try tauto;
    destruct (universal_kernels_surface (maps p)) as [c|], (universal_kernels_surface m2) as [d|]; try tauto; cbn in Sa, Ua.
    - pose proof (Forall2_nth_error _ _ _ i Sa) as E1. pose proof (Forall2_nth_error _ _ _ i Ua) as E2.
      destruct (nth_error a i), (nth_error b i); try tauto; destruct (nth_error c i), (nth_error d i); try tauto.
      eexists; split; [reflexivity|]. intros fi1 fi2 SF. cbn. rewrite (lift_surface _ _ _ _ E1 SF), (E2 _ _ SF).
      apply lift_map2_add.
    - pose proof (Forall2_nth_error _ _ _ i Sa) as E1. destruct (nth_error a i), (nth_error b i); try tauto.
      eexists; split; [reflexivity|]. intros; now apply lift_surface.
    - pose proof (Forall2_nth_error _ _ _ i Ua) as E2. destruct (nth_error c i), (nth_error d i); try tauto.
      eexists; split; [reflexivity|]. auto.
    - eexists; split; [reflexivity|]. reflexivity.
  Qed.

  Lemma lift_unit n b : @unit_vec K2 n b = L1 (unit_vec n b).
  Proof.
    unfold unit_vec, lift1. rewrite map_map. apply map_ext. intros i.
    destruct (i =? b)%nat; [now rewrite (hom1 _ _ _ HOM)|now rewrite (hom0 _ _ _ HOM)].
  Qed.
  Definition lift_vj (x : list K1 * list (list K1)) := (L1 (fst x), L2 (snd x)).
  Lemma lift_jacfwd f1 f2 x : (forall y, f2 (L1 y) = L1 (f1 y)) ->
    value_and_jacfwd jvp2 f2 (L1 x) = lift_vj (value_and_jacfwd jvp1 f1 x).
  Proof.
    intros F. unfold value_and_jacfwd, lift_vj. cbn [fst snd]. rewrite F. f_equal.
    assert (LL : forall l, length (L1 l) = length l) by (intros; apply map_length). rewrite !LL.
    unfold lift2. rewrite map_map. apply map_ext. intros a. unfold lift1 at 2. rewrite map_map.
    apply map_ext. intros b. rewrite lift_unit, (JA f1 f2) by exact F. apply lift_nth.
  Qed.
  Lemma same_with_sol (ci1 : cell_in K1 V) (ci2 : cell_in K2 V) y : same_cell h nq ci1 ci2 -> same_cell h nq (with_sol ci1 y) (with_sol ci2 (L1 y)).
  Proof. intros (S & X & G & J & VG & IV). unfold same_cell, with_sol; cbn. tauto. Qed.
  Lemma same_with_sol_f (fi1 : face_in K1 V) (fi2 : face_in K2 V) y : same_face h nfq fi1 fi2 -> same_face h nfq (with_sol_f fi1 y) (with_sol_f fi2 (L1 y)).
  Proof. intros (S & X & G & J & VG & IV). unfold same_face, with_sol_f; cbn. tauto. Qed.
  Lemma lift_kernel_jac ci1 ci2 : same_cell h nq ci1 ci2 -> kernel_jac_cell jvp2 p2 ci2 = lift_vj (kernel_jac_cell jvp1 p ci1).
  Proof.
    intros SC. unfold kernel_jac_cell. rewrite (proj1 SC). apply lift_jacfwd. intros y. apply lift_kernel.
    now apply same_with_sol.
  Qed.
  Lemma lift_kernel_jac_face k1 k2 (fi1 : face_in K1 V) (fi2 : face_in K2 V) : (forall fi1 fi2, same_face h nfq fi1 fi2 -> k2 fi2 = L1 (k1 fi1)) ->
    same_face h nfq fi1 fi2 -> kernel_jac_face jvp2 k2 fi2 = lift_vj (kernel_jac_face jvp1 k1 fi1).
  Proof.
    intros KK SF. unfold kernel_jac_face. rewrite (proj1 SF). apply lift_jacfwd. intros y. apply KK.
    now apply same_with_sol_f.
  Qed.

  (** *** assembly *)
  Lemma lift_csf sol : cells_sol_flat p2 (L3 sol) = L2 (cells_sol_flat p sol).
  Proof.
    unfold cells_sol_flat. rewrite lift_cells_list, lift_num_cells. unfold lift2 at 1. rewrite map_map.
    apply map_ext. intros c. unfold lift1. rewrite <- ravel_map. f_equal. unfold lift3 at 1.
    rewrite combine_map_r, !map_map. apply map_ext. intros [cs s]. cbn [fst snd].
    change (map (map h)) with L2. rewrite <- lift_nth3. f_equal. unfold lift3. rewrite map_map. apply map_ext. intros cell.
    unfold take. unfold lift2 at 2. rewrite map_map. apply map_ext. intros n. unfold lift2. now apply gather_map.
  Qed.
  Lemma length_csf {K} (P : problem K V) sol : length (cells_sol_flat P sol) = p_num_cells P.
  Proof. unfold cells_sol_flat. now rewrite map_length, seq_length. Qed.

  Lemma lift_scatter v shapes res rows w : scatter_var v shapes (L2 res) rows (L2 w) = L2 (scatter_var v shapes res rows w).
  Proof.
    unfold scatter_var, at_add_rows.
    assert (E : concat (map (fun x => nth v (unravel shapes x) []) (L2 w)) = L2 (concat (map (fun x => nth v (unravel shapes x) []) w))).
    { unfold lift2. rewrite concat_map, !map_map. f_equal. apply map_ext. intros x. unfold lift1.
      rewrite unravel_map. exact (lift_nth3 (unravel shapes x) v). }
    rewrite E. unfold lift2. rewrite combine_map_r. apply fold_left_map_rel. intros acc [i row]. cbn [fst snd].
    apply upd_nth_map. intros x. apply lift_map2_add.
  Qed.
  Lemma lift_helper w wf : compute_residual_vars_helper p2 (L2 w) (L3 wf) = L3 (compute_residual_vars_helper p w wf).
  Proof.
    unfold compute_residual_vars_helper. unfold lift3 at 2. rewrite map_map.
    assert (E : length (fes p2) = length (fes p)) by (unfold p2; cbn; apply map_length).
    rewrite E. apply map_ext. intros v. rewrite lift_fe_nth. cbn [vec cells lift_fe]. cbv zeta.
    unfold num_total_nodes. cbn [points lift_fe]. unfold lift2 at 1. rewrite map_length.
    assert (Z : zeros2 0 (length (points (nth v (fes p) (fe0 p)))) (vec (nth v (fes p) (fe0 p)))
              = L2 (zeros2 0 (length (points (nth v (fes p) (fe0 p)))) (vec (nth v (fes p) (fe0 p))))).
    { unfold zeros2, lift2, lift1. rewrite !map_repeat'. now rewrite (hom0 _ _ _ HOM). }
    rewrite Z, lift_dof_shapes, lift_scatter. change (boundary_inds_list p2) with (boundary_inds_list p).
    unfold lift3. rewrite combine_map_r. apply fold_left_map_rel. intros acc [b x]. cbn [fst snd].
    unfold cells_list_face. rewrite lift_cells_list. apply lift_scatter.
  Qed.

  Section Res.
    Context (pts : list (list (list K1))) (RM : regular_mesh p pts).

    Lemma lift_vmap {O1 O2} (k1 : cell_in K1 V -> O1) (k2 : cell_in K2 V -> O2) g csf ivs :
      length csf = p_num_cells p ->
      (forall ci1 ci2, same_cell h nq ci1 ci2 -> k2 ci2 = g (k1 ci1)) ->
      vmap_cols k2 (input_collection p2 (L3 pts) (L2 csf) ivs) = map_result (map g) (vmap_cols k1 (input_collection p pts csf ivs)).
    Proof.
      intros HL HK. unfold vmap_cols.
      assert (HL2 : length (L2 csf) = p_num_cells p) by (unfold lift2; now rewrite map_length).
      unfold col_sizes, input_collection; cbn [cc_sol cc_x cc_grads cc_JxW cc_vgJxW cc_iv].
      rewrite !map_length, !seq_length, lift_num_cells, HL, HL2.
      destruct (forallb _ _) eqn:E; [|reflexivity]. cbn [map_result]. f_equal. rewrite map_map. apply map_ext_in.
      intros c Hc. apply in_seq in Hc. apply HK. unfold cell_at; cbn [cc_sol cc_x cc_grads cc_JxW cc_vgJxW cc_iv].
      rewrite !(nth_map_in _ _ c 0%nat) by (rewrite seq_length; lia).
      rewrite !seq_nth by lia. cbn [Nat.add]. unfold same_cell; cbn [ci_sol ci_x ci_grads ci_JxW ci_vgJxW ci_iv].
      repeat split.
      - apply lift_nth2.
      - intros; apply lift_p_quad.
      - intros; apply lift_p_grads; auto; lia.
      - intros; apply lift_p_JxW.
      - intros; apply lift_p_vg; auto; lia.
    Qed.
    Lemma lift_split {O1 O2} (k1 : cell_in K1 V -> O1) (k2 : cell_in K2 V -> O2) g csf ivs :
      length csf = p_num_cells p ->
      (forall ci1 ci2, same_cell h nq ci1 ci2 -> k2 ci2 = g (k1 ci1)) ->
      split_and_compute (p_num_cells p2) k2 (input_collection p2 (L3 pts) (L2 csf) ivs)
      = map_result (map g) (split_and_compute (p_num_cells p) k1 (input_collection p pts csf ivs)).
    Proof.
      intros HL HK. rewrite !split_and_compute_vmap; rewrite ?lift_num_cells; auto.
      - now apply lift_vmap.
      - cbn. unfold lift2. now rewrite map_length.
    Qed.
    Lemma lift_face_inputs i csf ivs : (i < length (boundary_inds_list p))%nat ->
      match face_inputs s1 p pts csf (nth i (boundary_inds_list p) []) ivs with
      | Ok l1 => exists l2, face_inputs s2 p2 (L3 pts) (L2 csf) (nth i (boundary_inds_list p) []) ivs = Ok l2 /\
                   Forall2 (same_face h nfq) l1 l2
      | Err e => face_inputs s2 p2 (L3 pts) (L2 csf) (nth i (boundary_inds_list p) []) ivs = Err e
      end.
    Proof.
      intros Hi. unfold face_inputs. set (b := nth i (boundary_inds_list p) []).
      assert (Hb : In b (boundary_inds_list p)) by (now apply nth_In).
      destruct (forallb _ ivs); [|reflexivity]. eexists; split; [reflexivity|].
      assert (G : forall l, (forall e, In e l -> (e < length b)%nat) ->
        Forall2 (same_face h nfq) (map (fun i => let cf := nth i b (0, 0)%nat in
               mkFaceIn (gather [] csf (fst cf)) (p_surface_quad_points p pts cf) (p_face_vals p pts cf)
                        (p_face_grads p pts cf) (p_nanson s1 p pts cf)
                        (flat_map (fun iv => match nth_error iv i with Some x => [x] | None => [] end) ivs)) l)
          (map (fun i => let cf := nth i b (0, 0)%nat in
               mkFaceIn (gather [] (L2 csf) (fst cf)) (p_surface_quad_points p2 (L3 pts) cf) (p_face_vals p2 (L3 pts) cf)
                        (p_face_grads p2 (L3 pts) cf) (p_nanson s2 p2 (L3 pts) cf)
                        (flat_map (fun iv => match nth_error iv i with Some x => [x] | None => [] end) ivs)) l)).
      { induction l as [|e l IH]; intros HB; cbn; constructor; [|apply IH; intros; apply HB; now right].
        assert (Hin : In (nth e b (0,0)%nat) b) by (apply nth_In; apply HB; now left).
        destruct (nth e b (0, 0)%nat) as [c fc] eqn:E. unfold same_face; cbn [fi_sol fi_x fi_vals fi_grads fi_nanson fi_iv fst].
        repeat split.
        - unfold lift2. now apply gather_map.
        - intros; apply lift_p_squad.
        - intros; apply lift_p_fvals.
        - intros; now apply (lift_p_fgrads _ RM b).
        - intros; now apply (lift_p_nanson _ RM b). }
      apply G. intros e He. apply in_seq in He. lia.
    Qed.
    Lemma lift_face_step {O1 O2} (j1 : (face_in K1 V -> list K1) -> face_in K1 V -> O1)
        (j2 : (face_in K2 V -> list K2) -> face_in K2 V -> O2) g csf ivss i :
      (forall k1 k2 fi1 fi2, (forall fi1 fi2, same_face h nfq fi1 fi2 -> k2 fi2 = L1 (k1 fi1)) ->
         same_face h nfq fi1 fi2 -> j2 k2 fi2 = g (j1 k1 fi1)) ->
      (i < length (boundary_inds_list p))%nat ->
      face_step j2 s2 p2 (L3 pts) (L2 csf) ivss i = map_result (map g) (face_step j1 s1 p pts csf ivss i).
    Proof.
      intros HJ Hi. unfold face_step. destruct (nth_error ivss i) as [ivs|]; [|reflexivity].
      pose proof (lift_kernel_face i) as KF. destruct (kernel_face p i) as [k1|e]; [|rewrite KF; reflexivity].
      destruct KF as (k2 & -> & KK). cbn [bind].
      change (boundary_inds_list p2) with (boundary_inds_list p).
      pose proof (lift_face_inputs i csf ivs Hi) as FI.
      destruct (face_inputs s1 p pts csf _ ivs) as [l1|e]; [|rewrite FI; reflexivity].
      destruct FI as (l2 & -> & F2). cbn [bind map_result]. f_equal. rewrite map_map.
      induction F2 as [|x y l l' Hxy F2 IH]; cbn; auto. rewrite (HJ k1 k2 x y KK Hxy). now rewrite IH.
    Qed.

    Theorem lift_residual sol : compute_residual s2 p2 (L3 pts) (L3 sol) = map_result L3 (compute_residual s1 p pts sol).
    Proof.
      unfold compute_residual, compute_residual_vars. cbv zeta. rewrite lift_csf. unfold split_and_compute_cell.
      change (internal_vars p2) with (internal_vars p). change (internal_vars_surfaces p2) with (internal_vars_surfaces p).
      rewrite (lift_split (kernel_cell p) (kernel_cell p2) L1) by (apply length_csf || (intros; now apply lift_kernel)).
      destruct (split_and_compute _ (kernel_cell p) _) as [w|e]; [|reflexivity]. cbn [bind map_result].
      unfold compute_face. change (boundary_inds_list p2) with (boundary_inds_list p).
      rewrite (mapM_map_result (map L1) (face_step (fun k => k) s1 p pts (cells_sol_flat p sol) (internal_vars_surfaces p))).
      2:{ intros i Hi. apply in_seq in Hi. apply (lift_face_step (fun k => k) (fun k => k)); [|lia]. intros k1 k2 fi1 fi2 KK SF. now apply KK. }
      destruct (mapM _ _) as [wf|e]; [|reflexivity]. cbn [bind map_result]. f_equal. apply lift_helper.
    Qed.

    Theorem lift_newton sol : newton_update jvp2 s2 p2 (L3 pts) (L3 sol)
      = map_result (fun rw => (L3 (fst rw), L1 (snd rw))) (newton_update jvp1 s1 p pts sol).
    Proof.
      unfold newton_update, compute_newton_vars. cbv zeta. rewrite lift_csf. unfold split_and_compute_cell_jac.
      change (internal_vars p2) with (internal_vars p). change (internal_vars_surfaces p2) with (internal_vars_surfaces p).
      rewrite (lift_split (kernel_jac_cell jvp1 p) (kernel_jac_cell jvp2 p2) lift_vj)
        by (apply length_csf || (intros; now apply lift_kernel_jac)).
      destruct (split_and_compute _ (kernel_jac_cell jvp1 p) _) as [w|e]; [|reflexivity]. cbn [bind map_result].
      unfold compute_face_jac. change (boundary_inds_list p2) with (boundary_inds_list p).
      rewrite (mapM_map_result (map lift_vj) (face_step (kernel_jac_face jvp1) s1 p pts (cells_sol_flat p sol) (internal_vars_surfaces p))).
      2:{ intros i Hi. apply in_seq in Hi. apply lift_face_step; [|lia]. intros; now apply lift_kernel_jac_face. }
      destruct (mapM _ _) as [wf|e]; [|reflexivity]. cbn [bind map_result fst snd]. f_equal. f_equal.
      - rewrite <- lift_helper. f_equal.
        + unfold lift2. rewrite !map_map. reflexivity.
        + unfold lift3, lift2. rewrite !map_map. apply map_ext. intros l. rewrite !map_map. reflexivity.
      - unfold lift1. rewrite map_app. f_equal.
        + rewrite concat_map, !map_map. f_equal. apply map_ext. intros x. unfold lift_vj, lift2. cbn. now rewrite concat_map.
        + rewrite concat_map, !map_map. f_equal. apply map_ext. intros x. rewrite concat_map, !map_map. f_equal.
          apply map_ext. intros y. unfold lift_vj, lift2. cbn. now rewrite concat_map.
    Qed.
  End Res.

  (** *** boundary conditions, matrix *)
  Lemma lift_apply_bc res dofs : apply_bc_vec (L1 res) (L1 dofs) p2 one = L1 (apply_bc_vec res dofs p one).
  Proof.
    unfold apply_bc_vec, per_fe. cbv zeta. unfold lift1 at 3. rewrite <- ravel_map. f_equal.
    assert (E : length (fes p2) = length (fes p)) by (unfold p2; cbn; apply map_length).
    rewrite E, map_map. apply map_ext. intros v. rewrite lift_shapes, lift_fe_nth. unfold lift1.
    rewrite !unravel_map. change (map (map (map h))) with L3. rewrite !lift_nth3.
    set (f := nth v (fes p) (fe0 p)). set (S := nth v (unravel (sol_shapes p) dofs) []).
    assert (G : bc_groups (lift_fe h f) = map (fun g => (fst g, L1 (snd g))) (bc_groups f)).
    { unfold bc_groups. cbn [node_inds_list vec_inds_list vals_list lift_fe]. rewrite map_map. apply map_ext. intros i.
      cbn [fst snd]. now rewrite lift_nth2. }
    rewrite G. change (map (map h)) with L2. apply fold_left_map_rel. intros acc [[ns vs] vals]. cbn [fst snd].
    unfold apply_bc_group.
    assert (S1 : at_set2 (L2 acc) ns vs (gather2 0 (L2 S) ns vs) = L2 (at_set2 acc ns vs (gather2 0 S ns vs))).
    { unfold at_set2.
      assert (Q : gather2 0 (L2 S) ns vs = L1 (gather2 0 S ns vs)).
      { unfold gather2, lift1. rewrite map_map. apply map_ext. intros [n k]. cbn [fst snd].
        unfold lift2. rewrite (gather_map L1 [] []) by reflexivity. unfold lift1. apply gather_map. apply (hom0 _ _ _ HOM). }
      rewrite Q. unfold lift1 at 1. rewrite combine_map_r. apply fold_left_map_rel. intros l [[n k] x]. cbn [fst snd].
      unfold upd2, lift2. apply upd_nth_map. intros row. unfold lift1. now apply upd_nth_map. }
    rewrite S1. unfold at_add2.
    assert (Q : map (fun b => (- b) * 1) (L1 vals) = L1 (map (fun b => (- b) * 1) vals)).
    { unfold lift1. rewrite !map_map. apply map_ext. intros b. now rewrite (hom_mul _ _ _ HOM), (hom_opp _ _ _ HOM), (hom1 _ _ _ HOM). }
    rewrite Q. unfold lift1 at 1. rewrite combine_map_r. apply fold_left_map_rel. intros l [[n k] x]. cbn [fst snd].
    unfold upd2, lift2. apply upd_nth_map. intros row. unfold lift1. apply upd_nth_map. intros. symmetry. apply (hom_add _ _ _ HOM).
  Qed.

  Lemma lift_bc_rows : bc_rows p2 = bc_rows p.
  Proof.
    unfold bc_rows. assert (E : length (fes p2) = length (fes p)) by (unfold p2; cbn; apply map_length).
    rewrite E, lift_offset. apply flat_map_ext. intros v. rewrite lift_fe_nth. cbv zeta. unfold bc_groups.
    cbn [node_inds_list vec_inds_list vals_list vec lift_fe]. rewrite !map_map. reflexivity.
  Qed.
  Lemma lift_tangent W g k : tangent p2 (L1 W) g k = h (tangent p W g k).
  Proof.
    unfold tangent. rewrite lift_bc_rows, lift_I, lift_J.
    assert (A0 : forall g k, set_values_coo (p_I p) (p_J p) (L1 W) g k = h (set_values_coo (p_I p) (p_J p) W g k)).
    { intros g' k'. unfold set_values_coo. unfold lift1. rewrite combine_map_r, sum_over_map. apply lift_sum_over.
      intros t _. cbn [fst snd]. destruct (_ && _); auto. symmetry; apply (hom0 _ _ _ HOM). }
    revert A0. generalize (set_values_coo (p_I p) (p_J p) W) (set_values_coo (p_I p) (p_J p) (L1 W)).
    revert g k. induction (bc_rows p) as [|r l IH]; intros g k A B H; cbn [fold_left]; auto.
    apply IH. intros g' k'. unfold zero_rows. destruct (existsb _ r); auto.
    destruct (g' =? k')%nat; [now rewrite (hom1 _ _ _ HOM)|now rewrite (hom0 _ _ _ HOM)].
  Qed.
End H.
