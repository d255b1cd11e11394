(** Proofs of C05-C07 for elements built by FiniteElement. *)
From Coq Require Import List Arith Lia Bool String ZArith Field_theory.
From Verif Require Import Num Arr ArrFacts Fe Basis SpecBasis BasisFacts SpecFe FeFacts.
Import ListNotations.

Lemma element_dim_ok s i : get_elements s = Ok i -> element_dim s = cell_dim (basix_ele i).
Proof. intros H. pose proof (get_elements_cases s i H) as I. names I; injection H as <-; reflexivity. Qed.
Lemma element_dim_23 s i : get_elements s = Ok i -> element_dim s = 2 \/ element_dim s = 3.
Proof. intros H. pose proof (get_elements_cases s i H) as I. names I; cbn; auto. Qed.
Lemma re_order_length s i : get_elements s = Ok i -> List.length (re_order i) = node_count s.
Proof. intros H. pose proof (get_elements_cases s i H) as I. names I; injection H as <-; reflexivity. Qed.

Section Built.
  Context {K : ops} (KR : ring_laws K).
  Open Scope num_scope.
  Let Kth : ring_theory (@zero K) one add mul sub opp eq := KR.
  Add Ring KringH : Kth.
  Variables (sqrtK : K -> K) (s : string) (quad fquad : list (list K) * list K) (normals : nat -> nat -> K)
    (pts0 : list (list K)) (cls : list (list nat)) (v d : nat)
    (dir : option (list (location_fn K) * list nat * list (list K -> K))) (f : fe K).
  Hypothesis BUILT : fe_init sqrtK s quad fquad normals pts0 cls v d dir = Ok f.
  Hypothesis LAG : In s nine_names.

  Lemma built_inv : exists info fi bc, get_elements s = Ok info /\
    reorder_inds (facets (basix_ele info)) (re_order info) = Ok fi /\
    Dirichlet_boundary_conditions pts0 dir = Ok bc /\
    f = make_fe sqrtK info quad fquad normals pts0 cls v d fi bc.
  Proof.
    clear LAG. unfold fe_init in BUILT. destruct (get_elements s) as [info|] eqn:E1; [|discriminate].
    destruct (reorder_inds _ _) as [fi|] eqn:E2; [|discriminate].
    destruct (Dirichlet_boundary_conditions pts0 dir) as [bc|] eqn:E3; [|discriminate].
    injection BUILT as <-. exists info, fi, bc. auto.
  Qed.
  Ltac inv_built := destruct built_inv as (info & fi & [[ns vs] ws] & HI & HFI & HD & Hf).

  Lemma built_nodes : num_nodes f = node_count s.
  Proof. inv_built. rewrite Hf. cbn. now apply re_order_length. Qed.
  Lemma built_dim : dim f = d. Proof. inv_built. now rewrite Hf. Qed.
  Lemma built_vec : vec f = v. Proof. inv_built. now rewrite Hf. Qed.
  Lemma built_points : points f = pts0. Proof. inv_built. now rewrite Hf. Qed.
  Lemma built_cells : cells f = cls. Proof. inv_built. now rewrite Hf. Qed.
  Lemma built_weights q : quad_weights f q = nth q (snd quad) 0. Proof. inv_built. now rewrite Hf. Qed.
  Lemma built_quads : num_quads f = List.length (fst quad). Proof. inv_built. now rewrite Hf. Qed.

  Lemma vals_sum q : sum_n (num_nodes f) (shape_vals f q) = 1.
  Proof. inv_built. rewrite built_nodes, Hf. cbn [make_fe shape_vals]. now apply (shape_sum KR). Qed.
  Lemma face_vals_sum fc q : sum_n (num_nodes f) (face_shape_vals f fc q) = 1.
  Proof. inv_built. rewrite built_nodes, Hf. cbn [make_fe face_shape_vals]. now apply (shape_sum KR). Qed.
  Lemma grads_sum q j : (j < element_dim s)%nat -> sum_n (num_nodes f) (fun a => shape_grads_ref f q a j) = 0.
  Proof.
    intros Hj. inv_built. rewrite built_nodes, Hf. cbn [make_fe shape_grads_ref]. apply (grad_sum KR); auto.
    now rewrite <- (element_dim_ok s).
  Qed.
  Lemma face_grads_sum fc q j : (j < element_dim s)%nat -> sum_n (num_nodes f) (fun a => face_shape_grads_ref f fc q a j) = 0.
  Proof.
    intros Hj. inv_built. rewrite built_nodes, Hf. cbn [make_fe face_shape_grads_ref]. apply (grad_sum KR); auto.
    now rewrite <- (element_dim_ok s).
  Qed.
  Lemma grads_linear half q k j : half + half = 1 -> (k < element_dim s)%nat -> (j < element_dim s)%nat ->
    sum_n (num_nodes f) (fun a => ref_coord half s a k * shape_grads_ref f q a j) = if (k =? j)%nat then 1 else 0.
  Proof.
    intros Hh Hk Hj. inv_built. rewrite built_nodes, Hf. cbn [make_fe shape_grads_ref].
    apply (grad_linear KR); auto; now rewrite <- (element_dim_ok s).
  Qed.
  Lemma face_grads_linear half fc q k j : half + half = 1 -> (k < element_dim s)%nat -> (j < element_dim s)%nat ->
    sum_n (num_nodes f) (fun a => ref_coord half s a k * face_shape_grads_ref f fc q a j) = if (k =? j)%nat then 1 else 0.
  Proof.
    intros Hh Hk Hj. inv_built. rewrite built_nodes, Hf. cbn [make_fe face_shape_grads_ref].
    apply (grad_linear KR); auto; now rewrite <- (element_dim_ok s).
  Qed.

  Hypothesis MESH : mesh_ok f.
  Hypothesis DIM : d = element_dim s.
  Variable pts : list (list K).
  Hypothesis PTS : List.length pts = List.length (points f).

  Lemma node_in c a : (c < List.length (cells f))%nat -> (a < num_nodes f)%nat -> (cell_node f c a < List.length pts)%nat.
  Proof.
    intros Hc Ha. destruct (MESH c Hc) as [L N]. rewrite PTS. apply N. unfold cell_node. apply nth_In. lia.
  Qed.
  Lemma coo_vx c a i : (c < List.length (cells f))%nat -> (a < num_nodes f)%nat -> coo pts f c a i = vx pts f c a i.
  Proof. intros Hc Ha. unfold coo, vx. rewrite gather_in by now apply node_in. reflexivity. Qed.

  Lemma dim23 : d = 2%nat \/ d = 3%nat.
  Proof. inv_built. rewrite DIM. eapply element_dim_23; eauto. Qed.

  Section Samples.
    Variables (A : nat -> nat -> K) (b : nat -> K) (sol : list (list K)).
    Hypothesis SAMP : samples d (vec f) A b pts sol.
    Lemma sol_affine c a k : (c < List.length (cells f))%nat -> (a < num_nodes f)%nat -> (k < vec f)%nat ->
      cell_sol_at f sol c a k = affine d A b (fun i => coo pts f c a i) k.
    Proof.
      intros Hc Ha Hk. destruct SAMP as [LS S]. pose proof (node_in c a Hc Ha) as Hn.
      unfold cell_sol_at. rewrite gather_in by lia. rewrite S by auto. unfold affine. f_equal. apply sum_n_ext.
      intros m Hm. f_equal. unfold coo. now rewrite gather_in.
    Qed.
    Lemma weighted c (g : nat -> K) k : (c < List.length (cells f))%nat -> (k < vec f)%nat ->
      sum_n (num_nodes f) (fun a => cell_sol_at f sol c a k * g a)
      = sum_n d (fun m => A k m * sum_n (num_nodes f) (fun a => coo pts f c a m * g a)) + b k * sum_n (num_nodes f) g.
    Proof.
      intros Hc Hk. rewrite (sum_n_ext _ _ (fun a => affine d A b (fun i => coo pts f c a i) k * g a)).
      - apply (affine_sum KR _ _ _ _ (fun a i => coo pts f c a i)).
      - intros a Ha. now rewrite sol_affine.
    Qed.
    Lemma quad_affine c q k : (c < List.length (cells f))%nat -> (k < vec f)%nat ->
      convert_from_dof_to_quad f sol c q k = affine d A b (fun i => get_physical_quad_points pts f c q i) k.
    Proof.
      intros Hc Hk. unfold convert_from_dof_to_quad. rewrite weighted, vals_sum by auto. unfold affine, get_physical_quad_points.
      assert (E : b k * 1 = b k) by ring. rewrite E. f_equal. apply sum_n_ext. intros m Hm. f_equal. apply sum_n_ext. intros; ring.
    Qed.
    Lemma face_quad_affine c fc q k : (c < List.length (cells f))%nat -> (k < vec f)%nat ->
      convert_from_dof_to_face_quad f sol c fc q k = affine d A b (fun i => get_physical_surface_quad_points pts f c fc q i) k.
    Proof.
      intros Hc Hk. unfold convert_from_dof_to_face_quad. rewrite weighted, face_vals_sum by auto.
      unfold affine, get_physical_surface_quad_points.
      assert (E : b k * 1 = b k) by ring. rewrite E. f_equal. apply sum_n_ext. intros m Hm. f_equal. apply sum_n_ext. intros; ring.
    Qed.
  End Samples.

  (** moving the points *)
  Section Move.
    Variables (M : nat -> nat -> K) (t : nat -> K) (pts' : list (list K)).
    Hypothesis MOVED : samples d d M t pts pts'.
    Lemma coo_moved c a i : (c < List.length (cells f))%nat -> (a < num_nodes f)%nat -> (i < d)%nat ->
      coo pts' f c a i = affine d M t (fun k => coo pts f c a k) i.
    Proof.
      intros Hc Ha Hi. destruct MOVED as [L S]. pose proof (node_in c a Hc Ha). unfold coo.
      rewrite gather_in by lia. rewrite S by auto. unfold affine. f_equal. apply sum_n_ext. intros m Hm. now rewrite gather_in.
    Qed.
    Lemma jacobian_moved c q i j : (c < List.length (cells f))%nat -> (i < d)%nat -> (j < d)%nat ->
      jacobian_dx_deta pts' f c q i j = sum_n d (fun k => M i k * jacobian_dx_deta pts f c q k j).
    Proof.
      intros Hc Hi Hj. unfold jacobian_dx_deta.
      rewrite (sum_n_ext _ _ (fun a => affine d M t (fun k => coo pts f c a k) i * shape_grads_ref f q a j)) by
        (intros a Ha; now rewrite coo_moved).
      rewrite (affine_sum KR _ _ _ _ (fun a k => coo pts f c a k)). rewrite grads_sum by lia. ring.
    Qed.
    Lemma JxW_moved c q : (c < List.length (cells f))%nat ->
      get_JxW pts' f c q = det_dim d M * get_JxW pts f c q.
    Proof.
      intros Hc. unfold get_JxW. rewrite built_dim.
      rewrite (det_ext d _ (fun i j => sum_n d (fun k => M i k * jacobian_dx_deta pts f c q k j))) by
        (intros; now apply jacobian_moved).
      rewrite (det_mul KR) by apply dim23. rewrite (det_dim_ok KR d M) by apply dim23. ring.
    Qed.
  End Move.

  (** translation *)
  Lemma translated t pts' : translation d t pts pts' -> samples d d (fun i k => if (i =? k)%nat then 1 else 0) t pts pts'.
  Proof.
    intros [L H]. split; [exact L|]. intros n k Hn Hk. rewrite H by auto. unfold affine. f_equal.
    rewrite (sum_n_single KR _ k) by (auto; intros m Hm Hne; replace (k =? m)%nat with false by
      (symmetry; apply Nat.eqb_neq; congruence); ring). rewrite Nat.eqb_refl. ring.
  Qed.
  Lemma jacobian_translated t pts' c q i j : translation d t pts pts' -> (c < List.length (cells f))%nat ->
    (i < d)%nat -> (j < d)%nat -> jacobian_dx_deta pts' f c q i j = jacobian_dx_deta pts f c q i j.
  Proof.
    intros HT Hc Hi Hj. rewrite (jacobian_moved _ _ _ (translated _ _ HT)) by auto.
    rewrite (sum_n_single KR _ i) by (auto; intros m Hm Hne; replace (i =? m)%nat with false by
      (symmetry; apply Nat.eqb_neq; congruence); ring). rewrite Nat.eqb_refl. ring.
  Qed.
  Lemma translation_invariant t pts' c q a j : translation d t pts pts' -> (c < List.length (cells f))%nat -> (j < d)%nat ->
    get_shape_grads pts' f c q a j = get_shape_grads pts f c q a j /\ get_JxW pts' f c q = get_JxW pts f c q.
  Proof.
    intros HT Hc Hj. unfold get_shape_grads, get_JxW. rewrite built_dim. split.
    - apply sum_n_ext. intros i Hi. f_equal. apply inv_mat_ext; auto. intros. now apply (jacobian_translated t).
    - f_equal. apply det_ext. intros. now apply (jacobian_translated t).
  Qed.

  (** affine cells *)
  Section AffineCell.
    Variables (half : K) (M : nat -> nat -> K) (b : nat -> K) (c : nat).
    Hypothesis HALF : half + half = 1.
    Hypothesis CELL : (c < List.length (cells f))%nat.
    Hypothesis AFF : affine_cell half s pts f d c M b.
    Lemma coo_aff a i : (a < num_nodes f)%nat -> (i < d)%nat ->
      coo pts f c a i = affine d M b (fun k => ref_coord half s a k) i.
    Proof. intros Ha Hi. rewrite coo_vx by auto. apply AFF; auto. now rewrite <- built_nodes. Qed.
    Lemma jac_aff q i j : (i < d)%nat -> (j < d)%nat -> jacobian_dx_deta pts f c q i j = M i j.
    Proof.
      intros Hi Hj. unfold jacobian_dx_deta.
      rewrite (sum_n_ext _ _ (fun a => affine d M b (fun k => ref_coord half s a k) i * shape_grads_ref f q a j)) by
        (intros a Ha; now rewrite coo_aff).
      rewrite (affine_sum KR _ _ _ _ (fun a k => ref_coord half s a k)). rewrite grads_sum by lia.
      rewrite (sum_n_single KR _ j) by (auto; intros k Hk Hne; rewrite grads_linear by (assumption || lia);
        replace (k =? j)%nat with false by (symmetry; now apply Nat.eqb_neq); ring).
      rewrite grads_linear by (assumption || lia). rewrite Nat.eqb_refl. ring.
    Qed.
    Lemma face_jac_aff fc q i j : (i < d)%nat -> (j < d)%nat -> face_jacobian pts f c fc q i j = M i j.
    Proof.
      intros Hi Hj. unfold face_jacobian.
      rewrite (sum_n_ext _ _ (fun a => affine d M b (fun k => ref_coord half s a k) i * face_shape_grads_ref f fc q a j)) by
        (intros a Ha; now rewrite coo_aff).
      rewrite (affine_sum KR _ _ _ _ (fun a k => ref_coord half s a k)). rewrite face_grads_sum by lia.
      rewrite (sum_n_single KR _ j) by (auto; intros k Hk Hne; rewrite face_grads_linear by (assumption || lia);
        replace (k =? j)%nat with false by (symmetry; now apply Nat.eqb_neq); ring).
      rewrite face_grads_linear by (assumption || lia). rewrite Nat.eqb_refl. ring.
    Qed.
    Lemma jxw_aff q : get_JxW pts f c q = det_dim d M * quad_weights f q.
    Proof.
      unfold get_JxW. rewrite built_dim, (det_ext d _ M) by (intros; now apply jac_aff). now rewrite (det_dim_ok KR) by apply dim23.
    Qed.
    Lemma measure_aff : sum_n (num_quads f) (get_JxW pts f c) = det_dim d M * sum_n (num_quads f) (quad_weights f).
    Proof.
      rewrite <- (sum_n_mul_l KR). apply sum_n_ext. intros q Hq. unfold get_JxW. rewrite built_dim.
      rewrite (det_ext d _ M) by (intros; now apply jac_aff). now rewrite (det_dim_ok KR) by apply dim23.
    Qed.
  End AffineCell.
End Built.

(** interpolation is linear and keeps constants *)
Section Interp.
  Context {K : ops} (KR : ring_laws K).
  Open Scope num_scope.
  Let Kth : ring_theory (@zero K) one add mul sub opp eq := KR.
  Add Ring KringH2 : Kth.
  Lemma gather_combination (a b : K) s1 s2 s3 n k : combination a b s1 s2 s3 ->
    nth k (gather [] s3 n) 0 = a * nth k (gather [] s1 n) 0 + b * nth k (gather [] s2 n) 0.
  Proof.
    intros (L1 & L2 & H). unfold gather. rewrite L1, L2.
    destruct (Nat.lt_ge_cases (Nat.min n (List.length s3 - 1)) (List.length s3)) as [L|L]; [now apply H|].
    rewrite !nth_overflow with (l := s3), !nth_overflow with (l := s1), !nth_overflow with (l := s2) by lia.
    destruct k; cbn [nth]; ring.
  Qed.
  Lemma interp_combination (f : fe K) (a b : K) s1 s2 s3 (g : nat -> K) c k : combination a b s1 s2 s3 ->
    sum_n (num_nodes f) (fun m => cell_sol_at f s3 c m k * g m)
    = a * sum_n (num_nodes f) (fun m => cell_sol_at f s1 c m k * g m)
      + b * sum_n (num_nodes f) (fun m => cell_sol_at f s2 c m k * g m).
  Proof.
    intros H. rewrite <- !(sum_n_mul_l KR), <- (sum_n_add KR). apply sum_n_ext. intros m Hm. unfold cell_sol_at.
    rewrite (gather_combination a b s1 s2 s3) by auto. ring.
  Qed.
End Interp.

Section Constants.
  Context {K : ops} (KR : ring_laws K).
  Open Scope num_scope.
  Let Kth : ring_theory (@zero K) one add mul sub opp eq := KR.
  Add Ring KringH3 : Kth.
  Lemma constants_kept s d (f : fe K) : built_element s d f ->
    forall sol (b : nat -> K), List.length sol = List.length (points f) ->
    (forall n k, (n < List.length sol)%nat -> (k < vec f)%nat -> nth k (nth n sol []) 0 = b k) ->
    forall c k, (c < num_cells f)%nat -> (k < vec f)%nat ->
    (forall q, convert_from_dof_to_quad f sol c q k = b k) /\
    (forall fc q, convert_from_dof_to_face_quad f sol c fc q k = b k).
  Proof.
    intros (LAG & DIM & MESH & sq & qd & fq & nm & p0 & cl & v & dr & B) sol b HL HC c k Hc Hk.
    assert (E : forall a, (a < num_nodes f)%nat -> cell_sol_at f sol c a k = b k).
    { intros a Ha. unfold cell_sol_at. rewrite gather_in.
      - apply HC; auto. eapply node_in; eauto.
      - eapply node_in; eauto. }
    split; intros; unfold convert_from_dof_to_quad, convert_from_dof_to_face_quad.
    - rewrite (sum_n_ext _ _ (fun a => b k * shape_vals f q a)) by (intros a Ha; now rewrite E).
      rewrite (sum_n_mul_l KR), (vals_sum KR _ _ _ _ _ _ _ _ _ _ _ B LAG). ring.
    - rewrite (sum_n_ext _ _ (fun a => b k * face_shape_vals f fc q a)) by (intros a Ha; now rewrite E).
      rewrite (sum_n_mul_l KR), (face_vals_sum KR _ _ _ _ _ _ _ _ _ _ _ B LAG). ring.
  Qed.
End Constants.

Section BuiltField.
  Context {K : ops} (KF : field_laws K).
  Open Scope num_scope.
  Let KR := field_ring K KF.
  Let Kth : ring_theory (@zero K) one add mul sub opp eq := KR.
  Add Ring KringI : Kth.
  Variables (sqrtK : K -> K) (s : string) (quad fquad : list (list K) * list K) (normals : nat -> nat -> K)
    (pts0 : list (list K)) (cls : list (list nat)) (v d : nat)
    (dir : option (list (location_fn K) * list nat * list (list K -> K))) (f : fe K).
  Hypothesis BUILT : fe_init sqrtK s quad fquad normals pts0 cls v d dir = Ok f.
  Hypothesis LAG : In s nine_names.
  Hypothesis MESH : mesh_ok f.
  Hypothesis DIM : d = element_dim s.
  Variable pts : list (list K).
  Hypothesis PTS : List.length pts = List.length (points f).

  Lemma JxW_det c q : get_JxW pts f c q <> 0 -> det d (jacobian_dx_deta pts f c q) <> 0.
  Proof.
    intros H E. apply H. unfold get_JxW. rewrite (built_dim _ _ _ _ _ _ _ _ _ _ _ BUILT). rewrite E. ring.
  Qed.
  (** sum_a coo_m grad_a,j = delta *)
  Lemma coo_grads c q m j : (c < List.length (cells f))%nat -> (m < d)%nat -> (j < d)%nat -> get_JxW pts f c q <> 0 ->
    sum_n (num_nodes f) (fun a => coo pts f c a m * get_shape_grads pts f c q a j) = if (m =? j)%nat then 1 else 0.
  Proof.
    intros Hc Hm Hj HJ. apply JxW_det in HJ. unfold get_shape_grads. rewrite (built_dim _ _ _ _ _ _ _ _ _ _ _ BUILT).
    rewrite <- (inv_mat_right KF d (jacobian_dx_deta pts f c q) m j) by
      (auto; eapply dim23; eauto).
    rewrite (sum_n_ext _ _ (fun a => sum_n d (fun i => coo pts f c a m * shape_grads_ref f q a i * inv_mat d (jacobian_dx_deta pts f c q) i j))).
    - rewrite (sum_n_swap' KR). apply sum_n_ext. intros i Hi. rewrite (sum_n_mul_r' KR). reflexivity.
    - intros a Ha. rewrite <- (sum_n_mul_l KR). apply sum_n_ext. intros; ring.
  Qed.
  Lemma phys_grads_sum c q j : (j < d)%nat ->
    sum_n (num_nodes f) (fun a => get_shape_grads pts f c q a j) = 0.
  Proof.
    intros Hj. unfold get_shape_grads. rewrite (built_dim _ _ _ _ _ _ _ _ _ _ _ BUILT). rewrite (sum_n_swap' KR).
    rewrite (sum_n_ext d _ (fun _ => 0)).
    - unfold sum_n. apply (sum_over_zero KR).
    - intros i Hi. rewrite (sum_n_mul_r' KR).
      rewrite (grads_sum KR _ _ _ _ _ _ _ _ _ _ _ BUILT LAG) by lia. ring.
  Qed.
  Lemma grad_affine (A : nat -> nat -> K) b sol c q k j : samples d (vec f) A b pts sol ->
    (c < List.length (cells f))%nat -> (k < vec f)%nat -> (j < d)%nat -> get_JxW pts f c q <> 0 ->
    sol_to_grad pts f sol c q k j = A k j.
  Proof.
    intros SAMP Hc Hk Hj HJ. unfold sol_to_grad.
    rewrite (weighted KR s d f MESH DIM pts PTS A b sol SAMP) by auto.
    rewrite phys_grads_sum by auto.
    rewrite (sum_n_single KR _ j) by (auto; intros m Hm Hne; rewrite coo_grads by auto;
      replace (m =? j)%nat with false by (symmetry; now apply Nat.eqb_neq); ring).
    rewrite coo_grads by auto. rewrite Nat.eqb_refl. ring.
  Qed.
  (** the same on faces *)
  Lemma face_coo_grads c fc q m j : (c < List.length (cells f))%nat -> (m < d)%nat -> (j < d)%nat -> det d (face_jacobian pts f c fc q) <> 0 ->
    sum_n (num_nodes f) (fun a => coo pts f c a m * get_face_shape_grads pts f c fc q a j) = if (m =? j)%nat then 1 else 0.
  Proof.
    intros Hc Hm Hj HJ. unfold get_face_shape_grads. rewrite (built_dim _ _ _ _ _ _ _ _ _ _ _ BUILT).
    rewrite <- (inv_mat_right KF d (face_jacobian pts f c fc q) m j) by
      (auto; eapply dim23; eauto).
    rewrite (sum_n_ext _ _ (fun a => sum_n d (fun i => coo pts f c a m * face_shape_grads_ref f fc q a i * inv_mat d (face_jacobian pts f c fc q) i j))).
    - rewrite (sum_n_swap' KR). apply sum_n_ext. intros i Hi. rewrite (sum_n_mul_r' KR). reflexivity.
    - intros a Ha. rewrite <- (sum_n_mul_l KR). apply sum_n_ext. intros; ring.
  Qed.
  Lemma face_phys_grads_sum c fc q j : (j < d)%nat ->
    sum_n (num_nodes f) (fun a => get_face_shape_grads pts f c fc q a j) = 0.
  Proof.
    intros Hj. unfold get_face_shape_grads. rewrite (built_dim _ _ _ _ _ _ _ _ _ _ _ BUILT). rewrite (sum_n_swap' KR).
    rewrite (sum_n_ext d _ (fun _ => 0)).
    - unfold sum_n. apply (sum_over_zero KR).
    - intros i Hi. rewrite (sum_n_mul_r' KR).
      rewrite (face_grads_sum KR _ _ _ _ _ _ _ _ _ _ _ BUILT LAG) by lia. ring.
  Qed.
  Lemma face_grad_affine (rt : K -> K) (A : nat -> nat -> K) b sol c fc q k j : samples d (vec f) A b pts sol ->
    (c < List.length (cells f))%nat -> (k < vec f)%nat -> (j < d)%nat -> nanson_scale rt pts f c fc q <> 0 ->
    sum_n (num_nodes f) (fun a => cell_sol_at f sol c a k * get_face_shape_grads pts f c fc q a j) = A k j.
  Proof.
    intros SAMP Hc Hk Hj HJ.
    assert (DET : det d (face_jacobian pts f c fc q) <> 0).
    { intros E. apply HJ. unfold nanson_scale. rewrite (built_dim _ _ _ _ _ _ _ _ _ _ _ BUILT). rewrite E. ring. }
    rewrite (weighted KR s d f MESH DIM pts PTS A b sol SAMP) by auto.
    rewrite face_phys_grads_sum by auto.
    rewrite (sum_n_single KR _ j) by (auto; intros m Hm Hne; rewrite face_coo_grads by auto;
      replace (m =? j)%nat with false by (symmetry; now apply Nat.eqb_neq); ring).
    rewrite face_coo_grads by auto. rewrite Nat.eqb_refl. ring.
  Qed.
End BuiltField.
