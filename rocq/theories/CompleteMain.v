(** Lemmas for C105: quadratic fields on the cells of a mesh. *)
From Coq Require Import String List Arith Lia ZArith Ring.
From Verif Require Import Num Arr Fe Basis SpecBasis SpecFe BasisFacts ArrFacts FeFacts GeomFacts SpecSecond SpecErrorNorm Complete.
Import ListNotations.

Section Phys.
  Context {K : ops} (KF : field_laws K).
  Open Scope num_scope.
  Let KR := field_ring K KF.
  Let Kth : ring_theory (@zero K) one add mul sub opp eq := KR.
  Add Ring KringCM : Kth.
  Variables (sqrtK : K -> K) (s : string) (quad fquad : list (list K) * list K) (normals : nat -> nat -> K)
    (pts0 : list (list K)) (cls : list (list nat)) (v d : nat)
    (dir : option (list (location_fn K) * list nat * list (list K -> K))) (f : fe K).
  Hypothesis BUILT : fe_init sqrtK s quad fquad normals pts0 cls v d dir = Ok f.
  Hypothesis QUA : In s quadratic_names.
  Hypothesis MESH : mesh_ok f.
  Hypothesis DIM : d = element_dim s.
  Variable pts : list (list K).
  Hypothesis PTS : List.length pts = List.length (points f).

  Lemma quadratic_nine : In s nine_names.
  Proof. clear - QUA. cbn in *. tauto. Qed.
  Let LAG := quadratic_nine.
  (** the reference point of quadrature point q *)
  Let xi q := nth q (fst quad) [].
  Lemma vals_lin half q k : half + half = 1 -> (k < d)%nat ->
    sum_n (num_nodes f) (fun a => ref_coord half s a k * shape_vals f q a) = pt (xi q) k.
  Proof.
    intros Hh Hk. destruct (built_inv _ _ _ _ _ _ _ _ _ _ _ BUILT) as (i & fi & [[ns vs] ws] & HI & HFI & HD & Hf).
    rewrite (built_nodes _ _ _ _ _ _ _ _ _ _ _ BUILT), Hf. cbn [make_fe shape_vals]. apply (shape_linear KR); auto.
    rewrite <- (element_dim_ok s) by auto. lia.
  Qed.
  Lemma vals_quad half q k l : half + half = 1 -> (k < d)%nat -> (l < d)%nat ->
    sum_n (num_nodes f) (fun a => ref_coord half s a k * ref_coord half s a l * shape_vals f q a) = pt (xi q) k * pt (xi q) l.
  Proof.
    intros Hh Hk Hl. destruct (built_inv _ _ _ _ _ _ _ _ _ _ _ BUILT) as (i & fi & [[ns vs] ws] & HI & HFI & HD & Hf).
    rewrite (built_nodes _ _ _ _ _ _ _ _ _ _ _ BUILT), Hf. cbn [make_fe shape_vals]. apply (shape_quadratic KR); auto;
    rewrite <- (element_dim_ok s) by auto; lia.
  Qed.
  Lemma grads_quad half q k l j : half + half = 1 -> (k < d)%nat -> (l < d)%nat -> (j < d)%nat ->
    sum_n (num_nodes f) (fun a => ref_coord half s a k * ref_coord half s a l * shape_grads_ref f q a j) = (if (k =? j)%nat then pt (xi q) l else 0) + (if (l =? j)%nat then pt (xi q) k else 0).
  Proof.
    intros Hh Hk Hl Hj. destruct (built_inv _ _ _ _ _ _ _ _ _ _ _ BUILT) as (i & fi & [[ns vs] ws] & HI & HFI & HD & Hf).
    rewrite (built_nodes _ _ _ _ _ _ _ _ _ _ _ BUILT), Hf. cbn [make_fe shape_grads_ref]. apply (grad_quadratic KR); auto;
    rewrite <- (element_dim_ok s) by auto; lia.
  Qed.

  Section Cell.
    Variables (half : K) (M : nat -> nat -> K) (b : nat -> K) (c : nat).
    Hypothesis HALF : half + half = 1.
    Hypothesis CELL : (c < List.length (cells f))%nat.
    Hypothesis AFF : affine_cell half s pts f d c M b.
    Let Y q i := affine d M b (pt (xi q)) i.
    Lemma aff_coo a i : (a < num_nodes f)%nat -> (i < d)%nat -> coo pts f c a i = affine d M b (fun k => ref_coord half s a k) i.
    Proof. intros. eapply coo_aff; eauto. Qed.
    Lemma quad_point q i : (i < d)%nat -> get_physical_quad_points pts f c q i = Y q i.
    Proof.
      intros Hi. unfold get_physical_quad_points.
      rewrite (sum_n_ext _ _ (fun a => affine d M b (fun k => ref_coord half s a k) i * shape_vals f q a)) by (intros a Ha; rewrite aff_coo by auto; ring).
      rewrite (affine_sum KR _ _ _ _ (fun a k => ref_coord half s a k)). rewrite (vals_sum KR _ _ _ _ _ _ _ _ _ _ _ BUILT LAG).
      unfold Y, affine. rewrite (sum_n_ext d _ (fun m => M i m * pt (xi q) m)) by (intros m Hm; now rewrite vals_lin). ring.
    Qed.
    (** a product of two affine functions against any weights *)
    Lemma two_affine (g : nat -> K) i j : (i < d)%nat -> (j < d)%nat ->
      sum_n (num_nodes f) (fun a => coo pts f c a i * coo pts f c a j * g a) =
      sum_n d (fun k => M i k * sum_n d (fun l => M j l * sum_n (num_nodes f) (fun a => ref_coord half s a k * ref_coord half s a l * g a)))
      + b j * sum_n d (fun k => M i k * sum_n (num_nodes f) (fun a => ref_coord half s a k * g a))
      + b i * (sum_n d (fun l => M j l * sum_n (num_nodes f) (fun a => ref_coord half s a l * g a)) + b j * sum_n (num_nodes f) g).
    Proof.
      intros Hi Hj.
      rewrite (sum_n_ext _ _ (fun a => affine d M b (fun k => ref_coord half s a k) i * (affine d M b (fun k => ref_coord half s a k) j * g a))) by (intros a Ha; rewrite !aff_coo by auto; ring).
      rewrite (affine_sum KR _ _ _ _ (fun a k => ref_coord half s a k)).
      rewrite (affine_sum KR _ _ _ _ (fun a k => ref_coord half s a k)).
      f_equal. rewrite <- (sum_n_mul_l KR), <- (sum_n_add KR). apply sum_n_ext. intros k Hk.
      rewrite (sum_n_ext _ _ (fun a => affine d M b (fun k => ref_coord half s a k) j * (ref_coord half s a k * g a))) by (intros; ring).
      rewrite (affine_sum KR _ _ _ _ (fun a k => ref_coord half s a k)).
      rewrite (sum_n_ext d (fun m => M j m * sum_n (num_nodes f) (fun a => ref_coord half s a m * (ref_coord half s a k * g a))) (fun l => M j l * sum_n (num_nodes f) (fun a => ref_coord half s a k * ref_coord half s a l * g a))).
      - ring.
      - intros l Hl. f_equal. apply sum_n_ext. intros; ring.
    Qed.
    Lemma coo2_vals q i j : (i < d)%nat -> (j < d)%nat -> sum_n (num_nodes f) (fun a => coo pts f c a i * coo pts f c a j * shape_vals f q a) = Y q i * Y q j.
    Proof.
      intros Hi Hj. rewrite two_affine by auto. rewrite (vals_sum KR _ _ _ _ _ _ _ _ _ _ _ BUILT LAG).
      rewrite (sum_n_ext d (fun l => M j l * sum_n (num_nodes f) (fun a => ref_coord half s a l * shape_vals f q a)) (fun l => M j l * pt (xi q) l)) by (intros; now rewrite vals_lin).
      rewrite (sum_n_ext d (fun l => M i l * sum_n (num_nodes f) (fun a => ref_coord half s a l * shape_vals f q a)) (fun l => M i l * pt (xi q) l)) by (intros; now rewrite vals_lin).
      rewrite (sum_n_ext d (fun k => M i k * sum_n d _) (fun k => M i k * pt (xi q) k * sum_n d (fun l => M j l * pt (xi q) l))).
      - rewrite (sum_n_mul_r' KR). unfold Y, affine. ring.
      - intros k Hk. rewrite <- (sum_n_mul_l KR (K := K) d (M i k * pt (xi q) k)). rewrite <- (sum_n_mul_l KR). apply sum_n_ext. intros l Hl. rewrite vals_quad by auto. ring.
    Qed.
    Lemma delta_sum (g h : nat -> K) p : (p < d)%nat -> sum_n d (fun k => g k * (if (k =? p)%nat then h k else 0)) = g p * h p.
    Proof.
      intros Hp. rewrite (sum_n_single KR d p) by (auto; intros k Hk Hne; replace (k =? p)%nat with false by (symmetry; now apply Nat.eqb_neq); ring).
      now rewrite Nat.eqb_refl.
    Qed.
    Lemma coo2_ref q i j p : (i < d)%nat -> (j < d)%nat -> (p < d)%nat ->
      sum_n (num_nodes f) (fun a => coo pts f c a i * coo pts f c a j * shape_grads_ref f q a p) = M i p * Y q j + M j p * Y q i.
    Proof.
      intros Hi Hj Hp. rewrite two_affine by auto. rewrite (grads_sum KR _ _ _ _ _ _ _ _ _ _ _ BUILT LAG) by lia.
      assert (L : forall r, sum_n d (fun l => M r l * sum_n (num_nodes f) (fun a => ref_coord half s a l * shape_grads_ref f q a p)) = M r p).
      { intros r. rewrite (sum_n_ext d _ (fun l => M r l * (if (l =? p)%nat then 1 else 0))) by (intros l Hl; rewrite (grads_linear KR _ _ _ _ _ _ _ _ _ _ _ BUILT LAG) by (assumption || lia); reflexivity).
        rewrite (delta_sum (M r) (fun _ => 1)) by auto. ring. }
      rewrite !L.
      rewrite (sum_n_ext d _ (fun k => M i k * (if (k =? p)%nat then sum_n d (fun l => M j l * pt (xi q) l) else 0) + M i k * pt (xi q) k * M j p)).
      - rewrite (sum_n_add KR), (delta_sum (M i) (fun _ => sum_n d (fun l => M j l * pt (xi q) l))) by auto. rewrite (sum_n_mul_r' KR). unfold Y, affine. ring.
      - intros k Hk.
        rewrite (sum_n_ext d _ (fun l => (if (k =? p)%nat then 1 else 0) * (M j l * pt (xi q) l) + pt (xi q) k * (M j l * (if (l =? p)%nat then 1 else 0)))).
        + rewrite (sum_n_add KR), !(sum_n_mul_l KR), (delta_sum (M j) (fun _ => 1)) by auto. destruct (k =? p)%nat; ring.
        + intros l Hl. rewrite grads_quad by auto. destruct (k =? p)%nat, (l =? p)%nat; ring.
    Qed.
    Lemma coo2_grads q i j m : (i < d)%nat -> (j < d)%nat -> (m < d)%nat -> get_JxW pts f c q <> 0 ->
      sum_n (num_nodes f) (fun a => coo pts f c a i * coo pts f c a j * get_shape_grads pts f c q a m) = (if (i =? m)%nat then Y q j else 0) + (if (j =? m)%nat then Y q i else 0).
    Proof.
      intros Hi Hj Hm HJ. apply (JxW_det KF _ _ _ _ _ _ _ _ _ _ _ BUILT) in HJ. unfold get_shape_grads. rewrite (built_dim _ _ _ _ _ _ _ _ _ _ _ BUILT).
      set (J := jacobian_dx_deta pts f c q) in *.
      assert (D23 : d = 2%nat \/ d = 3%nat) by (eapply dim23; eauto).
      assert (MJ : forall r p, (r < d)%nat -> (p < d)%nat -> M r p = J r p).
      { intros. unfold J. symmetry. eapply (jac_aff KR); eauto. }
      assert (I : forall r, (r < d)%nat -> sum_n d (fun p => M r p * inv_mat d J p m) = if (r =? m)%nat then 1 else 0).
      { intros r Hr. rewrite (sum_n_ext d _ (fun p => J r p * inv_mat d J p m)) by (intros; now rewrite MJ). apply (inv_mat_right KF); auto. }
      rewrite (sum_n_ext _ _ (fun a => sum_n d (fun p => coo pts f c a i * coo pts f c a j * shape_grads_ref f q a p * inv_mat d J p m))).
      - rewrite (sum_n_swap' KR). rewrite (sum_n_ext d _ (fun p => Y q j * (M i p * inv_mat d J p m) + Y q i * (M j p * inv_mat d J p m))).
        + rewrite (sum_n_add KR), !(sum_n_mul_l KR), !I by auto. destruct (i =? m)%nat, (j =? m)%nat; ring.
        + intros p Hp. rewrite (sum_n_mul_r' KR), coo2_ref by auto. ring.
      - intros a Ha. rewrite <- (sum_n_mul_l KR). apply sum_n_ext. intros; ring.
    Qed.

    (** a quadratic field *)
    Variables (cst : nat -> K) (B : nat -> nat -> K) (A : nat -> nat -> nat -> K) (sol : list (list K)).
    Hypothesis SAMP : samples_quadratic d (vec f) cst B A pts sol.
    Lemma sol_quadratic a k : (a < num_nodes f)%nat -> (k < vec f)%nat -> cell_sol_at f sol c a k = quadratic_field d (cst k) (B k) (A k) (fun i => coo pts f c a i).
    Proof.
      intros Ha Hk. destruct SAMP as [LS S]. assert (Hn : (cell_node f c a < List.length pts)%nat) by (eapply node_in; eauto).
      unfold cell_sol_at. rewrite gather_in by lia. rewrite S by auto. unfold quadratic_field, coo. now rewrite gather_in by auto.
    Qed.
    Lemma weighted2 (g : nat -> K) k : (k < vec f)%nat -> sum_n (num_nodes f) (fun a => cell_sol_at f sol c a k * g a) =
      cst k * sum_n (num_nodes f) g + sum_n d (fun i => B k i * sum_n (num_nodes f) (fun a => coo pts f c a i * g a))
      + sum_n d (fun i => sum_n d (fun j => A k i j * sum_n (num_nodes f) (fun a => coo pts f c a i * coo pts f c a j * g a))).
    Proof.
      intros Hk.
      rewrite (sum_n_ext _ _ (fun a => cst k * g a + sum_n d (fun i => B k i * (coo pts f c a i * g a)) + sum_n d (fun i => sum_n d (fun j => A k i j * (coo pts f c a i * coo pts f c a j * g a))))).
      - rewrite !(sum_n_add KR), (sum_n_mul_l KR). f_equal; [f_equal|].
        + rewrite (sum_n_swap' KR). apply sum_n_ext. intros. apply (sum_n_mul_l KR).
        + rewrite (sum_n_swap' KR). apply sum_n_ext. intros i Hi. rewrite (sum_n_swap' KR). apply sum_n_ext. intros j Hj. apply (sum_n_mul_l KR).
      - intros a Ha. rewrite sol_quadratic by auto. unfold quadratic_field.
        rewrite (sum_n_ext d (fun i => B k i * (coo pts f c a i * g a)) (fun i => (B k i * coo pts f c a i) * g a)) by (intros; ring). rewrite (sum_n_mul_r' KR).
        rewrite (sum_n_ext d (fun i => sum_n d (fun j => A k i j * (coo pts f c a i * coo pts f c a j * g a))) (fun i => sum_n d (fun j => A k i j * (coo pts f c a i * coo pts f c a j)) * g a)).
        + rewrite (sum_n_mul_r' KR). ring.
        + intros i Hi. rewrite <- (sum_n_mul_r' KR). apply sum_n_ext. intros; ring.
    Qed.
    Lemma quad_quadratic q k : (k < vec f)%nat ->
      convert_from_dof_to_quad f sol c q k = quadratic_field d (cst k) (B k) (A k) (fun i => get_physical_quad_points pts f c q i).
    Proof.
      intros Hk. unfold convert_from_dof_to_quad. rewrite weighted2 by auto. rewrite (vals_sum KR _ _ _ _ _ _ _ _ _ _ _ BUILT LAG). unfold quadratic_field.
      f_equal; [f_equal; [ring|]|].
      - apply sum_n_ext. intros i Hi. f_equal. unfold get_physical_quad_points. apply sum_n_ext. intros; ring.
      - apply sum_n_ext. intros i Hi. apply sum_n_ext. intros j Hj. rewrite coo2_vals by auto. now rewrite !quad_point.
    Qed.
    Lemma grad_quadratic_field q k m : (k < vec f)%nat -> (m < d)%nat -> get_JxW pts f c q <> 0 ->
      sol_to_grad pts f sol c q k m = quadratic_gradient d (B k) (A k) (fun i => get_physical_quad_points pts f c q i) m.
    Proof.
      intros Hk Hm HJ. unfold sol_to_grad. rewrite weighted2 by auto.
      rewrite (phys_grads_sum KF _ _ _ _ _ _ _ _ _ _ _ BUILT LAG DIM) by auto. unfold quadratic_gradient.
      rewrite (sum_n_ext d (fun i => B k i * sum_n (num_nodes f) _) (fun i => B k i * (if (i =? m)%nat then 1 else 0))) by
        (intros i Hi; f_equal; eapply (coo_grads KF); eauto).
      rewrite (delta_sum (B k) (fun _ => 1)) by auto.
      rewrite (sum_n_ext d (fun i => sum_n d _) (fun i => (if (i =? m)%nat then sum_n d (fun j => A k i j * Y q j) else 0) + A k i m * Y q i)).
      - rewrite (sum_n_add KR).
        rewrite (sum_n_ext d (fun i => if (i =? m)%nat then sum_n d (fun j => A k i j * Y q j) else 0) (fun i => 1 * (if (i =? m)%nat then sum_n d (fun j => A k i j * Y q j) else 0))) by (intros; ring).
        rewrite (delta_sum (fun _ => 1) (fun i => sum_n d (fun j => A k i j * Y q j))) by auto.
        rewrite (sum_n_ext d (fun l => (A k m l + A k l m) * get_physical_quad_points pts f c q l) (fun l => A k m l * Y q l + A k l m * Y q l)) by (intros l Hl; rewrite quad_point by auto; ring).
        rewrite (sum_n_add KR). ring.
      - intros i Hi. rewrite (sum_n_ext d _ (fun j => (if (i =? m)%nat then 1 else 0) * (A k i j * Y q j) + A k i j * (if (j =? m)%nat then Y q i else 0))).
        + rewrite (sum_n_add KR), (sum_n_mul_l KR), (delta_sum (A k i) (fun _ => Y q i)) by auto. destruct (i =? m)%nat; ring.
        + intros j Hj. rewrite coo2_grads by auto. destruct (i =? m)%nat, (j =? m)%nat; ring.
    Qed.
  End Cell.
End Phys.
