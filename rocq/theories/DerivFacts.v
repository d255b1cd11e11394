(** The assembled matrix is the derivative of the residual (over R): proof. *)
From Coq Require Import List Arith Lia Bool Reals Lra.
From Verif Require Import Num Arr ArrFacts Fe Problem BatchFacts SpecAssembly AssemblyFacts ProblemFacts ResidualFacts.
Import ListNotations.

Lemma dlim_ext (f g : R -> R) x l : (forall t, f t = g t) -> derivable_pt_lim f x l -> derivable_pt_lim g x l.
Proof.
  intros H D eps He. destruct (D eps He) as (d & Hd). exists d. intros h Hh Hh2.
  rewrite <- !H. now apply Hd.
Qed.

Lemma dlim_sum_over {A} (l : list A) (f : A -> R -> R) (f' : A -> R) x :
  (forall a, In a l -> derivable_pt_lim (f a) x (f' a)) ->
  derivable_pt_lim (fun t => sum_over (K := Rops) l (fun a => f a t)) x (sum_over (K := Rops) l f').
Proof.
  induction l as [|a l IH]; intros H.
  - apply (derivable_pt_lim_const 0%R x).
  - rewrite sum_over_cons.
    apply (dlim_ext (fun t => (f a t + sum_over (K := Rops) l (fun a => f a t))%R)); [reflexivity|].
    apply (derivable_pt_lim_plus (f a) (fun t => sum_over (K := Rops) l (fun a => f a t))).
    + apply H. now left.
    + apply IH. intros b Hb. apply H. now right.
Qed.

Lemma dlim_sum_n n (f : nat -> R -> R) (f' : nat -> R) x :
  (forall i, i < n -> derivable_pt_lim (f i) x (f' i)) ->
  derivable_pt_lim (fun t => sum_n (K := Rops) n (fun i => f i t)) x (sum_n (K := Rops) n f').
Proof.
  intros H. apply dlim_sum_over. intros i Hi. apply in_seq in Hi. apply H. lia.
Qed.

Lemma map2_cons {A B C} (f : A -> B -> C) a l b m : map2 f (a :: l) (b :: m) = f a b :: map2 f l m.
Proof. reflexivity. Qed.

Section Line.
  Context {K : ops} (KR : ring_laws K).
  Open Scope num_scope.
  Let Kth : ring_theory (@zero K) one add mul sub opp eq := KR.
  Add Ring Kring4 : Kth.

  Lemma nth_line1 (x d : list K) (t : K) i : length x = length d -> nth i (line1 x d t) 0 = nth i x 0 + t * nth i d 0.
  Proof.
    intros H. unfold line1. destruct (Nat.lt_ge_cases i (length x)) as [L|L].
    - apply (nth_map2 (fun a b => a + t * b)); lia.
    - rewrite !nth_overflow; try lia; [ring|]. rewrite length_map2. lia.
  Qed.

  Lemma get_line3 (sol dsol : list (list (list K))) (t : K) shapes v n j :
    has_shapes shapes sol -> has_shapes shapes dsol -> valid_dof shapes v n j ->
    get2 0 (nth v (line3 sol dsol t) []) n j = get2 0 (nth v sol []) n j + t * get2 0 (nth v dsol []) n j.
  Proof.
    intros H1 H2 (Hv & Hn & Hj). unfold get2, line3.
    pose proof (has_shapes_length _ _ H1). pose proof (has_shapes_length _ _ H2).
    destruct (has_shapes_nth _ _ v H1 Hv) as [A1 A2]. destruct (has_shapes_nth _ _ v H2 Hv) as [B1 B2].
    rewrite Forall_forall in A2, B2.
    rewrite (nth_map2 _ _ _ _ [] []) by lia.
    assert (length (nth n (nth v sol []) []) = snd (nth v shapes (0, 0)%nat)) by (apply A2, nth_In; lia).
    assert (length (nth n (nth v dsol []) []) = snd (nth v shapes (0, 0)%nat)) by (apply B2, nth_In; lia).
    rewrite (nth_map2 _ _ _ _ [] []) by lia.
    rewrite (nth_map2 _ _ _ _ 0 0) by lia. reflexivity.
  Qed.

  Lemma line3_shapes (sol dsol : list (list (list K))) (t : K) shapes :
    has_shapes shapes sol -> has_shapes shapes dsol -> has_shapes shapes (line3 sol dsol t).
  Proof.
    unfold has_shapes, line3. intros H. revert dsol. induction H as [|s x shapes sol [Hx1 Hx2] H IH]; intros dsol H2.
    - inversion H2; subst. constructor.
    - inversion H2 as [|? y ? dsol' [Hy1 Hy2] H2']; subst.
      rewrite map2_cons. constructor; [|now apply IH].
      split; [rewrite length_map2; lia|]. apply Forall_forall. intros row Hrow.
      apply (In_nth _ _ []) in Hrow as (k & Hk & <-). rewrite length_map2 in Hk.
      rewrite Forall_forall in Hx2, Hy2.
      rewrite (nth_map2 _ _ _ _ [] []) by lia. rewrite length_map2, Hx2, Hy2; [lia|..]; apply nth_In; lia.
  Qed.

  Context {V : Type}.
  Variable p : problem K V.
  Variable sol dsol : list (list (list K)).
  Hypothesis WF : wf_problem p.
  Hypothesis SOL : sol_ok p sol.
  Hypothesis DSOL : sol_ok p dsol.
  Notation LL := (all_dofs (local_shapes p)).

  Lemma sol_ok_iff s : has_shapes (global_shapes p) s -> sol_ok p s.
  Proof.
    intros H. split.
    - rewrite (has_shapes_length _ _ H). apply length_global_shapes.
    - intros v Hv. destruct (has_shapes_nth _ _ v H) as [A B]; [now rewrite length_global_shapes|].
      rewrite global_shapes_nth in A, B by auto. split; auto. now apply Forall_forall.
  Qed.

  Lemma line_ok t : sol_ok p (line3 sol dsol t).
  Proof. apply sol_ok_iff. apply line3_shapes; apply sol_shapes_ok; auto. Qed.

  Lemma cell_values_line c t : (c < p_num_cells p)%nat ->
    cell_values p (line3 sol dsol t) c = line1 (cell_values p sol c) (cell_values p dsol c) t.
  Proof.
    intros Hc.
    assert (L1 : length (cell_values p sol c) = LL) by (apply cell_values_length; auto).
    assert (L2 : length (cell_values p dsol c) = LL) by (apply cell_values_length; auto).
    assert (L3 : length (cell_values p (line3 sol dsol t) c) = LL) by (apply cell_values_length; auto using line_ok).
    apply (list_ext 0).
    - unfold line1. rewrite length_map2, L1, L2, L3. lia.
    - rewrite L3. intros k Hk. rewrite nth_line1 by congruence.
      destruct (dof_number_surj _ _ Hk) as (v & a & j & Hval & <-).
      rewrite !(cell_values_nth p WF _) by auto using line_ok.
      apply (get_line3 sol dsol t (global_shapes p)); try (apply sol_shapes_ok; auto).
      destruct Hval as (Hv & Ha & Hj). rewrite length_local_shapes in Hv. rewrite local_shapes_nth in * by auto.
      cbn [fst snd] in *. unfold valid_dof. rewrite length_global_shapes, global_shapes_nth by auto. cbn [fst snd].
      repeat split; auto. now apply node_bound.
  Qed.
End Line.

Section Apply.
  Context {K : ops} (KR : ring_laws K) {V : Type}.
  Open Scope num_scope.
  Let Kth : ring_theory (@zero K) one add mul sub opp eq := KR.
  Add Ring Kring5 : Kth.
  Variable jvp : (list K -> list K) -> list K -> list K -> list K.
  Variable sqrtK : K -> K.
  Variable p : problem K V.
  Variable pts : list (list (list K)).
  Variable sol dsol : list (list (list K)).
  Variable kf : nat -> face_in K V -> list K.
  Hypothesis WF : wf_problem p.
  Hypothesis NC : (0 < p_num_cells p)%nat.
  Hypothesis SOL : sol_ok p sol.
  Hypothesis DSOL : sol_ok p dsol.
  Hypothesis IVS : ivs_ok p.
  Hypothesis KER : kernels_ok p kf.
  Notation LL := (all_dofs (local_shapes p)).

  (** one element block times a direction *)
  Lemma elem_matvec (J : nat -> nat -> K) c g : (c < p_num_cells p)%nat ->
    sum_n (all_dofs (global_shapes p)) (fun h =>
        sum_n LL (fun k => sum_n LL (fun l =>
          when ((nth k (elem_dofs p c) 0 =? g) && (nth l (elem_dofs p c) 0 =? h))%nat (J k l)))
        * nth h (ravel dsol) 0)
    = sum_n LL (fun k => when (nth k (elem_dofs p c) 0 =? g)%nat
        (sum_n LL (fun l => J k l * nth l (cell_values p dsol c) 0))).
  Proof.
    intros Hc.
    rewrite (sum_n_ext _ _ (fun h => sum_n LL (fun k => sum_n LL (fun l =>
        when ((nth k (elem_dofs p c) 0 =? g) && (nth l (elem_dofs p c) 0 =? h))%nat (J k l * nth h (ravel dsol) 0))))).
    2:{ intros h Hh.
        etransitivity; [symmetry; apply (sum_n_mul_r KR)|]. apply sum_n_ext. intros k Hk.
        etransitivity; [symmetry; apply (sum_n_mul_r KR)|]. apply sum_n_ext. intros l Hl.
        destruct (_ && _); cbn [when]; [reflexivity|]. ring. }
    rewrite (sum_n_swap KR). apply sum_n_ext. intros k Hk.
    rewrite (sum_n_swap KR).
    destruct (nth k (elem_dofs p c) 0 =? g)%nat; cbn [andb when].
    + apply sum_n_ext. intros l Hl.
      rewrite (sum_n_single KR _ (nth l (elem_dofs p c) 0)%nat).
      * rewrite Nat.eqb_refl. cbn [when]. f_equal.
        symmetry. apply cell_values_flat; auto.
      * apply elem_dofs_bound; auto.
      * intros h Hh Hne. replace (_ =? h)%nat with false; auto. symmetry. apply Nat.eqb_neq. auto.
    + apply (sum_n_zero_ext KR). intros l Hl. apply (sum_n_zero_ext KR). reflexivity.
  Qed.

  (** the assembled matrix times a direction, element by element *)
  Lemma matrix_apply g r0 W :
    newton_update jvp sqrtK p pts sol = Ok (r0, W) ->
    sum_n (all_dofs (global_shapes p)) (fun h => coo_entry (p_I p) (p_J p) W g h * nth h (ravel dsol) 0) =
    sum_n (p_num_cells p) (fun c => sum_n LL (fun k => when (nth k (elem_dofs p c) 0 =? g)%nat
        (sum_n LL (fun l => nth k (jvp (cell_fun p pts sol c) (cell_values p sol c) (unit_vec LL l)) 0
                            * nth l (cell_values p dsol c) 0)))) +
    sum_n (length (boundary_inds_list p)) (fun s => sum_n (num_sel_faces p s) (fun e =>
      sum_n LL (fun k => when (nth k (elem_dofs p (face_cell p s e)) 0 =? g)%nat
        (sum_n LL (fun l => nth k (jvp (face_fun sqrtK p pts sol kf s e) (cell_values p sol (face_cell p s e)) (unit_vec LL l)) 0
                            * nth l (cell_values p dsol (face_cell p s e)) 0))))).
  Proof.
    intros HW.
    rewrite (newton_update_ok jvp sqrtK p pts sol kf) in HW; auto. injection HW as HW1 HW2. subst W. clear HW1.
    etransitivity; [apply sum_n_ext; intros h Hh;
      rewrite (matrix_entry KR jvp sqrtK p pts sol kf) by auto; reflexivity|].
    match goal with |- sum_n _ (fun h => (@?A h + @?B h) * _) = _ =>
      rewrite (sum_n_ext _ _ (fun h => A h * nth h (ravel dsol) 0 + B h * nth h (ravel dsol) 0))
        by (intros; ring) end.
    rewrite (sum_n_plus KR). f_equal.
    - rewrite (sum_n_ext (all_dofs (global_shapes p)) _ (fun h => sum_n (p_num_cells p) (fun c =>
        sum_n LL (fun k => sum_n LL (fun l =>
          when ((nth k (elem_dofs p c) 0 =? g) && (nth l (elem_dofs p c) 0 =? h))%nat
           (nth k (jvp (cell_fun p pts sol c) (cell_values p sol c) (unit_vec LL l)) 0))) * nth h (ravel dsol) 0)))
        by (intros; symmetry; apply (sum_n_mul_r KR)).
      rewrite (sum_n_swap KR). apply sum_n_ext. intros c Hc.
      apply (elem_matvec (fun k l => nth k (jvp (cell_fun p pts sol c) (cell_values p sol c) (unit_vec LL l)) 0)). auto.
    - rewrite (sum_n_ext (all_dofs (global_shapes p)) _ (fun h =>
        sum_n (length (boundary_inds_list p)) (fun s => sum_n (num_sel_faces p s) (fun e =>
        sum_n LL (fun k => sum_n LL (fun l =>
          when ((nth k (elem_dofs p (face_cell p s e)) 0 =? g) && (nth l (elem_dofs p (face_cell p s e)) 0 =? h))%nat
           (nth k (jvp (face_fun sqrtK p pts sol kf s e) (cell_values p sol (face_cell p s e)) (unit_vec LL l)) 0)))
           * nth h (ravel dsol) 0)))).
      2:{ intros h Hh. etransitivity; [symmetry; apply (sum_n_mul_r KR)|]. apply sum_n_ext. intros s Hs.
          symmetry. apply (sum_n_mul_r KR). }
      rewrite (sum_n_swap KR). apply sum_n_ext. intros s Hs.
      rewrite (sum_n_swap KR). apply sum_n_ext. intros e He.
      apply (elem_matvec (fun k l => nth k (jvp (face_fun sqrtK p pts sol kf s e) (cell_values p sol (face_cell p s e)) (unit_vec LL l)) 0)).
      apply face_cell_lt; auto.
  Qed.

  (** the residual at another solution, through the element functions at [sol] *)
  Lemma residual_at sol' r g : sol_ok p sol' -> (g < all_dofs (global_shapes p))%nat ->
    compute_residual sqrtK p pts sol' = Ok r ->
    nth g (ravel r) 0 =
    sum_n (p_num_cells p) (fun c => sum_n LL (fun k =>
        when (nth k (elem_dofs p c) 0 =? g)%nat (nth k (cell_fun p pts sol c (cell_values p sol' c)) 0))) +
    sum_n (length (boundary_inds_list p)) (fun s => sum_n (num_sel_faces p s) (fun e => sum_n LL (fun k =>
        when (nth k (elem_dofs p (face_cell p s e)) 0 =? g)%nat
          (nth k (face_fun sqrtK p pts sol kf s e (cell_values p sol' (face_cell p s e))) 0)))).
  Proof.
    intros Hs Hg Hr. rewrite (compute_residual_ok sqrtK p pts _ kf) in Hr; auto. injection Hr as <-.
    etransitivity; [apply (residual_flat KR sqrtK p pts _ kf); auto|]. reflexivity.
  Qed.

  Hypothesis AC : forall c, (c < p_num_cells p)%nat -> jvp_affine jvp (cell_fun p pts sol c) (cell_values p sol c).
  Hypothesis AF : forall s i, (s < length (boundary_inds_list p))%nat -> (i < num_sel_faces p s)%nat ->
    jvp_affine jvp (face_fun sqrtK p pts sol kf s i) (cell_values p sol (face_cell p s i)).

  Lemma residual_affine g r r1 r0 W : (g < all_dofs (global_shapes p))%nat ->
    compute_residual sqrtK p pts sol = Ok r ->
    compute_residual sqrtK p pts (line3 sol dsol 1) = Ok r1 ->
    newton_update jvp sqrtK p pts sol = Ok (r0, W) ->
    nth g (ravel r1) 0 - nth g (ravel r) 0 =
    sum_n (all_dofs (global_shapes p)) (fun h => coo_entry (p_I p) (p_J p) W g h * nth h (ravel dsol) 0).
  Proof.
    intros Hg Hr Hr1 HW.
    assert (L1 : forall c, (c < p_num_cells p)%nat -> length (cell_values p sol c) = LL)
      by (intros; apply cell_values_length; auto).
    assert (L2 : forall c, (c < p_num_cells p)%nat -> length (cell_values p dsol c) = LL)
      by (intros; apply cell_values_length; auto).
    rewrite (matrix_apply g r0 W HW).
    rewrite (residual_at sol r g) by auto.
    rewrite (residual_at (line3 sol dsol 1) r1 g) by auto using line_ok.
    assert (E : forall (A B A' B' X Y : K), A = A' + X -> B = B' + Y -> A + B - (A' + B') = X + Y)
      by (intros ? ? ? ? ? ? -> ->; ring).
    apply E; clear E.
    - rewrite <- (sum_n_plus KR). apply sum_n_ext. intros c Hc.
      rewrite <- (sum_n_plus KR). apply sum_n_ext. intros k Hk.
      destruct (_ =? g)%nat; cbn [when]; [|ring].
      rewrite (cell_values_line KR) by auto. rewrite (AC c Hc) by (rewrite L1, L2; auto). now rewrite L1.
    - rewrite <- (sum_n_plus KR). apply sum_n_ext. intros s Hs.
      rewrite <- (sum_n_plus KR). apply sum_n_ext. intros e He.
      assert (Hc : (face_cell p s e < p_num_cells p)%nat) by (apply face_cell_lt; auto).
      rewrite <- (sum_n_plus KR). apply sum_n_ext. intros k Hk.
      destruct (_ =? g)%nat; cbn [when]; [|ring].
      rewrite (cell_values_line KR) by auto. rewrite (AF s e Hs He) by (rewrite L1, L2; auto). now rewrite L1.
  Qed.
End Apply.

Section Deriv.
  Context {V : Type}.
  Notation K := Rops.
  Let KR := Rops_ring.

  Variable jvp : (list K -> list K) -> list K -> list K -> list K.
  Variable sqrtK : R -> R.
  Variable p : problem K V.
  Variable pts : list (list (list K)).
  Variable sol dsol : list (list (list K)).
  Variable kf : nat -> face_in K V -> list K.
  Hypothesis WF : wf_problem p.
  Hypothesis NC : 0 < p_num_cells p.
  Hypothesis SOL : sol_ok p sol.
  Hypothesis DSOL : sol_ok p dsol.
  Hypothesis IVS : ivs_ok p.
  Hypothesis KER : kernels_ok p kf.
  Notation LL := (all_dofs (local_shapes p)).

  Hypothesis JC : forall c, c < p_num_cells p -> jvp_correct jvp (cell_fun p pts sol c) (cell_values p sol c).
  Hypothesis JF : forall s i, s < length (boundary_inds_list p) -> i < num_sel_faces p s ->
    jvp_correct jvp (face_fun sqrtK p pts sol kf s i) (cell_values p sol (face_cell p s i)).

  Lemma dlim_when b (f : R -> R) f' x : derivable_pt_lim f x f' ->
    derivable_pt_lim (fun t => when b (f t)) x (when b f').
  Proof. intros H. destruct b; cbn [when]; auto. apply (derivable_pt_lim_const (@zero K) x). Qed.

  (** derivative of one element's contribution to global dof g *)
  Lemma elem_deriv (f : list K -> list K) c g : c < p_num_cells p ->
    jvp_correct jvp f (cell_values p sol c) ->
    derivable_pt_lim (fun t => sum_n (K := K) LL (fun k => when (nth k (elem_dofs p c) 0 =? g)%nat
        (nth k (f (cell_values p (line3 sol dsol t) c)) (@zero K)))) 0
      (sum_n (K := K) LL (fun k => when (nth k (elem_dofs p c) 0 =? g)%nat
        (sum_n (K := K) LL (fun l => (nth k (jvp f (cell_values p sol c) (unit_vec LL l)) 0 * nth l (cell_values p dsol c) 0)%num)))).
  Proof.
    intros Hc HJ.
    assert (L1 : length (cell_values p sol c) = LL) by (apply cell_values_length; auto).
    assert (L2 : length (cell_values p dsol c) = LL) by (apply cell_values_length; auto).
    apply (dlim_ext (fun t => sum_n (K := K) LL (fun k => when (nth k (elem_dofs p c) 0 =? g)%nat
        (nth k (f (line1 (cell_values p sol c) (cell_values p dsol c) t)) (@zero K))))).
    { intros t. apply sum_n_ext. intros k Hk. now rewrite cell_values_line. }
    apply dlim_sum_n. intros k Hk. apply dlim_when.
    rewrite <- L1. apply HJ. congruence.
  Qed.

  Lemma residual_derivative g (res : R -> list (list (list K))) r0 W :
    g < all_dofs (global_shapes p) ->
    (forall t, compute_residual sqrtK p pts (line3 sol dsol t) = Ok (res t)) ->
    newton_update jvp sqrtK p pts sol = Ok (r0, W) ->
    derivable_pt_lim (fun t => nth g (ravel (res t)) (@zero K)) 0
      (sum_n (all_dofs (global_shapes p)) (fun h =>
         (coo_entry (p_I p) (p_J p) W g h * nth h (ravel dsol) 0)%num)).
  Proof.
    intros Hg Hres HW.
    pose proof (matrix_apply KR jvp sqrtK p pts sol dsol kf WF NC SOL DSOL IVS KER g r0 W HW) as E.
    cbn [car Rops] in E |- *. rewrite E. clear E.
    apply (dlim_ext (fun t =>
      (sum_n (p_num_cells p) (fun c => sum_n (K := K) LL (fun k =>
        when (nth k (elem_dofs p c) 0 =? g)%nat (nth k (cell_fun p pts sol c (cell_values p (line3 sol dsol t) c)) (@zero K)))) +
      sum_n (length (boundary_inds_list p)) (fun s => sum_n (num_sel_faces p s) (fun e => sum_n (K := K) LL (fun k =>
        when (nth k (elem_dofs p (face_cell p s e)) 0 =? g)%nat
          (nth k (face_fun sqrtK p pts sol kf s e (cell_values p (line3 sol dsol t) (face_cell p s e))) (@zero K))))))%num)).
    { intros t. symmetry. apply (residual_at KR sqrtK p pts sol kf); auto using line_ok. }
    apply derivable_pt_lim_plus.
    + apply dlim_sum_n. intros c Hc. apply elem_deriv; auto.
    + apply dlim_sum_n. intros s Hs. apply dlim_sum_n. intros e He. apply elem_deriv; auto.
      apply face_cell_lt; auto.
  Qed.
End Deriv.
