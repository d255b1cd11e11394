(** compute_residual / newton_update: proofs. *)
From Coq Require Import List Arith Lia Bool.
From Verif Require Import Num Arr ArrFacts Fe Problem BatchFacts SpecAssembly AssemblyFacts ProblemFacts.
Import ListNotations.

Lemma combine_seq {A B} (d : A) (l : list A) (g : nat -> B) :
  combine l (map g (seq 0 (length l))) = map (fun i => (nth i l d, g i)) (seq 0 (length l)).
Proof.
  destruct l as [|x0 l0] eqn:E; [reflexivity|]. rewrite <- E.
  assert (0 < length l) as Hp by (rewrite E; cbn; lia). clear E.
  rewrite (combine_nth_map d (g 0)) by (now rewrite map_length, seq_length).
  apply map_ext_in. intros i Hi. apply in_seq in Hi. f_equal.
  rewrite (nth_map_in _ _ _ 0) by (rewrite seq_length; lia). now rewrite seq_nth by lia.
Qed.

Section Residual.
  Context {K : ops} (KR : ring_laws K) {V : Type}.
  Open Scope num_scope.
  Let Kth : ring_theory (@zero K) one add mul sub opp eq := KR.
  Add Ring Kring3 : Kth.
  Variable jvp : (list K -> list K) -> list K -> list K -> list K.
  Variable sqrtK : K -> K.
  Variable p : problem K V.
  Variable pts : list (list (list K)).
  Variable sol : list (list (list K)).
  Variable kf : nat -> face_in K V -> list K.
  Hypothesis WF : wf_problem p.
  Hypothesis NC : (0 < p_num_cells p)%nat.
  Hypothesis SOL : sol_ok p sol.
  Hypothesis IVS : ivs_ok p.
  Hypothesis KER : kernels_ok p kf.

  Notation nc := (p_num_cells p).
  Notation ns := (length (boundary_inds_list p)).

  Lemma fes_nonempty : fes p <> [].
  Proof. intros E. unfold p_num_cells, num_cells, fe0 in NC. rewrite E in NC. cbn in NC. lia. Qed.

  Lemma cell_at_input c : (c < nc)%nat ->
    cell_at (input_collection p pts (cells_sol_flat p sol) (internal_vars p)) c = cell_input p pts sol c.
  Proof.
    intros Hc. unfold cell_at, input_collection, cell_input. cbn [cc_sol cc_x cc_grads cc_JxW cc_vgJxW cc_iv].
    rewrite cells_sol_flat_eq by auto.
    rewrite !(nth_map_in _ _ _ 0%nat) by (rewrite seq_length; lia). now rewrite seq_nth by lia.
  Qed.

  Lemma vmap_cells {O} (k : cell_in K V -> O) :
    split_and_compute nc k (input_collection p pts (cells_sol_flat p sol) (internal_vars p))
    = Ok (map (fun c => k (cell_input p pts sol c)) (seq 0 nc)).
  Proof.
    assert (Hl : length (cells_sol_flat p sol) = nc).
    { rewrite cells_sol_flat_eq by auto. now rewrite map_length, seq_length. }
    rewrite split_and_compute_vmap; auto.
    unfold vmap_cols. cbn [input_collection cc_sol]. rewrite Hl.
    replace (forallb _ _) with true.
    - f_equal. apply map_ext_in. intros c Hc. apply in_seq in Hc. f_equal. apply cell_at_input. lia.
    - symmetry. apply sizes_ok. cbn [input_collection cc_x cc_grads cc_JxW cc_vgJxW cc_iv].
      rewrite !map_length, !seq_length. repeat split; auto. apply Forall_forall. apply IVS.
  Qed.

  Lemma face_ok {O} (jac : (face_in K V -> list K) -> face_in K V -> O) s : (s < ns)%nat ->
    face_step jac sqrtK p pts (cells_sol_flat p sol) (internal_vars_surfaces p) s
    = Ok (map (fun i => jac (kf s) (face_input sqrtK p pts sol s i)) (seq 0 (num_sel_faces p s))).
  Proof.
    intros Hs. unfold face_step. destruct IVS as (_ & Hl & Hiv).
    destruct (nth_error (internal_vars_surfaces p) s) as [ivs|] eqn:E.
    2:{ apply nth_error_None in E. lia. }
    assert (nth s (internal_vars_surfaces p) [] = ivs) as Eivs by (now apply nth_error_nth).
    destruct KER as [_ Hk]. destruct (Hk s Hs) as [Hkf _]. rewrite Hkf. cbn [bind].
    unfold face_inputs. replace (forallb _ ivs) with true.
    - cbn [bind]. f_equal. rewrite map_map. unfold num_sel_faces. apply map_ext_in. intros i Hi.
      apply in_seq in Hi. f_equal. unfold face_input. rewrite Eivs. cbv zeta. f_equal.
      rewrite cells_sol_flat_eq by auto.
      set (cf := nth i (nth s (boundary_inds_list p) []) (0, 0)%nat).
      assert (Hcf : (fst cf < nc)%nat).
      { apply (wf_boundary p WF (nth s (boundary_inds_list p) []) _ (snd cf)).
        - now apply nth_In.
        - rewrite <- surjective_pairing. apply nth_In. lia. }
      rewrite gather_in by (rewrite map_length, seq_length; auto).
      rewrite (nth_map_in _ _ _ 0%nat) by (rewrite seq_length; lia). now rewrite seq_nth by lia.
    - symmetry. apply forallb_forall. intros iv Hin. apply Nat.eqb_eq.
      apply (Hiv s); auto. now rewrite Eivs.
  Qed.

  Definition weak_cells : list (list K) := map (fun c => kernel_cell p (cell_input p pts sol c)) (seq 0 nc).
  Definition weak_faces : list (list (list K)) :=
    map (fun s => map (fun i => kf s (face_input sqrtK p pts sol s i)) (seq 0 (num_sel_faces p s))) (seq 0 ns).

  Lemma compute_residual_ok :
    compute_residual sqrtK p pts sol = Ok (compute_residual_vars_helper p weak_cells weak_faces).
  Proof.
    unfold compute_residual, compute_residual_vars, split_and_compute_cell. cbv zeta.
    rewrite vmap_cells. cbn [bind]. unfold compute_face.
    rewrite (mapM_ok _ (fun s => map (fun i => kf s (face_input sqrtK p pts sol s i)) (seq 0 (num_sel_faces p s)))).
    - reflexivity.
    - intros s Hs. apply in_seq in Hs. apply (face_ok (fun k => k)). lia.
  Qed.

  Definition jac_cells : list (list (list K)) :=
    map (fun c => snd (kernel_jac_cell jvp p (cell_input p pts sol c))) (seq 0 nc).
  Definition jac_faces : list (list (list (list K))) :=
    map (fun s => map (fun i => snd (kernel_jac_face jvp (kf s) (face_input sqrtK p pts sol s i)))
                      (seq 0 (num_sel_faces p s))) (seq 0 ns).

  Lemma newton_update_ok :
    newton_update jvp sqrtK p pts sol =
    Ok (compute_residual_vars_helper p weak_cells weak_faces,
        concat (map (@concat K) jac_cells) ++ concat (map (fun s => concat (map (@concat K) s)) jac_faces)).
  Proof.
    unfold newton_update, compute_newton_vars, split_and_compute_cell_jac. cbv zeta.
    rewrite vmap_cells. cbn [bind]. unfold compute_face_jac.
    rewrite (mapM_ok _ (fun s => map (fun i => kernel_jac_face jvp (kf s) (face_input sqrtK p pts sol s i)) (seq 0 (num_sel_faces p s)))).
    - cbn [bind fst snd]. f_equal. f_equal.
      + f_equal.
        * unfold weak_cells. rewrite map_map. apply map_ext. intros c. reflexivity.
        * unfold weak_faces. rewrite map_map. apply map_ext. intros s. rewrite map_map. apply map_ext.
          intros i. reflexivity.
      + unfold jac_cells, jac_faces. rewrite !map_map. f_equal. f_equal. apply map_ext. intros s.
        now rewrite !map_map.
    - intros s Hs. apply in_seq in Hs. apply (face_ok (kernel_jac_face jvp)). lia.
  Qed.

  Lemma face_cell_lt s i : (s < ns)%nat -> (i < num_sel_faces p s)%nat -> (face_cell p s i < nc)%nat.
  Proof.
    intros Hs Hi. unfold face_cell.
    set (cf := nth i (nth s (boundary_inds_list p) []) (0, 0)%nat).
    apply (wf_boundary p WF (nth s (boundary_inds_list p) []) _ (snd cf)).
    - now apply nth_In.
    - rewrite <- surjective_pairing. apply nth_In. exact Hi.
  Qed.

  Lemma weak_cell_len c : (c < nc)%nat ->
    length (kernel_cell p (cell_input p pts sol c)) = all_dofs (local_shapes p).
  Proof. intros Hc. apply KER. cbn [cell_input ci_sol]. now apply cell_values_length. Qed.
  Lemma weak_face_len s i : (s < ns)%nat -> (i < num_sel_faces p s)%nat ->
    length (kf s (face_input sqrtK p pts sol s i)) = all_dofs (local_shapes p).
  Proof.
    intros Hs Hi. destruct KER as [_ Hk]. destruct (Hk s Hs) as [_ H]. apply H.
    unfold face_input. cbv zeta. cbn [fi_sol]. apply cell_values_length; auto. now apply face_cell_lt.
  Qed.

  Lemma weak_cells_ok : Forall (fun w => length w = total_size (dof_shapes p)) weak_cells.
  Proof.
    apply Forall_forall. intros w Hw. apply in_map_iff in Hw as (c & <- & Hc). apply in_seq in Hc.
    rewrite dof_shapes_local, <- all_dofs_total. apply weak_cell_len. lia.
  Qed.

  (** the fold over surfaces, problem.py:432-435 *)
  Lemma fold_surfaces v n c (ss : list nat) (res : list (list K)) :
    (v < length (fes p))%nat -> c = vec (fe_of p v) -> has_shape2 n c res ->
    (forall s, In s ss -> (s < ns)%nat) ->
    let step := (fun res bw => scatter_var v (dof_shapes p) res (nth v (cells_list_face p (fst bw)) []) (snd bw)) in
    let bws := map (fun s => (nth s (boundary_inds_list p) [],
        map (fun i => kf s (face_input sqrtK p pts sol s i)) (seq 0 (num_sel_faces p s)))) ss in
    has_shape2 n c (fold_left step bws res) /\
    forall i j, (i < n)%nat -> (j < c)%nat ->
      get2 0 (fold_left step bws res) i j = get2 0 res i j +
      sum_over ss (fun s => sum_n (num_sel_faces p s) (fun e => sum_n (num_nodes (fe_of p v)) (fun a =>
        when (node_of p v (face_cell p s e) a =? i)%nat
             (nth (dof_number (local_shapes p) v a j) (kf s (face_input sqrtK p pts sol s e)) 0)))).
  Proof.
    intros Hv Hc Hres Hss step bws. subst bws.
    revert res Hres; induction ss as [|s ss IH]; intros res Hres.
    - cbn [map fold_left]. split; auto. intros i j Hi Hj. rewrite sum_over_nil. ring.
    - cbn [map fold_left].
      assert (Hs : (s < ns)%nat) by (apply Hss; now left).
      set (rows := nth v (cells_list_face p (nth s (boundary_inds_list p) [])) []).
      set (wk := map (fun i => kf s (face_input sqrtK p pts sol s i)) (seq 0 (num_sel_faces p s))).
      assert (Hrows : rows = map (fun i => nth (face_cell p s i) (cells (fe_of p v)) []) (seq 0 (num_sel_faces p s))).
      { unfold rows, cells_list_face, cells_list. rewrite map_map, nth_fes by auto. unfold take.
        rewrite map_map. rewrite (map_nth_seq (0,0)%nat _ (nth s (boundary_inds_list p) [])). apply map_ext_in. intros i Hi. apply in_seq in Hi.
        rewrite gather_in; [reflexivity|]. rewrite (wf_cells p WF) by (now apply In_fe_of).
        apply (face_cell_lt s i); auto. unfold num_sel_faces in *. lia. }
      assert (Hwk : Forall (fun w => length w = total_size (dof_shapes p)) wk).
      { apply Forall_forall. intros w Hw. apply in_map_iff in Hw as (i & <- & Hi). apply in_seq in Hi.
        rewrite dof_shapes_local, <- all_dofs_total. apply weak_face_len; auto; lia. }
      assert (Hv' : (v < length (dof_shapes p))%nat) by (rewrite dof_shapes_local, length_local_shapes; auto).
      assert (Hsnd : snd (nth v (dof_shapes p) (0, 0)%nat) = c) by (rewrite dof_shapes_local, local_shapes_nth; auto).
      assert (Hstep : has_shape2 n c (step res (nth s (boundary_inds_list p) [], wk))).
      { unfold step. cbn [fst snd]. apply scatter_var_shape; auto. }
      destruct (IH (fun s' H => Hss s' (or_intror H)) _ Hstep) as [IH1 IH2]. split; [exact IH1|].
      intros i j Hi Hj. rewrite IH2 by auto. rewrite sum_over_cons.
      assert (get2 0 (step res (nth s (boundary_inds_list p) [], wk)) i j = get2 0 res i j +
        sum_n (num_sel_faces p s) (fun e => sum_n (num_nodes (fe_of p v)) (fun a =>
        when (node_of p v (face_cell p s e) a =? i)%nat
             (nth (dof_number (local_shapes p) v a j) (kf s (face_input sqrtK p pts sol s e)) 0)))) as ->; [|ring].
      unfold step. cbn [fst snd]. fold rows. rewrite (get2_scatter_var KR v (dof_shapes p) n c); auto.
      + rewrite dof_shapes_local, local_shapes_nth by auto. cbn [fst].
        assert (Hlr : length rows = num_sel_faces p s) by (rewrite Hrows, map_length, seq_length; auto).
        rewrite Hlr.
        f_equal. apply sum_n_ext. intros e He. apply sum_n_ext. intros a Ha.
        rewrite Hrows. rewrite (nth_map_in _ _ _ 0%nat) by (rewrite seq_length; lia). rewrite seq_nth by lia.
        unfold wk. rewrite (nth_map_in _ (seq 0 (num_sel_faces p s)) _ 0%nat) by (rewrite seq_length; lia). rewrite seq_nth by lia.
        reflexivity.
      + unfold wk. rewrite Hrows. now rewrite !map_length.
      + rewrite Hrows. apply Forall_forall. intros r Hr. apply in_map_iff in Hr as (i0 & <- & Hi0).
        apply in_seq in Hi0. rewrite dof_shapes_local, local_shapes_nth by auto. cbn [fst].
        apply cell_length; auto. apply face_cell_lt; auto. lia.
  Qed.

  Lemma helper_var v : (v < length (fes p))%nat ->
    let res := nth v (compute_residual_vars_helper p weak_cells weak_faces) [] in
    has_shape2 (length (points (fe_of p v))) (vec (fe_of p v)) res /\
    forall n j, (n < length (points (fe_of p v)))%nat -> (j < vec (fe_of p v))%nat ->
      get2 0 res n j =
      sum_n nc (fun c => sum_n (num_nodes (fe_of p v)) (fun a =>
        when (node_of p v c a =? n)%nat
             (nth (dof_number (local_shapes p) v a j) (kernel_cell p (cell_input p pts sol c)) 0))) +
      sum_n ns (fun s => sum_n (num_sel_faces p s) (fun e => sum_n (num_nodes (fe_of p v)) (fun a =>
        when (node_of p v (face_cell p s e) a =? n)%nat
             (nth (dof_number (local_shapes p) v a j) (kf s (face_input sqrtK p pts sol s e)) 0)))).
  Proof.
    intros Hv res.
    assert (Hres : res = fold_left (fun res bw => scatter_var v (dof_shapes p) res (nth v (cells_list_face p (fst bw)) []) (snd bw))
       (map (fun s => (nth s (boundary_inds_list p) [],
          map (fun i => kf s (face_input sqrtK p pts sol s i)) (seq 0 (num_sel_faces p s)))) (seq 0 ns))
       (scatter_var v (dof_shapes p) (zeros2 0 (length (points (fe_of p v))) (vec (fe_of p v))) (cells (fe_of p v)) weak_cells)).
    { unfold res, compute_residual_vars_helper. rewrite (nth_map_in _ _ _ 0%nat) by (rewrite seq_length; lia).
      rewrite seq_nth by lia. cbn [Nat.add]. cbv zeta. unfold weak_faces. rewrite (combine_seq []). reflexivity. }
    assert (Hv' : (v < length (dof_shapes p))%nat) by (rewrite dof_shapes_local, length_local_shapes; auto).
    assert (Hsnd : snd (nth v (dof_shapes p) (0, 0)%nat) = vec (fe_of p v)) by (rewrite dof_shapes_local, local_shapes_nth; auto).
    assert (H0 : has_shape2 (length (points (fe_of p v))) (vec (fe_of p v))
       (scatter_var v (dof_shapes p) (zeros2 0 (length (points (fe_of p v))) (vec (fe_of p v))) (cells (fe_of p v)) weak_cells)).
    { apply scatter_var_shape; auto using zeros2_shape, weak_cells_ok. }
    destruct (fold_surfaces v _ _ (seq 0 ns) _ Hv eq_refl H0) as [H1 H2].
    { intros s Hs. apply in_seq in Hs. lia. }
    rewrite Hres. split; [exact H1|]. intros n j Hn Hj. rewrite H2 by auto. f_equal.
    rewrite (get2_scatter_var KR v (dof_shapes p) (length (points (fe_of p v))) (vec (fe_of p v)));
      auto using zeros2_shape, weak_cells_ok.
    - rewrite get2_zeros2. rewrite (wf_cells p WF) by (now apply In_fe_of).
      rewrite dof_shapes_local, local_shapes_nth by auto. cbn [fst].
      match goal with |- 0 + ?x = ?y => replace x with y; [ring|] end.
      apply sum_n_ext. intros c Hc. apply sum_n_ext. intros a Ha.
      unfold weak_cells. rewrite (nth_map_in _ (seq 0 nc) _ 0%nat) by (rewrite seq_length; lia). rewrite seq_nth by lia.
      reflexivity.
    - unfold weak_cells. rewrite map_length, seq_length. apply (wf_cells p WF). now apply In_fe_of.
    - apply Forall_forall. intros cell Hcell. rewrite dof_shapes_local, local_shapes_nth by auto. cbn [fst].
      apply (wf_cell_len p WF); auto. now apply In_fe_of.
  Qed.

  Lemma helper_shapes : has_shapes (global_shapes p) (compute_residual_vars_helper p weak_cells weak_faces).
  Proof.
    unfold has_shapes.
    assert (Hl : length (compute_residual_vars_helper p weak_cells weak_faces) = length (fes p)).
    { unfold compute_residual_vars_helper. now rewrite map_length, seq_length. }
    rewrite <- (map_seq_nth (0,0)%nat (global_shapes p)), <- (map_seq_nth [] (compute_residual_vars_helper p weak_cells weak_faces)).
    rewrite Hl, length_global_shapes.
    assert (forall l, (forall v, In v l -> (v < length (fes p))%nat) ->
       Forall2 (fun s x => has_shape2 (fst s) (snd s) x) (map (fun v => nth v (global_shapes p) (0,0)%nat) l)
         (map (fun v => nth v (compute_residual_vars_helper p weak_cells weak_faces) []) l)) as HH.
    { induction l as [|v l IH]; intros Hin; cbn; constructor.
      - rewrite global_shapes_nth by (apply Hin; now left). apply helper_var. apply Hin; now left.
      - apply IH. intros w Hw. apply Hin. now right. }
    apply HH. intros v Hv. apply in_seq in Hv. lia.
  Qed.

  Lemma residual_flat g : (g < all_dofs (global_shapes p))%nat ->
    nth g (ravel (compute_residual_vars_helper p weak_cells weak_faces)) 0 =
    sum_n nc (fun c => sum_n (all_dofs (local_shapes p)) (fun k =>
      when (nth k (elem_dofs p c) 0 =? g)%nat (nth k (kernel_cell p (cell_input p pts sol c)) 0))) +
    sum_n ns (fun s => sum_n (num_sel_faces p s) (fun e => sum_n (all_dofs (local_shapes p)) (fun k =>
      when (nth k (elem_dofs p (face_cell p s e)) 0 =? g)%nat (nth k (kf s (face_input sqrtK p pts sol s e)) 0)))).
  Proof.
    intros Hg. destruct (dof_number_surj _ _ Hg) as (v & n & j & Hval & <-).
    rewrite (nth_ravel_dof 0 (global_shapes p)); auto using helper_shapes.
    pose proof Hval as (Hv & Hn & Hj). rewrite length_global_shapes in Hv.
    rewrite global_shapes_nth in Hn, Hj by auto. cbn [fst snd] in Hn, Hj.
    destruct (helper_var v Hv) as [_ H]. rewrite H by auto. f_equal.
    - apply sum_n_ext. intros c Hc. symmetry.
      apply (sum_elem_dofs KR p WF c v n j (fun k => nth k (kernel_cell p (cell_input p pts sol c)) 0)); auto.
    - apply sum_n_ext. intros s Hs. apply sum_n_ext. intros e He. symmetry.
      apply (sum_elem_dofs KR p WF (face_cell p s e) v n j (fun k => nth k (kf s (face_input sqrtK p pts sol s e)) 0)); auto.
      apply face_cell_lt; auto.
  Qed.

  (** ** The matrix *)
  Lemma coo_entry_app I1 J1 W1 I2 J2 W2 g h :
    length I1 = length J1 -> length I1 = length W1 ->
    coo_entry (I1 ++ I2) (J1 ++ J2) (W1 ++ W2) g h = coo_entry (K:=K) I1 J1 W1 g h + coo_entry I2 J2 W2 g h.
  Proof.
    intros H1 H2. unfold coo_entry.
    assert (forall A B (a1 a2 : list A) (b1 b2 : list B), length a1 = length b1 ->
       combine (a1 ++ a2) (b1 ++ b2) = combine a1 b1 ++ combine a2 b2) as HH.
    { clear. induction a1 as [|x a1 IH]; intros a2 [|y b1] b2 H; cbn in *; try discriminate; auto.
      f_equal. apply IH. lia. }
    rewrite (HH _ _ I1 I2) by auto. rewrite HH by (rewrite combine_length; lia).
    now rewrite (sum_over_app KR).
  Qed.

  Lemma combine_repeat_l {A B} (x : A) (l : list B) : combine (repeat x (length l)) l = map (fun y => (x, y)) l.
  Proof. induction l; cbn; congruence. Qed.

  Lemma Forall2_len {A B} n (l : list (list A)) (m : list (list B)) :
    length l = length m -> Forall (fun x => length x = n) l -> Forall (fun x => length x = n) m ->
    Forall2 (fun x y => length x = length y) l m.
  Proof.
    intros Hl H. revert m Hl; induction H as [|x l Hx H IH]; intros [|y m] Hl Hm; cbn in *; try discriminate; constructor.
    - inversion Hm; congruence.
    - apply IH; [lia|]. now inversion Hm.
  Qed.

  Lemma Forall_repeat {A} (P : A -> Prop) x n : P x -> Forall P (repeat x n).
  Proof. intros H. apply Forall_forall. intros y Hy. apply repeat_spec in Hy. now subst. Qed.

  (** one element block *)
  Lemma block_entry (row : list nat) (jac : list (list K)) g h :
    has_shape2 (length row) (length row) jac ->
    coo_entry (flat_map (fun x => repeat x (length row)) row) (concat (repeat row (length row))) (concat jac) g h
    = sum_n (length row) (fun k => sum_n (length row) (fun l =>
        when ((nth k row 0 =? g) && (nth l row 0 =? h))%nat (nth l (nth k jac []) 0))).
  Proof.
    intros [H1 H2]. unfold coo_entry. set (L := length row) in *.
    rewrite flat_map_concat_map. rewrite combine_concat.
    2:{ apply (Forall2_len L).
        - now rewrite map_length, repeat_length.
        - apply Forall_forall. intros y Hy. apply in_map_iff in Hy as (x & <- & _). apply repeat_length.
        - now apply Forall_repeat. }
    rewrite (combine_nth_map [] []) by (now rewrite map_length, repeat_length).
    rewrite map_length. fold L. rewrite map_map. cbn [fst snd].
    rewrite (map_ext_in _ (fun k => map (fun y => (nth k row 0%nat, y)) row)).
    2:{ intros k Hk. apply in_seq in Hk. rewrite (nth_map_in _ _ _ 0%nat) by lia.
        rewrite (nth_indep _ [] row) by (rewrite repeat_length; lia). rewrite nth_repeat. apply combine_repeat_l. }
    rewrite combine_concat.
    2:{ apply (Forall2_len L); auto.
        - now rewrite map_length, seq_length.
        - apply Forall_forall. intros y Hy. apply in_map_iff in Hy as (x & <- & _). apply map_length. }
    rewrite (sum_over_concat KR), sum_over_map.
    rewrite (combine_nth_map [] []) by (now rewrite map_length, seq_length).
    rewrite sum_over_map, map_length, seq_length. unfold sum_n at 1. apply sum_over_ext_in.
    intros k Hk. apply in_seq in Hk. cbn [fst snd].
    rewrite (nth_map_in _ _ _ 0%nat) by (rewrite seq_length; lia). rewrite seq_nth by lia. cbn [Nat.add].
    assert (Hjk : length (nth k jac []) = L).
    { rewrite Forall_forall in H2. apply H2. apply nth_In. lia. }
    rewrite (combine_nth_map (0,0)%nat 0) by (rewrite map_length; auto).
    rewrite sum_over_map, map_length. fold L. unfold sum_n. apply sum_over_ext_in.
    intros l Hl. apply in_seq in Hl. cbn [fst snd]. rewrite (nth_map_in _ _ _ 0%nat) by (fold L; lia).
    reflexivity.
  Qed.

  (** blocks one after another *)
  Lemma blocks_entry {A} (es : list A) (row : A -> list nat) (jac : A -> list (list K)) L g h :
    (forall e, In e es -> length (row e) = L /\ has_shape2 L L (jac e)) ->
    let I := repeat_I (map row es) in
    let J := repeat_J (map row es) in
    let W := concat (map (@concat K) (map jac es)) in
    length I = length J /\ length I = length W /\
    coo_entry I J W g h = sum_over es (fun e => sum_n L (fun k => sum_n L (fun l =>
        when ((nth k (row e) 0 =? g) && (nth l (row e) 0 =? h))%nat (nth l (nth k (jac e) []) 0)))).
  Proof.
    induction es as [|e es IH]; intros H I J W.
    - subst I J W. cbn. repeat split.
    - destruct (IH (fun e' H' => H e' (or_intror H'))) as (IH1 & IH2 & IH3).
      destruct (H e (or_introl eq_refl)) as [Hr Hj].
      set (I1 := flat_map (fun x => repeat x (length (row e))) (row e)).
      set (J1 := concat (repeat (row e) (length (row e)))).
      set (W1 := concat (jac e)).
      assert (HI : I = I1 ++ repeat_I (map row es)) by reflexivity.
      assert (HJ : J = J1 ++ repeat_J (map row es)) by reflexivity.
      assert (HW : W = W1 ++ concat (map (@concat K) (map jac es))) by reflexivity.
      assert (L1 : length I1 = (L * L)%nat).
      { unfold I1. rewrite (flat_map_length_const _ _ L); [now rewrite Hr|].
        intros x _. now rewrite repeat_length. }
      assert (L2 : length J1 = (L * L)%nat).
      { unfold J1. rewrite (length_concat_const L); [now rewrite repeat_length, Hr|].
        now apply Forall_repeat. }
      assert (L3 : length W1 = (L * L)%nat).
      { unfold W1. destruct Hj as [Hj1 Hj2]. rewrite (length_concat_const L) by auto. now rewrite Hj1. }
      rewrite HI, HJ, HW, !app_length. repeat split; try lia.
      rewrite coo_entry_app by lia. rewrite IH3, sum_over_cons. f_equal.
      unfold I1, J1, W1. rewrite block_entry; rewrite Hr; auto.
  Qed.

  Lemma jac_shape (f : list K -> list K) x L : length x = L -> length (f x) = L ->
    has_shape2 L L (snd (value_and_jacfwd jvp f x)).
  Proof.
    intros H1 H2. unfold value_and_jacfwd. cbn [snd]. split.
    - now rewrite map_length, seq_length.
    - apply Forall_forall. intros r Hr. apply in_map_iff in Hr as (a & <- & _). now rewrite map_length, seq_length.
  Qed.

  Lemma jac_nth (f : list K -> list K) x L k l : length x = L -> length (f x) = L -> (k < L)%nat -> (l < L)%nat ->
    nth l (nth k (snd (value_and_jacfwd jvp f x)) []) 0 = nth k (jvp f x (unit_vec L l)) 0.
  Proof.
    intros H1 H2 Hk Hl. unfold value_and_jacfwd. cbn [snd]. rewrite H1, H2.
    rewrite (nth_map_in _ _ _ 0%nat) by (rewrite seq_length; lia). rewrite seq_nth by lia.
    rewrite (nth_map_in _ _ _ 0%nat) by (rewrite seq_length; lia). rewrite seq_nth by lia. reflexivity.
  Qed.

  Notation LL := (all_dofs (local_shapes p)).
  Notation cell_fun := (cell_fun p pts sol).
  Notation face_fun := (face_fun sqrtK p pts sol kf).

  Lemma matrix_entry g h :
    coo_entry (p_I p) (p_J p)
      (concat (map (@concat K) jac_cells) ++ concat (map (fun s => concat (map (@concat K) s)) jac_faces)) g h =
    sum_n nc (fun c => sum_n LL (fun k => sum_n LL (fun l =>
      when ((nth k (elem_dofs p c) 0 =? g) && (nth l (elem_dofs p c) 0 =? h))%nat
           (nth k (jvp (cell_fun c) (cell_values p sol c) (unit_vec LL l)) 0)))) +
    sum_n ns (fun s => sum_n (num_sel_faces p s) (fun i => sum_n LL (fun k => sum_n LL (fun l =>
      when ((nth k (elem_dofs p (face_cell p s i)) 0 =? g) && (nth l (elem_dofs p (face_cell p s i)) 0 =? h))%nat
           (nth k (jvp (face_fun s i) (cell_values p sol (face_cell p s i)) (unit_vec LL l)) 0))))).
  Proof.
    unfold p_I, p_J. rewrite (cell_inds_elem p WF).
    destruct (blocks_entry (seq 0 nc) (elem_dofs p) (fun c => snd (kernel_jac_cell jvp p (cell_input p pts sol c))) LL g h)
      as (H1 & H2 & H3).
    { intros c Hc. apply in_seq in Hc. split; [apply elem_dofs_length; auto|].
      apply jac_shape; [apply cell_values_length; auto; lia|apply weak_cell_len; lia]. }
    fold jac_cells in H2, H3. rewrite coo_entry_app by auto. rewrite H3. f_equal.
    - unfold sum_n at 1. apply sum_over_ext_in. intros c Hc. apply in_seq in Hc.
      apply sum_n_ext. intros k Hk. apply sum_n_ext. intros l Hl. f_equal.
      apply jac_nth; auto; [apply cell_values_length; auto; lia|apply weak_cell_len; lia].
    - unfold jac_faces. clear H1 H2 H3.
      assert (HF : forall ss, (forall s, In s ss -> (s < ns)%nat) ->
        let I := flat_map (fun b => repeat_I (face_dof_inds p b)) (map (fun s => nth s (boundary_inds_list p) []) ss) in
        let J := flat_map (fun b => repeat_J (face_dof_inds p b)) (map (fun s => nth s (boundary_inds_list p) []) ss) in
        let W := concat (map (fun s => concat (map (@concat K) s)) (map (fun s => map (fun i => snd (kernel_jac_face jvp (kf s) (face_input sqrtK p pts sol s i))) (seq 0 (num_sel_faces p s))) ss)) in
        length I = length J /\ length I = length W /\
        coo_entry I J W g h = sum_over ss (fun s => sum_n (num_sel_faces p s) (fun i => sum_n LL (fun k => sum_n LL (fun l =>
          when ((nth k (elem_dofs p (face_cell p s i)) 0 =? g) && (nth l (elem_dofs p (face_cell p s i)) 0 =? h))%nat
           (nth k (jvp (face_fun s i) (cell_values p sol (face_cell p s i)) (unit_vec LL l)) 0)))))).
      { induction ss as [|s ss IH]; intros Hss I J W.
        - subst I J W. cbn. repeat split.
        - destruct (IH (fun s' H' => Hss s' (or_intror H'))) as (IH1 & IH2 & IH3).
          assert (Hs : (s < ns)%nat) by (apply Hss; now left).
          set (b := nth s (boundary_inds_list p) []).
          assert (Hb : face_dof_inds p b = map (fun i => elem_dofs p (face_cell p s i)) (seq 0 (num_sel_faces p s))).
          { rewrite face_dof_inds_elem; auto.
            - apply (map_nth_seq (0,0)%nat (fun cf => elem_dofs p (fst cf))).
            - intros cf Hcf. apply (wf_boundary p WF b _ (snd cf)); [now apply nth_In|].
              now rewrite <- surjective_pairing. }
          destruct (blocks_entry (seq 0 (num_sel_faces p s)) (fun i => elem_dofs p (face_cell p s i))
             (fun i => snd (kernel_jac_face jvp (kf s) (face_input sqrtK p pts sol s i))) LL g h) as (H1 & H2 & H3).
          { intros i Hi. apply in_seq in Hi. assert (face_cell p s i < nc)%nat by (apply face_cell_lt; auto; lia).
            split; [apply elem_dofs_length; auto|]. apply jac_shape.
            - unfold face_input. cbv zeta. cbn [fi_sol]. now apply cell_values_length.
            - apply weak_face_len; auto. lia. }
          rewrite <- Hb in H1, H2, H3.
          set (I1 := repeat_I (face_dof_inds p b)) in *. set (J1 := repeat_J (face_dof_inds p b)) in *.
          set (W1 := concat (map (@concat K) (map (fun i => snd (kernel_jac_face jvp (kf s) (face_input sqrtK p pts sol s i))) (seq 0 (num_sel_faces p s))))) in *.
          change I with (I1 ++ flat_map (fun b => repeat_I (face_dof_inds p b)) (map (fun s => nth s (boundary_inds_list p) []) ss)).
          change J with (J1 ++ flat_map (fun b => repeat_J (face_dof_inds p b)) (map (fun s => nth s (boundary_inds_list p) []) ss)).
          change W with (W1 ++ concat (map (fun s => concat (map (@concat K) s)) (map (fun s => map (fun i => snd (kernel_jac_face jvp (kf s) (face_input sqrtK p pts sol s i))) (seq 0 (num_sel_faces p s))) ss))).
          rewrite !app_length. repeat split; try lia.
          rewrite coo_entry_app by auto. rewrite IH3, H3, sum_over_cons. f_equal.
          unfold sum_n at 1. apply sum_over_ext_in. intros i Hi. apply in_seq in Hi.
          assert (face_cell p s i < nc)%nat by (apply face_cell_lt; auto; lia).
          apply sum_n_ext. intros k Hk. apply sum_n_ext. intros l Hl. f_equal.
          apply jac_nth; auto.
          + unfold face_input. cbv zeta. cbn [fi_sol]. now apply cell_values_length.
          + apply weak_face_len; auto. lia. }
      destruct (HF (seq 0 ns)) as (_ & _ & HE).
      { intros s Hs. apply in_seq in Hs. lia. }
      rewrite map_seq_nth in HE. exact HE.
  Qed.
End Residual.
