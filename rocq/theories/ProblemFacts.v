(** Residual and tangent assembly: proofs. *)
From Coq Require Import List Arith Lia Bool.
From Verif Require Import Num Arr ArrFacts Fe Problem BatchFacts SpecAssembly AssemblyFacts.
Import ListNotations.

Lemma flat_map_ext_in {A B} (f g : A -> list B) l :
  (forall x, In x l -> f x = g x) -> flat_map f l = flat_map g l.
Proof. intros H. rewrite !flat_map_concat_map. f_equal. now apply map_ext_in. Qed.

Lemma flat_map_nth {A B} (d : A) (f : A -> list B) l :
  flat_map f l = flat_map (fun a => f (nth a l d)) (seq 0 (length l)).
Proof.
  rewrite <- (map_seq_nth d l) at 1. rewrite !flat_map_concat_map, map_map. reflexivity.
Qed.

Lemma map_nth_seq {A B} (d : A) (f : A -> B) l :
  map f l = map (fun a => f (nth a l d)) (seq 0 (length l)).
Proof. rewrite <- (map_seq_nth d l) at 1. rewrite map_map. reflexivity. Qed.

Lemma flat_map_length_const {A B} (f : A -> list B) l c :
  (forall x, In x l -> length (f x) = c) -> length (flat_map f l) = length l * c.
Proof.
  induction l as [|x l IH]; intros H; cbn; auto. rewrite app_length, IH, H; cbn; auto.
  intros y Hy. apply H. now right.
Qed.

Section Assembly.
  Context {K : ops} {V : Type}.
  Implicit Types p : problem K V.

  Lemma nth_fes {B} p v (g : fe K -> B) d : v < length (fes p) -> nth v (map g (fes p)) d = g (fe_of p v).
  Proof. intros H. unfold fe_of. now apply nth_map_in. Qed.

  Lemma local_shapes_nth p v : v < length (fes p) ->
    nth v (local_shapes p) (0, 0) = (num_nodes (fe_of p v), vec (fe_of p v)).
  Proof. intros H. unfold local_shapes. now rewrite nth_fes. Qed.
  Lemma global_shapes_nth p v : v < length (fes p) ->
    nth v (global_shapes p) (0, 0) = (length (points (fe_of p v)), vec (fe_of p v)).
  Proof. intros H. unfold global_shapes. now rewrite nth_fes. Qed.
  Lemma length_local_shapes p : length (local_shapes p) = length (fes p).
  Proof. apply map_length. Qed.
  Lemma length_global_shapes p : length (global_shapes p) = length (fes p).
  Proof. apply map_length. Qed.
  Lemma dof_shapes_local p : dof_shapes p = local_shapes p.
  Proof. reflexivity. Qed.
  Lemma sol_shapes_global p : sol_shapes p = global_shapes p.
  Proof. reflexivity. Qed.

  Lemma In_fe_of p v : v < length (fes p) -> In (fe_of p v) (fes p).
  Proof. intros H. now apply nth_In. Qed.

  Lemma fe0_in p : fes p <> [] -> fe_of p 0 = fe0 p.
  Proof. unfold fe_of, fe0. destruct (fes p); cbn; congruence. Qed.

  Lemma p_offset_nth p v : v < length (fes p) -> nth v (p_offset p) 0 = dofs_before (global_shapes p) v.
  Proof.
    intros H. unfold p_offset. rewrite <- offset_nth by (now rewrite length_global_shapes).
    f_equal. f_equal. unfold global_shapes. rewrite map_map. reflexivity.
  Qed.

  Section WF.
    Variable p : problem K V.
    Hypothesis WF : wf_problem p.

    Lemma cell_length v c : v < length (fes p) -> c < p_num_cells p ->
      length (nth c (cells (fe_of p v)) []) = num_nodes (fe_of p v).
    Proof.
      intros Hv Hc. apply (wf_cell_len p WF); [now apply In_fe_of|]. apply nth_In.
      rewrite (wf_cells p WF); auto. now apply In_fe_of.
    Qed.

    Lemma node_bound v c a : v < length (fes p) -> c < p_num_cells p -> a < num_nodes (fe_of p v) ->
      node_of p v c a < length (points (fe_of p v)).
    Proof.
      intros Hv Hc Ha. apply (wf_cell_node p WF _ (nth c (cells (fe_of p v)) [])); [now apply In_fe_of| |].
      - apply nth_In. rewrite (wf_cells p WF); auto. now apply In_fe_of.
      - unfold node_of. apply nth_In. now rewrite cell_length.
    Qed.

    Lemma find_ind_elem (xs : list (list nat)) c : c < p_num_cells p ->
      length xs = length (fes p) ->
      (forall v, v < length (fes p) -> nth v xs [] = nth c (cells (fe_of p v)) []) ->
      find_ind (p_vecs p) (p_offset p) xs = elem_dofs p c.
    Proof.
      intros Hc Hl Hxs. unfold find_ind, elem_dofs. rewrite (flat_map_concat_map _ (seq 0 (length (fes p)))), Hl.
      f_equal. apply map_ext_in. intros v Hv. apply in_seq in Hv. rewrite Hxs by lia.
      rewrite (flat_map_nth 0), cell_length by lia. apply flat_map_ext_in. intros a Ha. apply in_seq in Ha.
      unfold p_vecs. rewrite nth_fes, p_offset_nth by lia. apply map_ext. intros j.
      unfold dof_number, node_of. rewrite global_shapes_nth by lia. cbn [snd]. lia.
    Qed.

    Lemma cell_inds_elem : cell_inds p = map (elem_dofs p) (seq 0 (p_num_cells p)).
    Proof.
      unfold cell_inds. apply map_ext_in. intros c Hc. apply in_seq in Hc. apply find_ind_elem; [lia| |].
      - unfold rows_at, cells_list. now rewrite !map_length.
      - intros v Hv. unfold rows_at, cells_list. rewrite map_map. rewrite nth_fes; auto.
    Qed.

    Lemma face_dof_inds_elem b : (forall cf, In cf b -> fst cf < p_num_cells p) ->
      face_dof_inds p b = map (fun cf => elem_dofs p (fst cf)) b.
    Proof.
      intros Hb. unfold face_dof_inds. rewrite (map_nth_seq (0, 0) _ b).
      apply map_ext_in. intros i Hi. apply in_seq in Hi.
      assert (Hin : In (nth i b (0, 0)) b) by (apply nth_In; lia).
      apply find_ind_elem; auto.
      - unfold rows_at, cells_list_face, cells_list. now rewrite !map_length.
      - intros v Hv. unfold rows_at, cells_list_face, cells_list. rewrite !map_map. rewrite nth_fes by auto.
        unfold take. rewrite map_map. rewrite (nth_map_in _ _ _ (0, 0)) by lia.
        apply gather_in. rewrite (wf_cells p WF); auto. now apply In_fe_of.
    Qed.

    Lemma elem_dofs_ravel c :
      elem_dofs p c = ravel (map (fun v => map (fun a => map (fun j => dof_number (global_shapes p) v (node_of p v c a) j)
        (seq 0 (vec (fe_of p v)))) (seq 0 (num_nodes (fe_of p v)))) (seq 0 (length (fes p)))).
    Proof.
      unfold elem_dofs, ravel. rewrite flat_map_concat_map, map_map. f_equal. apply map_ext. intros v.
      now rewrite flat_map_concat_map.
    Qed.

    Lemma local_shapes_seq : local_shapes p = map (fun v => (num_nodes (fe_of p v), vec (fe_of p v))) (seq 0 (length (fes p))).
    Proof. unfold local_shapes, fe_of. apply (map_nth_seq (fe0 p) (fun f => (num_nodes f, vec f))). Qed.

    Lemma elem_dofs_shapes c :
      has_shapes (local_shapes p) (map (fun v => map (fun a => map (fun j => dof_number (global_shapes p) v (node_of p v c a) j)
        (seq 0 (vec (fe_of p v)))) (seq 0 (num_nodes (fe_of p v)))) (seq 0 (length (fes p)))).
    Proof.
      rewrite local_shapes_seq. unfold has_shapes. induction (seq 0 (length (fes p))) as [|v l IH]; cbn; constructor; auto.
      split; cbn; [now rewrite map_length, seq_length|]. apply Forall_forall. intros row Hrow.
      apply in_map_iff in Hrow as (a & <- & _). now rewrite map_length, seq_length.
    Qed.

    Lemma elem_dofs_length c : length (elem_dofs p c) = all_dofs (local_shapes p).
    Proof.
      rewrite elem_dofs_ravel, all_dofs_total. apply ravel_length. apply elem_dofs_shapes.
    Qed.

    Lemma elem_dofs_nth c v a j : valid_dof (local_shapes p) v a j ->
      nth (dof_number (local_shapes p) v a j) (elem_dofs p c) 0
      = dof_number (global_shapes p) v (node_of p v c a) j.
    Proof.
      intros Hv. rewrite elem_dofs_ravel, (nth_ravel_dof 0 (local_shapes p)); auto using elem_dofs_shapes.
      destruct Hv as (Hv & Ha & Hj). rewrite length_local_shapes in Hv. rewrite local_shapes_nth in * by auto.
      cbn [fst snd] in *. unfold get2. rewrite (nth_map_in _ _ _ 0) by (rewrite seq_length; lia).
      rewrite seq_nth by auto. cbn [Nat.add].
      rewrite (nth_map_in _ _ _ 0) by (rewrite seq_length; lia). rewrite seq_nth by auto.
      rewrite (nth_map_in _ _ _ 0) by (rewrite seq_length; lia). rewrite seq_nth by auto. reflexivity.
    Qed.

    Lemma elem_dofs_bound c k : c < p_num_cells p -> k < all_dofs (local_shapes p) ->
      nth k (elem_dofs p c) 0 < all_dofs (global_shapes p).
    Proof.
      intros Hc Hk. destruct (dof_number_surj _ _ Hk) as (v & a & j & Hv & <-).
      rewrite elem_dofs_nth by auto. apply dof_number_lt. destruct Hv as (Hv & Ha & Hj).
      rewrite length_local_shapes in Hv. rewrite local_shapes_nth in * by auto. cbn [fst snd] in *.
      unfold valid_dof. rewrite length_global_shapes, global_shapes_nth by auto. cbn [fst snd].
      repeat split; auto. now apply node_bound.
    Qed.

    (** gather *)
    Section Sol.
      Variable sol : list (list (list K)).
      Hypothesis SOL : sol_ok p sol.

      Lemma sol_shapes_ok : has_shapes (global_shapes p) sol.
      Proof.
        destruct SOL as [Hl H]. unfold has_shapes.
        assert (Forall2 (fun s x => has_shape2 (fst s) (snd s) x)
           (map (fun v => nth v (global_shapes p) (0,0)) (seq 0 (length (fes p))))
           (map (fun v => nth v sol []) (seq 0 (length (fes p))))) as HF.
        { assert (forall l, (forall v, In v l -> v < length (fes p)) -> Forall2 (fun s x => has_shape2 (fst s) (snd s) x)
            (map (fun v => nth v (global_shapes p) (0,0)) l) (map (fun v => nth v sol []) l)) as HH.
          { induction l as [|v l IH]; intros Hin; cbn; constructor.
            - destruct (H v) as [H1 H2]; [apply Hin; now left|].
              rewrite global_shapes_nth by (apply Hin; now left). cbn. split; auto. now apply Forall_forall.
            - apply IH. intros w Hw. apply Hin. now right. }
          apply HH. intros v Hv. apply in_seq in Hv. lia. }
        rewrite <- Hl in HF at 2. rewrite map_seq_nth in HF.
        rewrite <- (length_global_shapes p) in HF. rewrite map_seq_nth in HF. exact HF.
      Qed.

      Lemma cells_sol_flat_eq : cells_sol_flat p sol = map (cell_values p sol) (seq 0 (p_num_cells p)).
      Proof.
        unfold cells_sol_flat. apply map_ext_in. intros c Hc. apply in_seq in Hc. cbv zeta.
        unfold ravel, cell_values. rewrite (flat_map_concat_map _ (seq 0 (length (fes p)))). f_equal.
        destruct SOL as [Hl H].
        rewrite !map_map. rewrite (map_nth_seq ([], []) _ (combine (cells_list p) sol)).
        assert (Hcl : length (cells_list p) = length sol) by (unfold cells_list; now rewrite map_length).
        rewrite combine_length, Hcl, Nat.min_id, Hl.
        apply map_ext_in. intros v Hv. apply in_seq in Hv.
        rewrite combine_nth by exact Hcl. cbn [fst snd].
        unfold cells_list. rewrite nth_fes by lia.
        rewrite (nth_map_in _ _ _ []) by (rewrite (wf_cells p WF); [lia|apply In_fe_of; lia]).
        unfold take. rewrite (map_nth_seq 0), cell_length by lia.
        rewrite <- flat_map_concat_map. apply flat_map_ext_in. intros a Ha. apply in_seq in Ha.
        unfold node_of. apply gather_in. destruct (H v) as [H1 H2]; [lia|]. rewrite H1.
        apply node_bound; lia.
      Qed.

      Lemma cell_values_ravel c :
        cell_values p sol c = ravel (map (fun v => map (fun a => nth (node_of p v c a) (nth v sol []) [])
           (seq 0 (num_nodes (fe_of p v)))) (seq 0 (length (fes p)))).
      Proof.
        unfold cell_values, ravel. rewrite flat_map_concat_map, map_map. f_equal. apply map_ext. intros v.
        now rewrite flat_map_concat_map.
      Qed.

      Lemma cell_values_shapes c : c < p_num_cells p ->
        has_shapes (local_shapes p) (map (fun v => map (fun a => nth (node_of p v c a) (nth v sol []) [])
           (seq 0 (num_nodes (fe_of p v)))) (seq 0 (length (fes p)))).
      Proof.
        intros Hc. rewrite local_shapes_seq. unfold has_shapes.
        assert (forall l, (forall v, In v l -> v < length (fes p)) ->
          Forall2 (fun s x => has_shape2 (fst s) (snd s) x)
           (map (fun v => (num_nodes (fe_of p v), vec (fe_of p v))) l)
           (map (fun v => map (fun a => nth (node_of p v c a) (nth v sol []) []) (seq 0 (num_nodes (fe_of p v)))) l)) as HH.
        { induction l as [|v l IH]; intros Hin; cbn; constructor; auto.
          - split; cbn; [now rewrite map_length, seq_length|]. apply Forall_forall. intros row Hrow.
            apply in_map_iff in Hrow as (a & <- & Ha). apply in_seq in Ha.
            assert (Hv : v < length (fes p)) by (apply Hin; now left).
            destruct SOL as [_ H]. destruct (H v Hv) as [H1 H2]. apply H2. apply nth_In. rewrite H1.
            apply node_bound; auto. lia.
          - apply IH. intros w Hw. apply Hin. now right. }
        apply HH. intros v Hv. apply in_seq in Hv. lia.
      Qed.

      Lemma cell_values_length c : c < p_num_cells p ->
        length (cell_values p sol c) = all_dofs (local_shapes p).
      Proof.
        intros Hc. rewrite cell_values_ravel, all_dofs_total. apply ravel_length. now apply cell_values_shapes.
      Qed.

      Lemma cell_values_nth c v a j : c < p_num_cells p -> valid_dof (local_shapes p) v a j ->
        nth (dof_number (local_shapes p) v a j) (cell_values p sol c) zero
        = get2 zero (nth v sol []) (node_of p v c a) j.
      Proof.
        intros Hc Hv. rewrite cell_values_ravel, (nth_ravel_dof zero (local_shapes p)); auto using cell_values_shapes.
        destruct Hv as (Hv & Ha & Hj). rewrite length_local_shapes in Hv. rewrite local_shapes_nth in * by auto.
        cbn [fst snd] in *. unfold get2. rewrite (nth_map_in _ _ _ 0) by (rewrite seq_length; lia).
        rewrite seq_nth by auto. cbn [Nat.add].
        rewrite (nth_map_in _ _ _ 0) by (rewrite seq_length; lia). rewrite seq_nth by auto. reflexivity.
      Qed.

      (** the local vector is the flat solution read at the element dofs *)
      Lemma cell_values_flat c k : c < p_num_cells p -> k < all_dofs (local_shapes p) ->
        nth k (cell_values p sol c) zero = nth (nth k (elem_dofs p c) 0) (ravel sol) zero.
      Proof.
        intros Hc Hk. destruct (dof_number_surj _ _ Hk) as (v & a & j & Hv & <-).
        rewrite elem_dofs_nth, cell_values_nth by auto.
        rewrite (nth_ravel_dof zero (global_shapes p)); auto using sol_shapes_ok.
        destruct Hv as (Hv & Ha & Hj). rewrite length_local_shapes in Hv. rewrite local_shapes_nth in * by auto.
        cbn [fst snd] in *. unfold valid_dof. rewrite length_global_shapes, global_shapes_nth by auto.
        cbn [fst snd]. repeat split; auto. now apply node_bound.
      Qed.
    End Sol.
  End WF.
End Assembly.

(** ** Sums over all local dofs *)
Section SumDofs.
  Context {K : ops} (KR : ring_laws K).
  Open Scope num_scope.
  Let Kth : ring_theory (@zero K) one add mul sub opp eq := KR.
  Add Ring Kring2 : Kth.

  Lemma sum_n_add a b (f : nat -> K) : sum_n (a + b) f = sum_n a f + sum_n b (fun i => f (a + i)%nat).
  Proof.
    unfold sum_n. rewrite seq_app, (sum_over_app KR). f_equal. cbn [Nat.add].
    unfold sum_over. rewrite <- (map_shift_seq f). reflexivity.
  Qed.

  Lemma sum_n_mul a b (f : nat -> K) : sum_n (a * b) f = sum_n a (fun i => sum_n b (fun j => f (i * b + j)%nat)).
  Proof.
    induction a as [|a IH]; [reflexivity|].
    rewrite (sum_n_S KR). replace (S a * b)%nat with (a * b + b)%nat by lia.
    rewrite sum_n_add, IH. reflexivity.
  Qed.

  Lemma sum_n_O (f : nat -> K) : sum_n 0 f = 0.
  Proof. reflexivity. Qed.
  Lemma sum_n_Sl n (f : nat -> K) : sum_n (S n) f = f O + sum_n n (fun i => f (S i)).
  Proof.
    unfold sum_n. cbn [seq]. rewrite sum_over_cons. f_equal. rewrite <- seq_shift, sum_over_map. reflexivity.
  Qed.

  Lemma sum_dofs shapes (f : nat -> K) :
    sum_n (all_dofs shapes) f =
    sum_n (length shapes) (fun v => sum_n (fst (nth v shapes (0,0)%nat)) (fun a =>
      sum_n (snd (nth v shapes (0,0)%nat)) (fun j => f (dof_number shapes v a j)))).
  Proof.
    unfold all_dofs, dof_number. revert f; induction shapes as [|[n c] t IH]; intros f; [reflexivity|].
    cbn [length dofs_before]. rewrite sum_n_add, sum_n_mul, sum_n_Sl. f_equal.
    rewrite IH. apply sum_n_ext. intros v Hv. cbn [nth]. apply sum_n_ext. intros a Ha.
    apply sum_n_ext. intros j Hj. cbn [dofs_before]. f_equal. lia.
  Qed.

  Lemma sum_n_zero n : sum_n n (fun _ => 0) = @zero K.
  Proof. apply (sum_over_zero KR). Qed.
  Lemma sum_n_zero_ext n (f : nat -> K) : (forall i, (i < n)%nat -> f i = 0) -> sum_n n f = 0.
  Proof. intros H. rewrite (sum_n_ext n f (fun _ => 0)); auto. apply sum_n_zero. Qed.
  Lemma sum_n_swap n m (f : nat -> nat -> K) :
    sum_n n (fun i => sum_n m (f i)) = sum_n m (fun j => sum_n n (fun i => f i j)).
  Proof. apply (sum_over_swap KR). Qed.
  Lemma sum_n_plus n (f g : nat -> K) : sum_n n (fun i => f i + g i) = sum_n n f + sum_n n g.
  Proof. apply (sum_over_add KR). Qed.
  Lemma sum_n_mul_l n c (f : nat -> K) : sum_n n (fun i => c * f i) = c * sum_n n f.
  Proof. apply (sum_over_mul_l KR). Qed.
  Lemma sum_n_mul_r n c (f : nat -> K) : sum_n n (fun i => f i * c) = sum_n n f * c.
  Proof. apply (sum_over_mul_r KR). Qed.

  (** picking the dofs equal to a given valid global dof *)
  Lemma sum_elem_dofs {V} (p : problem K V) (WF : wf_problem p) c v n j (w : nat -> K) :
    (c < p_num_cells p)%nat -> valid_dof (global_shapes p) v n j ->
    sum_n (all_dofs (local_shapes p)) (fun k =>
      when (nth k (elem_dofs p c) 0 =? dof_number (global_shapes p) v n j)%nat (w k))
    = sum_n (num_nodes (fe_of p v)) (fun a =>
      when (node_of p v c a =? n)%nat (w (dof_number (local_shapes p) v a j))).
  Proof.
    intros Hc Hval. pose proof Hval as (Hv & Hn & Hj). rewrite length_global_shapes in Hv.
    rewrite global_shapes_nth in Hn, Hj by auto. cbn [fst snd] in Hn, Hj.
    rewrite sum_dofs, length_local_shapes.
    rewrite (sum_n_single KR _ v); auto.
    - rewrite local_shapes_nth by auto. cbn [fst snd]. apply sum_n_ext. intros a Ha.
      rewrite (sum_n_single KR _ j); auto.
      + rewrite elem_dofs_nth.
        2:{ unfold valid_dof. rewrite length_local_shapes, local_shapes_nth by auto. cbn. auto. }
        f_equal. destruct (Nat.eqb_spec (node_of p v c a) n) as [->|Hne].
        * apply Nat.eqb_refl.
        * apply Nat.eqb_neq. intros E. apply dof_number_inj in E; auto; try tauto.
          unfold valid_dof. rewrite length_global_shapes, global_shapes_nth by auto. cbn [fst snd].
          repeat split; auto. now apply node_bound.
      + intros j' Hj' Hne. rewrite elem_dofs_nth.
        2:{ unfold valid_dof. rewrite length_local_shapes, local_shapes_nth by auto. cbn. auto. }
        replace (_ =? _)%nat with false; auto. symmetry. apply Nat.eqb_neq. intros E.
        apply dof_number_inj in E; auto; try tauto.
        unfold valid_dof. rewrite length_global_shapes, global_shapes_nth by auto. cbn [fst snd].
        repeat split; auto. now apply node_bound.
    - intros v' Hv' Hne. apply sum_n_zero_ext. intros a Ha. apply sum_n_zero_ext. intros j' Hj'.
      rewrite local_shapes_nth in Ha, Hj' by auto. cbn [fst snd] in *.
      rewrite elem_dofs_nth.
      2:{ unfold valid_dof. rewrite length_local_shapes, local_shapes_nth by auto. cbn. auto. }
      replace (_ =? _)%nat with false; auto. symmetry. apply Nat.eqb_neq. intros E.
      apply dof_number_inj in E; auto; try tauto.
      unfold valid_dof. rewrite length_global_shapes, global_shapes_nth by auto. cbn [fst snd].
      repeat split; auto. now apply node_bound.
  Qed.
End SumDofs.
