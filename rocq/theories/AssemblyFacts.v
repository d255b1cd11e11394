(** Dof numbering, gather and scatter: proofs. *)
From Coq Require Import List Arith Lia Bool.
From Verif Require Import Num Arr ArrFacts Fe Problem BatchFacts SpecAssembly.
Import ListNotations.

(** ** dof numbers *)
Lemma dofs_before_offset shapes v : dofs_before shapes v = offset_of shapes v.
Proof.
  unfold offset_of. revert v; induction shapes as [|[n c] t IH]; intros [|v]; auto.
  cbn [dofs_before firstn]. rewrite total_size_cons, IH. reflexivity.
Qed.

Lemma all_dofs_total shapes : all_dofs shapes = total_size shapes.
Proof. unfold all_dofs. rewrite dofs_before_offset. unfold offset_of. now rewrite firstn_all. Qed.

Lemma dofs_before_S shapes v : v < length shapes ->
  dofs_before shapes (S v) = dofs_before shapes v + fst (nth v shapes (0,0)) * snd (nth v shapes (0,0)).
Proof.
  revert v; induction shapes as [|[n c] t IH]; intros [|v] H; cbn in *; try lia.
  - destruct t; cbn; lia.
  - specialize (IH v). cbn in IH. rewrite IH by lia. lia.
Qed.

Lemma dofs_before_mono shapes v w : v <= w -> dofs_before shapes v <= dofs_before shapes w.
Proof.
  revert v w; induction shapes as [|[n c] t IH]; intros [|v] [|w] H; cbn; try lia.
  specialize (IH v w). lia.
Qed.

Lemma dof_number_bound shapes v n j : valid_dof shapes v n j ->
  dof_number shapes v n j < dofs_before shapes (S v).
Proof.
  intros (Hv & Hn & Hj). unfold dof_number. rewrite dofs_before_S by auto. nia.
Qed.

Lemma dof_number_lt shapes v n j : valid_dof shapes v n j -> dof_number shapes v n j < all_dofs shapes.
Proof.
  intros H. pose proof (dof_number_bound _ _ _ _ H). destruct H as (Hv & _).
  unfold all_dofs. pose proof (dofs_before_mono shapes (S v) (length shapes)). lia.
Qed.

Lemma dof_number_inj shapes v n j v' n' j' :
  valid_dof shapes v n j -> valid_dof shapes v' n' j' ->
  dof_number shapes v n j = dof_number shapes v' n' j' -> v = v' /\ n = n' /\ j = j'.
Proof.
  intros H H' E.
  assert (v = v').
  { destruct (Nat.lt_trichotomy v v') as [L|[L|L]]; auto; exfalso.
    - pose proof (dof_number_bound _ _ _ _ H). pose proof (dofs_before_mono shapes (S v) v' L).
      unfold dof_number in *. lia.
    - pose proof (dof_number_bound _ _ _ _ H'). pose proof (dofs_before_mono shapes (S v') v L).
      unfold dof_number in *. lia. }
  subst v'. split; auto. unfold dof_number in E. destruct H as (_ & _ & Hj), H' as (_ & _ & Hj').
  set (c := snd (nth v shapes (0, 0))) in *.
  assert (n * c + j = n' * c + j') as E2 by lia.
  assert (n = n').
  { assert (Hd : (n * c + j) / c = (n' * c + j') / c) by congruence.
    rewrite !Nat.div_add_l in Hd by lia. rewrite !Nat.div_small in Hd by auto. lia. }
  subst. lia.
Qed.

Lemma dof_number_surj shapes i : i < all_dofs shapes ->
  exists v n j, valid_dof shapes v n j /\ dof_number shapes v n j = i.
Proof.
  unfold all_dofs, valid_dof, dof_number.
  revert i; induction shapes as [|[n c] t IH]; intros i Hi; cbn [length dofs_before] in *; [lia|].
  destruct (Nat.ltb_spec i (n * c)) as [L|L].
  - exists 0, (i / c), (i mod c). cbn [nth fst snd length]. assert (c <> 0) by (intros ->; lia).
    assert (Hc : c <> 0) by auto.
    pose proof (Nat.div_mod i c Hc) as Hdm. pose proof (Nat.mod_upper_bound i c Hc) as Hmb.
    assert (i / c < n) by (apply Nat.div_lt_upper_bound; auto; lia).
    repeat split; try lia.
  - destruct (IH (i - n * c)) as (v & m & j & (H1 & H2 & H3) & H4); [lia|].
    exists (S v), m, j. cbn [nth dofs_before length]. repeat split; auto; lia.
Qed.

(** ** offset, problem.py:82-84 *)
Fixpoint prefix_sum (l : list nat) (i : nat) : nat :=
  match i, l with S i', x :: t => x + prefix_sum t i' | _, _ => 0 end.

Lemma prefix_sum_S l i : i < length l -> prefix_sum l (S i) = prefix_sum l i + nth i l 0.
Proof.
  revert i; induction l as [|x l IH]; intros [|i] H; cbn in *; try lia.
  - destruct l; cbn; lia.
  - specialize (IH i). cbn in IH. rewrite IH; lia.
Qed.

Lemma offset_spec dofs : dofs <> [] ->
  offset dofs = map (prefix_sum dofs) (seq 0 (length dofs)).
Proof.
  intros Hne. unfold offset.
  assert (forall k, k <= length dofs - 1 ->
    fold_left (fun off i => off ++ [nth i off 0 + nth i dofs 0]) (seq 0 k) [0]
    = map (prefix_sum dofs) (seq 0 (S k))) as H.
  { induction k as [|k IH]; intros Hk.
    - cbn. now destruct dofs.
    - rewrite seq_S, fold_left_app, IH by lia. cbn [fold_left Nat.add].
      rewrite (seq_S (S k)), map_app. f_equal. cbn [map Nat.add]. f_equal.
      rewrite (nth_map_in _ _ _ 0) by (rewrite seq_length; lia). rewrite seq_nth by lia.
      rewrite prefix_sum_S by lia. reflexivity. }
  rewrite H by lia. f_equal. f_equal. destruct dofs; [congruence|]. cbn. lia.
Qed.

Lemma prefix_sum_dofs shapes v :
  prefix_sum (map (fun s => fst s * snd s) shapes) v = dofs_before shapes v.
Proof. revert v; induction shapes as [|[n c] t IH]; intros [|v]; cbn; auto. Qed.

Lemma offset_nth shapes v : v < length shapes ->
  nth v (offset (map (fun s => fst s * snd s) shapes)) 0 = dofs_before shapes v.
Proof.
  intros H. rewrite offset_spec by (destruct shapes; cbn in *; [lia|congruence]).
  rewrite (nth_map_in _ _ _ 0) by (now rewrite seq_length, map_length).
  rewrite seq_nth by (now rewrite map_length). apply prefix_sum_dofs.
Qed.

(** ** find_ind, problem.py:86-92 *)
Lemma find_ind_ravel vecs off xs :
  find_ind vecs off xs =
  ravel (map (fun i => map (fun n => map (fun j => nth i vecs 0 * n + j + nth i off 0) (seq 0 (nth i vecs 0)))
                           (nth i xs [])) (seq 0 (length xs))).
Proof.
  unfold find_ind, ravel. f_equal. rewrite map_map. apply map_ext. intros i. now rewrite flat_map_concat_map.
Qed.

Lemma find_ind_shapes vecs off xs :
  length vecs = length xs ->
  has_shapes (map (fun i => (length (nth i xs []), nth i vecs 0)) (seq 0 (length xs)))
    (map (fun i => map (fun n => map (fun j => nth i vecs 0 * n + j + nth i off 0) (seq 0 (nth i vecs 0)))
                           (nth i xs [])) (seq 0 (length xs))).
Proof.
  intros _. unfold has_shapes. induction (seq 0 (length xs)) as [|i l IH]; cbn; constructor; auto.
  cbn. split; [now rewrite map_length|]. apply Forall_forall. intros row Hrow.
  apply in_map_iff in Hrow as (n & <- & _). now rewrite map_length, seq_length.
Qed.

(** ** ravel/unravel entries *)
Lemma nth_ravel_dof {A} (d : A) shapes l v n j :
  has_shapes shapes l -> valid_dof shapes v n j ->
  nth (dof_number shapes v n j) (ravel l) d = get2 d (nth v l []) n j.
Proof.
  intros Hs (Hv & Hn & Hj). unfold dof_number. rewrite dofs_before_offset.
  destruct (nth v shapes (0, 0)) as [n0 c0] eqn:E. cbn [fst snd] in *.
  apply (nth_ravel d shapes l v n j n0 c0); auto.
Qed.

Lemma get2_unravel {A} (d : A) shapes l v n j :
  length l = total_size shapes -> valid_dof shapes v n j ->
  get2 d (nth v (unravel shapes l) []) n j = nth (dof_number shapes v n j) l d.
Proof.
  intros Hl Hv. rewrite <- (nth_ravel_dof d shapes (unravel shapes l)); auto.
  - now rewrite ravel_unravel.
  - now apply unravel_shapes.
Qed.

(** ** scatter-add of rows *)
Lemma combine_concat {A B} (l : list (list A)) (m : list (list B)) :
  Forall2 (fun x y => length x = length y) l m ->
  combine (concat l) (concat m) = concat (map (fun xy => combine (fst xy) (snd xy)) (combine l m)).
Proof.
  induction 1 as [|x y l m Hxy H IH]; cbn; auto. rewrite <- IH.
  clear IH H. revert y Hxy. induction x as [|a x IHx]; intros [|b y] Hxy; cbn in *; try discriminate; auto.
  f_equal. apply IHx. lia.
Qed.

Lemma combine_nth_map {A B} (da : A) (db : B) l m :
  length l = length m -> combine l m = map (fun i => (nth i l da, nth i m db)) (seq 0 (length l)).
Proof.
  revert m; induction l as [|a l IH]; intros [|b m] H; cbn in *; try discriminate; auto.
  f_equal. rewrite <- seq_shift, map_map. rewrite (IH m) by lia. reflexivity.
Qed.

Section Scatter.
  Context {K : ops} (KR : ring_laws K).
  Open Scope num_scope.
  Let Kth : ring_theory (@zero K) one add mul sub opp eq := KR.
  Add Ring Kring : Kth.

  (** the contribution [x] if the condition holds *)
  Definition when (b : bool) (x : K) : K := if b then x else 0.

  Lemma at_add_rows_shape (l : list (list K)) n c is_ rows :
    has_shape2 n c l -> Forall (fun r => length r = c) rows ->
    has_shape2 n c (at_add_rows add l is_ rows).
  Proof.
    unfold at_add_rows. intros H Hr. revert l H is_. induction Hr as [|r rows Hrl Hr IH]; intros l H is_.
    - destruct is_; exact H.
    - destruct is_ as [|i is_]; [exact H|]. cbn [combine fold_left]. apply IH.
      destruct H as [H1 H2]. split; [now rewrite length_upd_nth|].
      apply Forall_forall. intros row Hrow. apply (In_nth _ _ []) in Hrow as (k & Hk & <-).
      rewrite length_upd_nth in Hk. rewrite nth_upd_nth. cbn [fst snd].
      assert (length (nth k l []) = c) as Hkc by (rewrite Forall_forall in H2; apply H2, nth_In; auto).
      destruct (_ && _); auto. rewrite length_map2. lia.
  Qed.

  Lemma get2_at_add_rows (l : list (list K)) n c is_ rows i j :
    has_shape2 n c l -> Forall (fun r => length r = c) rows -> (i < n)%nat -> (j < c)%nat ->
    get2 0 (at_add_rows add l is_ rows) i j
    = get2 0 l i j + sum_over (combine is_ rows) (fun u => when (fst u =? i)%nat (nth j (snd u) 0)).
  Proof.
    intros H Hr Hi Hj. revert l H is_. induction Hr as [|r rows Hrl Hr IH]; intros l H is_.
    - replace (combine is_ (@nil (list K))) with (@nil (nat * list K)) by (destruct is_; auto).
      unfold at_add_rows. rewrite sum_over_nil. destruct is_; cbn [combine fold_left]; ring.
    - destruct is_ as [|i0 is_]; [unfold at_add_rows; cbn [combine fold_left]; rewrite sum_over_nil; ring|].
      cbn [combine]. rewrite sum_over_cons. cbn [fst snd].
      change (at_add_rows add l (i0 :: is_) (r :: rows))
        with (at_add_rows add (upd_nth i0 (fun row => map2 add row r) l) is_ rows).
      pose proof (at_add_rows_shape l n c [i0] [r] H (Forall_cons _ Hrl (Forall_nil _))) as H'.
      cbn in H'. rewrite IH by exact H'.
      assert (get2 0 (upd_nth i0 (fun row => map2 add row r) l) i j
              = get2 0 l i j + when (i0 =? i)%nat (nth j r 0)) as ->; [|ring].
      unfold get2. rewrite nth_upd_nth. destruct H as [Hl Hl2].
      destruct (Nat.eqb_spec i0 i) as [->|Hne]; cbn [andb when]; [|ring].
      rewrite Hl. destruct (Nat.ltb_spec i n); [|lia].
      rewrite (nth_map2 _ _ _ _ 0 0); auto.
      + rewrite Forall_forall in Hl2. rewrite Hl2; auto. apply nth_In. lia.
      + lia.
  Qed.

  (** scatter_var, problem.py:429-430 *)
  Lemma scatter_var_shape v shapes n c (res : list (list K)) node_rows weak :
    has_shape2 n c res -> (v < length shapes)%nat -> snd (nth v shapes (0, 0)%nat) = c ->
    Forall (fun w => length w = total_size shapes) weak ->
    has_shape2 n c (scatter_var v shapes res node_rows weak).
  Proof.
    intros H Hv Hc Hw. unfold scatter_var. apply at_add_rows_shape; auto.
    apply Forall_forall. intros row Hrow. apply in_concat in Hrow as (x & Hx & Hrow).
    apply in_map_iff in Hx as (w & <- & Hin). rewrite Forall_forall in Hw.
    pose proof (unravel_shapes shapes w (Hw w Hin)) as Hs.
    pose proof (has_shapes_nth _ _ v Hs Hv) as [_ H2]. rewrite Forall_forall in H2.
    rewrite (H2 row); auto.
  Qed.

  Lemma get2_scatter_var v shapes n c (res : list (list K)) node_rows weak i j :
    has_shape2 n c res -> (v < length shapes)%nat -> snd (nth v shapes (0, 0)%nat) = c ->
    Forall (fun w => length w = total_size shapes) weak ->
    length node_rows = length weak ->
    Forall (fun r => length r = fst (nth v shapes (0, 0)%nat)) node_rows ->
    (i < n)%nat -> (j < c)%nat ->
    get2 0 (scatter_var v shapes res node_rows weak) i j
    = get2 0 res i j +
      sum_n (length node_rows) (fun e => sum_n (fst (nth v shapes (0, 0)%nat)) (fun a =>
        when (nth a (nth e node_rows []) 0 =? i)%nat (nth (dof_number shapes v a j) (nth e weak []) 0))).
  Proof.
    intros H Hv Hc Hw Hlen Hnr Hi Hj. unfold scatter_var.
    set (nn := fst (nth v shapes (0, 0)%nat)) in *.
    assert (Hsh : forall w, In w weak -> has_shape2 nn c (nth v (unravel shapes w) [])).
    { intros w Hin. rewrite Forall_forall in Hw.
      pose proof (unravel_shapes shapes w (Hw w Hin)) as Hs.
      pose proof (has_shapes_nth _ _ v Hs Hv) as H2. rewrite Hc in H2. exact H2. }
    rewrite (get2_at_add_rows res n c); auto.
    2:{ apply Forall_forall. intros row Hrow. apply in_concat in Hrow as (x & Hx & Hrow).
        apply in_map_iff in Hx as (w & <- & Hin). destruct (Hsh w Hin) as [_ H2].
        rewrite Forall_forall in H2. auto. }
    f_equal. rewrite combine_concat.
    2:{ revert weak Hw Hlen Hsh. induction Hnr as [|r nr Hr Hnr IH]; intros [|w weak] Hw Hlen Hsh;
        cbn in *; try discriminate; constructor.
        - rewrite Hr. destruct (Hsh w (or_introl eq_refl)) as [H1 _]. now rewrite H1.
        - apply IH; auto. inversion Hw; auto. }
    rewrite (sum_over_concat KR), sum_over_map.
    rewrite (combine_nth_map [] (nth v (unravel shapes []) [])) by (rewrite map_length; auto).
    rewrite sum_over_map. unfold sum_n at 1. apply sum_over_ext_in. intros e He. apply in_seq in He.
    cbn [fst snd].
    assert (Hin : In (nth e weak []) weak) by (apply nth_In; lia).
    rewrite (map_nth (fun x => nth v (unravel shapes x) []) weak [] e).
    destruct (Hsh _ Hin) as [Hs1 Hs2].
    assert (Hnre : length (nth e node_rows []) = nn).
    { rewrite Forall_forall in Hnr. apply Hnr. apply nth_In. lia. }
    rewrite (combine_nth_map 0%nat []) by lia. rewrite sum_over_map, Hnre.
    unfold sum_n. apply sum_over_ext_in. intros a Ha. apply in_seq in Ha. cbn [fst snd].
    f_equal. apply (get2_unravel 0 shapes).
    - rewrite Forall_forall in Hw. auto.
    - repeat split; auto; fold nn; lia.
  Qed.
End Scatter.
