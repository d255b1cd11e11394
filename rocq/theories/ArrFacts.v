(** Facts about the array primitives. *)
From Coq Require Import List Arith Lia Bool.
From Verif Require Import Arr.
Import ListNotations.

Lemma gather_in {A} (d : A) l i : i < length l -> gather d l i = nth i l d.
Proof. intros H. unfold gather. f_equal. lia. Qed.

Lemma gather_indep {A} (d d' : A) l i : l <> [] -> gather d l i = gather d' l i.
Proof.
  intros H. unfold gather. apply nth_indep. destruct l; [congruence|]. cbn [length]. lia.
Qed.

Lemma length_upd_nth {A} i (f : A -> A) l : length (upd_nth i f l) = length l.
Proof. revert i; induction l as [|x l IH]; intros [|i]; cbn; auto. Qed.

Lemma nth_upd_nth_eq {A} (d : A) i f l : i < length l -> nth i (upd_nth i f l) d = f (nth i l d).
Proof.
  revert i; induction l as [|x l IH]; intros [|i] H; cbn in *; try lia; auto. apply IH. lia.
Qed.

Lemma nth_upd_nth_neq {A} (d : A) i j f l : i <> j -> nth j (upd_nth i f l) d = nth j l d.
Proof.
  revert i j; induction l as [|x l IH]; intros [|i] [|j] H; cbn; auto; try lia.
Qed.

Lemma nth_upd_nth {A} (d : A) i j f l :
  nth j (upd_nth i f l) d = if (i =? j) && (j <? length l) then f (nth j l d) else nth j l d.
Proof.
  destruct (Nat.eqb_spec i j) as [->|H]; cbn [andb].
  - destruct (Nat.ltb_spec j (length l)).
    + now apply nth_upd_nth_eq.
    + rewrite !nth_overflow; auto. rewrite length_upd_nth. lia.
  - now apply nth_upd_nth_neq.
Qed.

Lemma upd_nth_oob {A} i (f : A -> A) l : length l <= i -> upd_nth i f l = l.
Proof.
  revert i; induction l as [|x l IH]; intros [|i] H; cbn in *; auto; try lia. f_equal. apply IH. lia.
Qed.

Lemma length_upd2 {A} i j (f : A -> A) l : length (upd2 i j f l) = length l.
Proof. apply length_upd_nth. Qed.

Lemma upd2_rows {A} i j (f : A -> A) l k : length (nth k (upd2 i j f l) []) = length (nth k l []).
Proof.
  unfold upd2. rewrite nth_upd_nth. destruct (_ && _); auto. apply length_upd_nth.
Qed.

Definition in2 {A} (l : list (list A)) (i j : nat) : bool :=
  (i <? length l) && (j <? length (nth i l [])).

Lemma get2_upd2 {A} (d : A) i j f l i' j' :
  get2 d (upd2 i j f l) i' j' =
  if (i =? i') && (j =? j') && in2 l i' j' then f (get2 d l i' j') else get2 d l i' j'.
Proof.
  unfold get2, upd2, in2. rewrite nth_upd_nth.
  destruct (Nat.eqb_spec i i') as [->|Hi]; cbn [andb]; auto.
  destruct (Nat.ltb_spec i' (length l)) as [Hl|Hl]; cbn [andb].
  - rewrite nth_upd_nth. reflexivity.
  - rewrite andb_false_r. reflexivity.
Qed.

Lemma in2_upd2 {A} i j (f : A -> A) l i' j' : in2 (upd2 i j f l) i' j' = in2 l i' j'.
Proof. unfold in2. rewrite length_upd2, upd2_rows. reflexivity. Qed.

(** Shapes *)
Lemma has_shape2_rows {A} n c (l : list (list A)) i :
  has_shape2 n c l -> i < n -> length (nth i l []) = c.
Proof.
  intros [H1 H2] Hi. rewrite Forall_forall in H2. apply H2. apply nth_In. lia.
Qed.

Lemma has_shape2_in2 {A} n c (l : list (list A)) i j :
  has_shape2 n c l -> in2 l i j = (i <? n) && (j <? c).
Proof.
  intros H. unfold in2. pose proof (proj1 H) as Hl. rewrite Hl.
  destruct (Nat.ltb_spec i n) as [Hi|Hi]; cbn [andb]; auto.
  rewrite (has_shape2_rows n c); auto.
Qed.

Lemma has_shape2_upd2 {A} n c (l : list (list A)) i j f :
  has_shape2 n c l -> has_shape2 n c (upd2 i j f l).
Proof.
  intros [H1 H2]. split; [now rewrite length_upd2|].
  apply Forall_forall. intros row Hrow. apply (In_nth _ _ []) in Hrow as (k & Hk & <-).
  rewrite upd2_rows. rewrite length_upd2 in Hk. rewrite Forall_forall in H2. apply H2. now apply nth_In.
Qed.

Lemma length_map2 {A B C} (f : A -> B -> C) l m : length (map2 f l m) = Nat.min (length l) (length m).
Proof. unfold map2. rewrite map_length, combine_length. reflexivity. Qed.

Lemma nth_map2 {A B C} (f : A -> B -> C) l m i da db dc :
  i < length l -> i < length m -> nth i (map2 f l m) dc = f (nth i l da) (nth i m db).
Proof.
  intros H1 H2. unfold map2.
  rewrite (nth_indep _ dc (f (fst (da, db)) (snd (da, db)))) by (rewrite map_length, combine_length; lia).
  rewrite (map_nth (fun ab => f (fst ab) (snd ab)) (combine l m) (da, db)).
  revert m i H1 H2. induction l as [|x l IH]; intros [|y m] [|i] H1 H2; cbn in *; try lia; auto.
  apply IH; lia.
Qed.

Lemma nth_map_in {A B} (f : A -> B) l i da db : i < length l -> nth i (map f l) db = f (nth i l da).
Proof.
  intros H. rewrite (nth_indep _ db (f da)) by (now rewrite map_length). apply map_nth.
Qed.

Lemma map_seq_nth {A} (d : A) (l : list A) : map (fun i => nth i l d) (seq 0 (length l)) = l.
Proof.
  induction l as [|x l IH]; auto. cbn [length seq map nth]. f_equal.
  rewrite <- seq_shift, map_map. cbn [nth]. exact IH.
Qed.

Lemma list_ext {A} (d : A) (l m : list A) :
  length l = length m -> (forall i, i < length l -> nth i l d = nth i m d) -> l = m.
Proof. intros H1 H2. eapply nth_ext; eauto. Qed.

(** argwhere *)
Definition argwhere_aux (s : nat) (flags : list bool) : list nat :=
  map fst (filter (fun p : nat * bool => snd p) (combine (seq s (length flags)) flags)).

Lemma argwhere_aux_spec flags s i :
  In i (argwhere_aux s flags) <-> s <= i /\ i < s + length flags /\ nth (i - s) flags false = true.
Proof.
  revert s; induction flags as [|b flags IH]; intros s; cbn.
  - split; [tauto|]. lia.
  - unfold argwhere_aux. cbn [length seq combine filter]. specialize (IH (S s)).
    destruct b; cbn [map fst snd In].
    + change (map fst (filter (fun p : nat * bool => snd p) (combine (seq (S s) (length flags)) flags)))
        with (argwhere_aux (S s) flags). rewrite IH. split.
      * intros [<-|(H1 & H2 & H3)]; [rewrite Nat.sub_diag; repeat split; auto; lia|].
        replace (i - s) with (S (i - S s)) by lia. repeat split; auto; lia.
      * intros (H1 & H2 & H3). destruct (Nat.eq_dec s i) as [->|Hne]; [now left|]. right.
        replace (i - s) with (S (i - S s)) in H3 by lia. repeat split; auto; lia.
    + change (map fst (filter (fun p : nat * bool => snd p) (combine (seq (S s) (length flags)) flags)))
        with (argwhere_aux (S s) flags). rewrite IH. split.
      * intros (H1 & H2 & H3).
        replace (i - s) with (S (i - S s)) by lia. repeat split; auto; lia.
      * intros (H1 & H2 & H3). destruct (Nat.eq_dec s i) as [->|Hne];
        [rewrite Nat.sub_diag in H3; discriminate|].
        replace (i - s) with (S (i - S s)) in H3 by lia. repeat split; auto; lia.
Qed.

Lemma argwhere_In flags i :
  In i (argwhere flags) <-> i < length flags /\ nth i flags false = true.
Proof.
  change (argwhere flags) with (argwhere_aux 0 flags). rewrite argwhere_aux_spec, Nat.sub_0_r. lia || (split; intros H; repeat split; try tauto; lia).
Qed.

(** strictly increasing lists *)
Fixpoint increasing (l : list nat) : Prop :=
  match l with
  | [] => True
  | x :: t => (forall y, In y t -> x < y) /\ increasing t
  end.

Lemma increasing_NoDup l : increasing l -> NoDup l.
Proof.
  induction l as [|x l IH]; cbn; intros H; constructor.
  - intros Hin. destruct H as [H _]. specialize (H x Hin). lia.
  - apply IH. tauto.
Qed.

Lemma argwhere_aux_increasing flags s : increasing (argwhere_aux s flags).
Proof.
  revert s; induction flags as [|b flags IH]; intros s; [exact I|].
  unfold argwhere_aux. cbn [length seq combine filter].
  change (combine (seq (S s) (length flags)) flags) with (combine (seq (S s) (length flags)) flags).
  destruct b; cbn [map fst snd].
  - change (map fst (filter (fun p : nat * bool => snd p) (combine (seq (S s) (length flags)) flags)))
        with (argwhere_aux (S s) flags). split; [|apply IH].
    intros y Hy. apply argwhere_aux_spec in Hy. lia.
  - apply IH.
Qed.

Lemma argwhere_increasing flags : increasing (argwhere flags).
Proof. apply argwhere_aux_increasing. Qed.

(** lexicographically increasing pairs *)
Definition lex_lt (p q : nat * nat) : Prop := fst p < fst q \/ (fst p = fst q /\ snd p < snd q).
Fixpoint lex_increasing (l : list (nat * nat)) : Prop :=
  match l with
  | [] => True
  | x :: t => (forall y, In y t -> lex_lt x y) /\ lex_increasing t
  end.

Lemma lex_increasing_NoDup l : lex_increasing l -> NoDup l.
Proof.
  induction l as [|x l IH]; cbn; intros H; constructor.
  - intros Hin. destruct H as [H _]. specialize (H x Hin). unfold lex_lt in H. lia.
  - apply IH. tauto.
Qed.

Lemma lex_increasing_app l m :
  lex_increasing l -> lex_increasing m ->
  (forall x y, In x l -> In y m -> lex_lt x y) -> lex_increasing (l ++ m).
Proof.
  induction l as [|x l IH]; cbn; intros Hl Hm H; auto. destruct Hl as [H1 H2]. split.
  - intros y Hy. apply in_app_or in Hy as [Hy|Hy]; auto.
  - apply IH; auto.
Qed.

Definition argwhere2_aux s (flags : list (list bool)) : list (nat * nat) :=
  flat_map (fun p => map (fun j => (fst p, j)) (argwhere (snd p)))
           (combine (seq s (length flags)) flags).

Lemma argwhere2_aux_spec flags s i j :
  In (i, j) (argwhere2_aux s flags) <->
  s <= i /\ i < s + length flags /\ j < length (nth (i - s) flags []) /\ get2 false flags (i - s) j = true.
Proof.
  revert s; induction flags as [|b flags IH]; intros s; cbn [length].
  - cbn. split; [tauto|lia].
  - unfold argwhere2_aux. cbn [length seq combine flat_map fst snd].
    change (flat_map _ (combine (seq (S s) (length flags)) flags)) with (argwhere2_aux (S s) flags).
    rewrite in_app_iff, IH. split.
    + intros [H|(H1 & H2 & H3 & H4)].
      * apply in_map_iff in H as (k & Hk & Hin). inversion Hk; subst. apply argwhere_In in Hin.
        rewrite Nat.sub_diag. cbn. unfold get2. cbn. lia || (repeat split; try tauto; lia).
      * replace (i - s) with (S (i - S s)) by lia. unfold get2 in *. cbn [nth]. repeat split; auto; lia.
    + intros (H1 & H2 & H3 & H4). destruct (Nat.eq_dec s i) as [->|Hne].
      * left. rewrite Nat.sub_diag in *. unfold get2 in *. cbn [nth] in *.
        apply in_map. apply argwhere_In. auto.
      * right. replace (i - s) with (S (i - S s)) in H3, H4 by lia.
        unfold get2 in *. cbn [nth] in *. repeat split; auto; lia.
Qed.

Lemma argwhere2_In flags i j :
  In (i, j) (argwhere2 flags) <->
  i < length flags /\ j < length (nth i flags []) /\ get2 false flags i j = true.
Proof.
  change (argwhere2 flags) with (argwhere2_aux 0 flags). rewrite argwhere2_aux_spec, Nat.sub_0_r.
  split; intros H; repeat split; try tauto; lia.
Qed.

Lemma argwhere2_aux_lex flags s : lex_increasing (argwhere2_aux s flags).
Proof.
  revert s; induction flags as [|b flags IH]; intros s; [exact I|].
  unfold argwhere2_aux. cbn [length seq combine flat_map fst snd].
  change (flat_map _ (combine (seq (S s) (length flags)) flags)) with (argwhere2_aux (S s) flags).
  apply lex_increasing_app; auto.
  - pose proof (argwhere_increasing b) as Hinc. induction (argwhere b) as [|x l IHl]; cbn in *; auto.
    destruct Hinc as [H1 H2]. split; auto. intros y Hy. apply in_map_iff in Hy as (k & <- & Hk).
    right. cbn. auto.
  - intros x [i j] Hx Hy. apply in_map_iff in Hx as (k & <- & _). apply argwhere2_aux_spec in Hy.
    left. cbn. lia.
Qed.

Lemma argwhere2_lex flags : lex_increasing (argwhere2 flags).
Proof. apply argwhere2_aux_lex. Qed.

(** chunk / ravel / unravel *)
Lemma length_concat_const {A} c (l : list (list A)) :
  Forall (fun row => length row = c) l -> length (concat l) = length l * c.
Proof.
  induction 1 as [|x l Hx Hl IH]; cbn; auto. rewrite app_length. lia.
Qed.

Lemma chunk_concat {A} c (l : list (list A)) :
  Forall (fun row => length row = c) l -> chunk (length l) c (concat l) = l.
Proof.
  induction 1 as [|x l Hx Hl IH]; cbn; auto.
  rewrite firstn_app, skipn_app, <- Hx, Nat.sub_diag, firstn_all, skipn_all, app_nil_r. cbn. f_equal.
  rewrite Hx. exact IH.
Qed.

Lemma concat_chunk {A} n c (l : list A) : length l = n * c -> concat (chunk n c l) = l.
Proof.
  revert l; induction n as [|n IH]; intros l H; cbn in *.
  - destruct l; cbn in *; [auto|lia].
  - rewrite IH; [apply firstn_skipn|]. rewrite skipn_length. lia.
Qed.

Lemma chunk_shape {A} n c (l : list A) : length l = n * c -> has_shape2 n c (chunk n c l).
Proof.
  revert l; induction n as [|n IH]; intros l H; cbn in *.
  - split; auto.
  - destruct (IH (skipn c l)) as [H1 H2]; [rewrite skipn_length; lia|]. split; cbn; auto.
    constructor; auto. rewrite firstn_length. lia.
Qed.

Lemma total_size_cons s t : total_size (s :: t) = fst s * snd s + total_size t.
Proof. reflexivity. Qed.

Lemma unravel_ravel {A} shapes (l : list (list (list A))) :
  has_shapes shapes l -> unravel shapes (ravel l) = l.
Proof.
  unfold has_shapes, ravel. induction 1 as [|[n c] x shapes l [Hx1 Hx2] Hl IH]; cbn in *; auto.
  pose proof (length_concat_const c x Hx2) as Hlen. rewrite Hx1 in Hlen.
  rewrite firstn_app, skipn_app, <- Hlen, Nat.sub_diag, firstn_all, skipn_all. cbn [firstn skipn app].
  rewrite app_nil_r, IH. f_equal. rewrite <- Hx1. now apply chunk_concat.
Qed.

Lemma ravel_unravel {A} shapes (l : list A) :
  length l = total_size shapes -> ravel (unravel shapes l) = l.
Proof.
  unfold ravel. revert l; induction shapes as [|[n c] shapes IH]; intros l H; cbn [unravel map concat].
  - destruct l; [auto|discriminate].
  - rewrite total_size_cons in H; cbn [fst snd] in H. rewrite IH by (rewrite skipn_length; lia).
    rewrite concat_chunk by (rewrite firstn_length; lia). apply firstn_skipn.
Qed.

Lemma unravel_shapes {A} shapes (l : list A) :
  length l = total_size shapes -> has_shapes shapes (unravel shapes l).
Proof.
  unfold has_shapes. revert l; induction shapes as [|[n c] shapes IH]; intros l H; cbn [unravel]; constructor;
  rewrite total_size_cons in H; cbn [fst snd] in *.
  - apply chunk_shape. rewrite firstn_length. lia.
  - apply IH. rewrite skipn_length. lia.
Qed.

Lemma ravel_length {A} shapes (l : list (list (list A))) :
  has_shapes shapes l -> length (ravel l) = total_size shapes.
Proof.
  unfold has_shapes, ravel. induction 1 as [|[n c] x shapes l [Hx1 Hx2] Hl IH]; [reflexivity|].
  cbn [map concat]. rewrite total_size_cons; cbn [fst snd] in *.
  rewrite app_length, IH, (length_concat_const c); [lia|auto].
Qed.

Lemma nth_concat_const {A} (d : A) c (l : list (list A)) i j :
  Forall (fun row => length row = c) l -> i < length l -> j < c ->
  nth (i * c + j) (concat l) d = get2 d l i j.
Proof.
  intros H. revert i; induction H as [|x l Hx Hl IH]; intros i Hi Hj; cbn in *; [lia|].
  destruct i as [|i]; unfold get2; cbn [nth].
  - rewrite app_nth1; auto. lia.
  - rewrite app_nth2 by (cbn; lia). rewrite Hx. replace (S i * c + j - c) with (i * c + j) by (cbn; lia).
    apply IH; lia.
Qed.

(** offset of array v inside the flat vector *)
Definition offset_of (shapes : list (nat * nat)) (v : nat) : nat := total_size (firstn v shapes).

Lemma nth_ravel {A} (d : A) shapes (l : list (list (list A))) v i j n c :
  has_shapes shapes l -> v < length shapes -> nth v shapes (0, 0) = (n, c) -> i < n -> j < c ->
  nth (offset_of shapes v + i * c + j) (ravel l) d = get2 d (nth v l []) i j.
Proof.
  unfold has_shapes, ravel. intros H. revert v. induction H as [|[n' c'] x shapes l [Hx1 Hx2] Hl IH];
  intros v Hv Hn Hi Hj; cbn [length map concat fst snd] in *; [lia|].
  destruct v as [|v]; cbn [nth] in *.
  - inversion Hn; subst. cbn. rewrite app_nth1.
    + apply nth_concat_const; auto.
    + rewrite (length_concat_const c); auto. nia.
  - unfold offset_of. cbn [firstn total_size fold_right fst snd].
    pose proof (length_concat_const c' x Hx2) as Hlen. rewrite Hx1 in Hlen.
    rewrite app_nth2; rewrite Hlen; [|lia].
    etransitivity; [|apply (IH v); auto; lia]. f_equal. unfold offset_of, total_size. lia.
Qed.

Lemma has_shapes_nth {A} shapes (l : list (list (list A))) v :
  has_shapes shapes l -> v < length shapes ->
  has_shape2 (fst (nth v shapes (0,0))) (snd (nth v shapes (0,0))) (nth v l []).
Proof.
  intros H. revert v. induction H as [|s x shapes l Hx Hl IH]; intros v Hv; cbn in *; [lia|].
  destruct v; auto. apply IH. lia.
Qed.

Lemma has_shapes_length {A} shapes (l : list (list (list A))) :
  has_shapes shapes l -> length l = length shapes.
Proof. induction 1; cbn; auto. Qed.

Lemma zeros2_shape {A} (z : A) n c : has_shape2 n c (zeros2 z n c).
Proof.
  split; [apply repeat_length|]. apply Forall_forall. intros x Hx. apply repeat_spec in Hx. subst.
  apply repeat_length.
Qed.

Lemma get2_zeros2 {A} (z : A) n c i j : get2 z (zeros2 z n c) i j = z.
Proof.
  unfold get2, zeros2. destruct (Nat.ltb_spec i n).
  - rewrite (nth_indep _ [] (repeat z c)) by (rewrite repeat_length; lia). rewrite nth_repeat.
    apply nth_repeat.
  - rewrite nth_overflow with (n := i) by (rewrite repeat_length; lia). now destruct j.
Qed.
