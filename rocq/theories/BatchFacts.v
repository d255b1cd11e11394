(** Batching (problem.py:359-396): proofs. *)
From Coq Require Import List Arith Lia Bool.
From Verif Require Import Num Arr ArrFacts Fe Problem.
Import ListNotations.

Lemma mapM_ok {A B} (f : A -> result B) (g : A -> B) l :
  (forall x, In x l -> f x = Ok (g x)) -> mapM f l = Ok (map g l).
Proof.
  induction l as [|x l IH]; intros H; cbn; auto. rewrite H by (now left). cbn.
  rewrite IH; auto. intros y Hy. apply H. now right.
Qed.

Lemma mapM_err {A B} (f : A -> result B) e l :
  (forall x, In x l -> (exists y, f x = Ok y) \/ f x = Err e) ->
  (exists x, In x l /\ f x = Err e) -> mapM f l = Err e.
Proof.
  induction l as [|x l IH]; intros H (z & Hz & Hf); [destruct Hz|].
  cbn. destruct (H x (or_introl eq_refl)) as [(y & Hy)|Hy]; rewrite Hy; cbn; auto.
  rewrite IH; auto.
  - intros w Hw. apply H. now right.
  - exists z. destruct Hz as [->|Hz]; [congruence|]. auto.
Qed.

Lemma mapM_length {A B} (f : A -> result B) l r : mapM f l = Ok r -> length r = length l.
Proof.
  revert r; induction l as [|x l IH]; intros r; cbn.
  - intros H; inversion H; auto.
  - destruct (f x); cbn; [|discriminate]. destruct (mapM f l); cbn; [|discriminate].
    intros H; inversion H; subst. cbn. f_equal. auto.
Qed.

Lemma mapM_nth {A B} (f : A -> result B) l r da db i :
  mapM f l = Ok r -> i < length l -> f (nth i l da) = Ok (nth i r db).
Proof.
  revert r i; induction l as [|x l IH]; intros r i; cbn; [lia|].
  destruct (f x) eqn:Hx; cbn; [|discriminate]. destruct (mapM f l) eqn:Hl; cbn; [|discriminate].
  intros H; inversion H; subst. destruct i as [|i]; intros Hi; cbn; auto. apply IH; auto. lia.
Qed.

Lemma nth_skipn {A} (d : A) lo l i : nth i (skipn lo l) d = nth (lo + i) l d.
Proof.
  revert l; induction lo as [|lo IH]; intros l; auto. destruct l; cbn; [now destruct i|]. apply IH.
Qed.

Lemma nth_firstn {A} (d : A) n l i : i < n -> nth i (firstn n l) d = nth i l d.
Proof.
  revert l i; induction n as [|n IH]; intros l i H; [lia|]. destruct l; cbn; auto. destruct i; cbn; auto.
  apply IH. lia.
Qed.

Lemma nth_error_skipn {A} lo (l : list A) i : nth_error (skipn lo l) i = nth_error l (lo + i).
Proof.
  revert l; induction lo as [|lo IH]; intros l; auto. destruct l; cbn; [now destruct i|]. apply IH.
Qed.

Lemma nth_error_firstn {A} n (l : list A) i : i < n -> nth_error (firstn n l) i = nth_error l i.
Proof.
  revert l i; induction n as [|n IH]; intros l i H; [lia|]. destruct l; cbn; auto. destruct i; cbn; auto.
  apply IH. lia.
Qed.

Lemma nth_slice {A} (d : A) lo hi l i : i < hi - lo -> nth i (slice lo hi l) d = nth (lo + i) l d.
Proof. intros H. unfold slice. rewrite nth_firstn, nth_skipn; auto. Qed.

Lemma nth_error_slice {A} lo hi (l : list A) i : i < hi - lo -> nth_error (slice lo hi l) i = nth_error l (lo + i).
Proof. intros H. unfold slice. rewrite nth_error_firstn, nth_error_skipn; auto. Qed.

Lemma length_slice {A} lo hi (l : list A) : length (slice lo hi l) = Nat.min (hi - lo) (length l - lo).
Proof. unfold slice. rewrite firstn_length, skipn_length. reflexivity. Qed.

Lemma concat_seq_blocks b k : concat (map (fun i => seq (i * b) b) (seq 0 k)) = seq 0 (k * b).
Proof.
  induction k as [|k IH]; auto.
  rewrite seq_S, map_app, concat_app, IH. cbn [map concat]. rewrite app_nil_r, Nat.add_0_l.
  rewrite <- seq_app. f_equal. lia.
Qed.

Lemma map_shift_seq {B} (g : nat -> B) lo n : map (fun i => g (lo + i)) (seq 0 n) = map g (seq lo n).
Proof.
  rewrite <- (map_map (fun i => lo + i) g). f_equal.
  clear g. revert lo. induction n as [|n IH]; intros lo; cbn; auto. f_equal; [lia|].
  rewrite <- seq_shift, map_map. rewrite <- (IH (S lo)). apply map_ext. intros; lia.
Qed.

Section Batch.
  Context {K : ops} {V : Type}.
  Implicit Types cc : cell_cols K V.

  Lemma cell_at_slice cc lo hi i : i < hi - lo ->
    cell_at (map_cols (fun A => slice lo hi) cc) i = cell_at cc (lo + i).
  Proof.
    intros H. unfold cell_at, map_cols; cbn. rewrite !nth_slice by auto. f_equal.
    induction (cc_iv cc) as [|iv l IH]; cbn; auto. rewrite nth_error_slice by auto. f_equal. exact IH.
  Qed.

  Lemma cell_at_slice_from cc lo i :
    cell_at (map_cols (fun A => slice_from lo) cc) i = cell_at cc (lo + i).
  Proof.
    unfold cell_at, map_cols, slice_from; cbn. rewrite !nth_skipn. f_equal.
    induction (cc_iv cc) as [|iv l IH]; cbn; auto. rewrite nth_error_skipn by auto. f_equal. exact IH.
  Qed.

  Lemma sizes_ok cc n : forallb (fun m => m =? n) (col_sizes cc) = true <->
    (length (cc_x cc) = n /\ length (cc_grads cc) = n /\ length (cc_JxW cc) = n /\
     length (cc_vgJxW cc) = n /\ Forall (fun iv => length iv = n) (cc_iv cc)).
  Proof.
    unfold col_sizes. cbn [forallb]. rewrite !andb_true_iff, !Nat.eqb_eq.
    assert (forallb (fun m => m =? n) (map (@length _) (cc_iv cc)) = true <->
            Forall (fun iv => length iv = n) (cc_iv cc)) as E.
    { rewrite forallb_forall, Forall_forall. split.
      - intros H iv Hin. apply Nat.eqb_eq. apply H. now apply in_map.
      - intros H m Hm. apply in_map_iff in Hm as (iv & <- & Hin). apply Nat.eqb_eq. auto. }
    rewrite E. tauto.
  Qed.

  Lemma Forall_map_length (s : forall A, list A -> list A) (l : list (list (nat -> V))) n m :
    (forall iv : list (nat -> V), length iv = n -> length (s _ iv) = m) ->
    Forall (fun iv => length iv = n) l -> Forall (fun iv => length iv = m) (map (s _) l).
  Proof. intros H. induction 1; cbn; constructor; auto. Qed.

  Lemma split_and_compute_vmap {O} n (k : cell_in K V -> O) cc :
    0 < n -> length (cc_sol cc) = n -> split_and_compute n k cc = vmap_cols k cc.
  Proof.
    intros Hn Hlen. unfold split_and_compute.
    set (nc := if n <? 20 then n else 20).
    assert (Hnc : 0 < nc /\ nc <= n).
    { subst nc. destruct (Nat.ltb_spec n 20); lia. }
    destruct Hnc as [Hnc Hncn].
    set (b := n / nc).
    assert (Hb : nc * b <= n) by (apply Nat.mul_div_le; lia).
    assert (Hb1 : 1 <= b) by (apply Nat.div_le_lower_bound; lia).
    assert (Hlast : (nc - 1) * b < n) by nia.
    clearbody b nc.
    destruct nc as [|nc']; [lia|]. cbv zeta. set (nc := S nc') in *.
    set (step := fun i => if i <? nc - 1
       then vmap_cols k (map_cols (fun A => slice (i * b) ((i + 1) * b)) cc)
       else vmap_cols k (map_cols (fun A => slice_from (i * b)) cc)).
    unfold vmap_cols at 1. rewrite Hlen.
    destruct (forallb (fun m => m =? n) (col_sizes cc)) eqn:Hs.
    - apply sizes_ok in Hs as (H1 & H2 & H3 & H4 & H5).
      rewrite (mapM_ok step (fun i => map (fun j => k (cell_at cc j))
         (if i <? nc - 1 then seq (i * b) b else seq (i * b) (n - i * b)))).
      + cbn [bind]. f_equal.
        replace (seq 0 nc) with (seq 0 (nc - 1) ++ [nc - 1])
          by (replace nc with (S (nc - 1)) at 3 by lia; rewrite seq_S; reflexivity).
        rewrite map_app, concat_app. cbn [map concat]. rewrite Nat.ltb_irrefl, app_nil_r.
        rewrite (map_ext_in _ (fun i => map (fun j => k (cell_at cc j)) (seq (i * b) b))).
        * rewrite <- (map_map (fun i => seq (i * b) b) (map (fun j => k (cell_at cc j)))).
          rewrite <- concat_map, concat_seq_blocks, <- map_app.
          f_equal. replace n with ((nc - 1) * b + (n - (nc - 1) * b)) at 2 by lia.
          rewrite seq_app. reflexivity.
        * intros i Hi. apply in_seq in Hi. destruct (Nat.ltb_spec i (nc - 1)); auto; lia.
      + intros i Hi. apply in_seq in Hi. unfold step. destruct (Nat.ltb_spec i (nc - 1)) as [Hi2|Hi2].
        * assert (Hib : (i + 1) * b <= n) by nia.
          assert (HL : forall A (l : list A), length l = n -> length (slice (i * b) ((i + 1) * b) l) = b).
          { intros A l Hl. rewrite length_slice, Hl. nia. }
          unfold vmap_cols. cbn [map_cols cc_sol]. rewrite (HL _ _ Hlen).
          replace (forallb (fun m => m =? b) _) with true.
          -- f_equal. rewrite <- (map_shift_seq (fun j => k (cell_at cc j))). apply map_ext_in.
             intros j Hj. apply in_seq in Hj. f_equal. apply cell_at_slice. nia.
          -- symmetry. apply sizes_ok. cbn [map_cols cc_x cc_grads cc_JxW cc_vgJxW cc_iv].
             rewrite !HL by auto. repeat split; auto.
             apply (Forall_map_length (fun A => slice (i * b) ((i + 1) * b)) _ n); auto.
        * assert (i = nc - 1) by lia. subst i.
          assert (HL : forall A (l : list A), length l = n -> length (slice_from ((nc - 1) * b) l) = n - (nc - 1) * b).
          { intros A l Hl. unfold slice_from. rewrite skipn_length. lia. }
          unfold vmap_cols. cbn [map_cols cc_sol]. rewrite (HL _ _ Hlen).
          replace (forallb (fun m => m =? n - (nc - 1) * b) _) with true.
          -- f_equal. rewrite <- (map_shift_seq (fun j => k (cell_at cc j))). apply map_ext_in.
             intros j Hj. apply in_seq in Hj. f_equal. apply cell_at_slice_from.
          -- symmetry. apply sizes_ok. cbn [map_cols cc_x cc_grads cc_JxW cc_vgJxW cc_iv].
             rewrite !HL by auto. repeat split; auto.
             apply (Forall_map_length (fun A => slice_from ((nc - 1) * b)) _ n); auto.
    - rewrite (mapM_err step ValueErr); auto.
      + intros i _. unfold step, vmap_cols. destruct (i <? nc - 1);
        match goal with |- context [if ?c then Ok _ else _] => destruct c end;
        ((now right) || (left; eexists; reflexivity)).
      + exists (nc - 1). split; [apply in_seq; lia|]. unfold step. rewrite Nat.ltb_irrefl.
        unfold vmap_cols. destruct (forallb _ (col_sizes (map_cols _ cc))) eqn:Hs2; auto. exfalso.
        apply sizes_ok in Hs2. cbn [map_cols cc_sol cc_x cc_grads cc_JxW cc_vgJxW cc_iv] in Hs2.
        unfold slice_from in Hs2. rewrite !skipn_length in Hs2.
        destruct Hs2 as (H1 & H2 & H3 & H4 & H5).
        assert (forallb (fun m => m =? n) (col_sizes cc) = true); [|congruence].
        apply sizes_ok. repeat split; try lia.
        rewrite Forall_forall in *. intros iv Hiv.
        specialize (H5 (skipn ((nc - 1) * b) iv)). rewrite skipn_length in H5.
        specialize (H5 (in_map _ _ _ Hiv)). lia.
  Qed.
End Batch.
