(** Text replacement, saving, timing, logging. *)
From Coq Require Import String Ascii List Arith Bool Lia Reals.
From Verif Require Import Num Arr Fe Problem Basis Utils SpecUtils.
Import ListNotations.

Lemma prefix_iff p l : is_prefix p l = true <-> exists r, l = p ++ r.
Proof.
  revert l; induction p as [|a p IH]; intros l; cbn.
  - split; [now exists l|reflexivity].
  - destruct l as [|b l]; [split; [discriminate|intros (r & E); discriminate]|].
    rewrite andb_true_iff, IH. split.
    + intros [E (r & ->)]. apply Ascii.eqb_eq in E. subst. now exists r.
    + intros (r & E). injection E as -> ->. split; [apply Ascii.eqb_refl|now exists r].
Qed.
Lemma occurs_prefix p l k : occurs p l k <-> is_prefix p (skipn k l) = true \/ p = [].
Proof.
  unfold occurs. revert l; induction k as [|k IH]; intros l.
  - cbn [plus skipn]. rewrite prefix_iff. split.
    + intros H. left. revert l H; induction p as [|a p IHp]; intros l H; [now exists l|].
      pose proof (H 0 ltac:(cbn; lia)) as H0. destruct l as [|b l]; cbn in H0; [discriminate|]. injection H0 as ->.
      destruct (IHp l) as [r ->]; [|now exists r]. intros j Hj. apply (H (S j)). cbn. lia.
    + intros [(r & ->)| ->] j Hj; [now rewrite nth_error_app1|cbn in Hj; lia].
  - destruct l as [|c l].
    + cbn [skipn]. split; [|intros [E| ->] j Hj; [destruct p; [cbn in Hj; lia|discriminate]|cbn in Hj; lia]].
      intros H. destruct p as [|a p]; [now right|]. specialize (H 0 ltac:(cbn; lia)). cbn in H. discriminate.
    + cbn [skipn]. rewrite <- IH. reflexivity.
Qed.
Lemma occurs_dec p l k : {occurs p l k} + {~ occurs p l k}.
Proof.
  destruct p as [|a p]; [left; intros j Hj; cbn in Hj; lia|].
  destruct (is_prefix (a :: p) (skipn k l)) eqn:E.
  - left. apply occurs_prefix. now left.
  - right. rewrite occurs_prefix. intros [H|H]; congruence.
Qed.
Lemma covered_dec p l i : {covered p l i} + {~ covered p l i}.
Proof.
  assert (D : forall m, {exists k, k < m /\ k <= i < k + length p /\ occurs p l k} + {~ exists k, k < m /\ k <= i < k + length p /\ occurs p l k}).
  { induction m as [|m IH]; [right; intros (k & H & _); lia|]. destruct IH as [IH|IH].
    - left. destruct IH as (k & H & R). exists k. split; [lia|auto].
    - destruct (le_dec m i) as [L|L]; [|right; intros (k & H & R & O); destruct (Nat.eq_dec k m) as [->|]; [lia|apply IH; exists k; split; [lia|auto]]].
      destruct (lt_dec i (m + length p)) as [L'|L']; [|right; intros (k & H & R & O); destruct (Nat.eq_dec k m) as [->|]; [lia|apply IH; exists k; split; [lia|auto]]].
      destruct (occurs_dec p l m) as [O|O]; [left; exists m; repeat split; auto; lia|].
      right; intros (k & H & R & O'); destruct (Nat.eq_dec k m) as [->|]; [auto|apply IH; exists k; split; [lia|auto]]. }
  destruct (D (S i)) as [H|H].
  - left. destruct H as (k & _ & H). now exists k.
  - right. intros (k & R & O). apply H. exists k. repeat split; auto; lia.
Qed.

Section Replace.
  (** Two different strings of one length that begin with a character they do not have elsewhere *)
  Context (b : ascii) (old' new' : text).
  Let old := b :: old'.
  Let new := b :: new'.
  Hypothesis LEN : length new' = length old'.
  Hypothesis OLD : ~ In b old'.
  Hypothesis NEW : ~ In b new'.
  Hypothesis DIFF : new' <> old'.

  Lemma skip_from k l : replace_from k old new l = replace_from 0 old new (skipn k l).
  Proof. revert k; induction l as [|c l IH]; intros k; [destruct k; reflexivity|]. destruct k; [reflexivity|]. cbn [replace_from skipn]. apply IH. Qed.
  Lemma replace_hit r : replace old new (old ++ r) = new ++ replace old new r.
  Proof.
    assert (P : is_prefix old (old ++ r) = true) by (apply prefix_iff; now exists r).
    unfold replace. change (old ++ r) with (b :: (old' ++ r)) in *. cbn [replace_from]. rewrite P, skip_from. do 2 f_equal.
    change (length old - 1) with (S (length old') - 1). rewrite Nat.sub_succ, Nat.sub_0_r, skipn_app, Nat.sub_diag, skipn_O, skipn_all. reflexivity.
  Qed.
  Lemma replace_miss c l : is_prefix old (c :: l) = false -> replace old new (c :: l) = c :: replace old new l.
  Proof. intros H. unfold replace. cbn [replace_from]. now rewrite H. Qed.
  Lemma replace_ind (P : text -> text -> Prop) :
    P [] [] -> (forall r, P r (replace old new r) -> P (old ++ r) (new ++ replace old new r)) ->
    (forall c l, is_prefix old (c :: l) = false -> P l (replace old new l) -> P (c :: l) (c :: replace old new l)) ->
    forall l, P l (replace old new l).
  Proof.
    intros H0 H1 H2 l. remember (length l) as n eqn:E. revert l E. induction n as [n IH] using lt_wf_ind. intros l ->.
    destruct l as [|c l]; [exact H0|]. destruct (is_prefix old (c :: l)) eqn:E.
    - apply prefix_iff in E as (r & E). rewrite E, replace_hit. apply H1. apply (IH (length r)); auto. rewrite E. unfold old. rewrite app_length. cbn. lia.
    - rewrite replace_miss by assumption. apply H2; auto. apply (IH (length l)); cbn; auto.
  Qed.
  Lemma replace_len l : length (replace old new l) = length l.
  Proof.
    apply (replace_ind (fun l t => length t = length l)); [reflexivity| |].
    - intros r H. rewrite !app_length, H. unfold old, new. cbn. now rewrite LEN.
    - intros c l0 _ H. cbn. now rewrite H.
  Qed.
  Lemma not_head j t : ~ In b t -> nth_error (b :: t) (S j) <> Some b.
  Proof. intros H E. cbn in E. apply nth_error_In in E. auto. Qed.
  Lemma occurs_first p l k : p <> [] -> occurs p l k -> nth_error l k = nth_error p 0.
  Proof. intros Hp H. rewrite <- (H 0), Nat.add_0_r; [reflexivity|]. destruct p; [congruence|cbn; lia]. Qed.
  Lemma occurs_tail p a l k : length a <= k -> (occurs p (a ++ l) k <-> occurs p l (k - length a)).
  Proof.
    intros H. unfold occurs. split; intros O j Hj; specialize (O j Hj).
    - rewrite nth_error_app2 in O by lia. rewrite <- O. f_equal. lia.
    - rewrite nth_error_app2 by lia. rewrite <- O. f_equal. lia.
  Qed.
  Lemma replace_occurs l : forall k, occurs old l k -> occurs new (replace old new l) k.
  Proof.
    apply (replace_ind (fun l t => forall k, occurs old l k -> occurs new t k)).
    - intros k H. specialize (H 0). unfold old in H. cbn in H. specialize (H ltac:(lia)). destruct k; discriminate.
    - intros r IH k H. destruct (le_lt_dec (length old) k) as [L|L].
      + assert (E : length new = length old) by (unfold old, new; cbn; congruence).
        apply occurs_tail; [lia|]. rewrite E. apply IH. now apply occurs_tail in H.
      + destruct k as [|k].
        * intros j Hj. cbn [plus]. now rewrite nth_error_app1.
        * exfalso. apply occurs_first in H; [|discriminate]. rewrite nth_error_app1 in H by exact L. exact (not_head k old' OLD H).
    - intros c l0 M IH k H. destruct k as [|k].
      + exfalso. apply occurs_prefix in H as [H|H]; [|discriminate]. cbn [skipn] in H. congruence.
      + apply (occurs_tail new [c]); [cbn; lia|]. cbn [length]. rewrite Nat.sub_succ, Nat.sub_0_r. apply IH.
        apply (occurs_tail old [c]) in H; [|cbn; lia]. cbn [length] in H. now rewrite Nat.sub_succ, Nat.sub_0_r in H.
  Qed.
  Lemma replace_outside l : forall i, ~ covered old l i -> nth_error (replace old new l) i = nth_error l i.
  Proof.
    apply (replace_ind (fun l t => forall i, ~ covered old l i -> nth_error t i = nth_error l i)).
    - reflexivity.
    - intros r IH i H. assert (E : length new = length old) by (unfold old, new; cbn; congruence).
      destruct (le_lt_dec (length old) i) as [L|L].
      + rewrite !nth_error_app2 by lia. rewrite E. apply IH. intros (k & R & O). apply H. exists (k + length old). split; [lia|].
        apply occurs_tail; [lia|]. now replace (k + length old - length old) with k by lia.
      + exfalso. apply H. exists 0. split; [lia|]. intros j Hj. cbn [plus]. now rewrite nth_error_app1.
    - intros c l0 M IH i H. destruct i as [|i]; [reflexivity|]. cbn [nth_error]. apply IH. intros (k & R & O). apply H.
      exists (S k). split; [lia|]. apply (occurs_tail old [c]); [cbn; lia|]. cbn [length]. now rewrite Nat.sub_succ, Nat.sub_0_r.
  Qed.
  Lemma occurs_two t k : occurs old t k -> occurs new t k -> False.
  Proof.
    intros O N. apply DIFF. apply nth_ext with (d := b) (d' := b); [exact LEN|]. intros j Hj.
    specialize (O (S j)). specialize (N (S j)). unfold old, new in *. cbn in O, N. rewrite O in N by lia. specialize (N ltac:(lia)).
    rewrite (nth_error_nth' old' b) in N by lia. rewrite (nth_error_nth' new' b) in N by lia. congruence.
  Qed.
  Lemma replace_none l k : ~ occurs old (replace old new l) k.
  Proof.
    intros H. destruct (covered_dec old l k) as [(k' & R & O)|C].
    - pose proof (replace_occurs l k' O) as N. destruct (Nat.eq_dec k k') as [->|D]; [exact (occurs_two _ _ H N)|].
      assert (E : length new = length old) by (unfold old, new; cbn; congruence).
      apply occurs_first in H; [|discriminate]. specialize (N (k - k') ltac:(lia)). replace (k' + (k - k')) with k in N by lia.
      rewrite N in H. destruct (k - k') as [|d] eqn:Ed; [lia|]. exact (not_head d new' NEW H).
    - assert (A : forall j, j < length old -> ~ covered old l (k + j)).
      { induction j as [j IH] using lt_wf_ind. intros Hj (k' & R & O). destruct (le_lt_dec k' k) as [L|L].
        - apply C. exists k'. split; [lia|auto].
        - pose proof (replace_occurs l k' O) as N. apply occurs_first in N; [|discriminate].
          specialize (H (k' - k) ltac:(lia)). replace (k + (k' - k)) with k' in H by lia. rewrite N in H.
          destruct (k' - k) as [|d] eqn:Ed; [lia|]. symmetry in H. exact (not_head d old' OLD H). }
      apply C. exists k. split; [unfold old; cbn; lia|]. intros j Hj. rewrite <- (H j Hj). symmetry. apply replace_outside. now apply A.
  Qed.
  Lemma replace_fixed l : (forall k, ~ occurs old l k) -> replace old new l = l.
  Proof.
    induction l as [|c l IH]; intros H; [reflexivity|]. rewrite replace_miss.
    - f_equal. apply IH. intros k O. apply (H (S k)). apply (occurs_tail old [c]); [cbn; lia|]. cbn [length]. now rewrite Nat.sub_succ, Nat.sub_0_r.
    - destruct (is_prefix old (c :: l)) eqn:E; auto. exfalso. apply (H 0). apply occurs_prefix. now left.
  Qed.
  (** characters that occur in neither string are not touched *)
  Lemma replace_mask (f : ascii -> bool) l : (forall a, In a old -> f a = false) -> (forall a, In a new -> f a = false) ->
    map f (replace old new l) = map f l.
  Proof.
    intros FO FN. assert (Z : forall p, (forall a, In a p -> f a = false) -> map f p = repeat false (length p)).
    { induction p as [|a p IHp]; intros F; [reflexivity|]. cbn. rewrite (F a) by (cbn; auto). f_equal. apply IHp. intros; apply F; cbn; auto. }
    apply (replace_ind (fun l t => map f t = map f l)); [reflexivity| |].
    - intros r H. rewrite !map_app, H, (Z old FO), (Z new FN). unfold old, new. cbn. now rewrite LEN.
    - intros c l0 _ H. cbn. now rewrite H.
  Qed.

  Context (NLO : ~ In newline old) (NLN : ~ In newline new).
  Lemma prefix_line p a r : ~ In newline p -> is_prefix p (a ++ newline :: r) = is_prefix p a.
  Proof.
    revert a; induction p as [|x p IH]; intros a H; [reflexivity|]. destruct a as [|y a]; cbn [is_prefix app].
    - destruct (Ascii.eqb_spec x newline) as [->|]; [exfalso; apply H; cbn; auto|reflexivity].
    - rewrite IH; [reflexivity|]. intros I. apply H. cbn; auto.
  Qed.
  Lemma replace_line a r : replace old new (a ++ newline :: r) = replace old new a ++ newline :: replace old new r.
  Proof.
    remember (length a) as n eqn:E. revert a E. induction n as [n IH] using lt_wf_ind. intros a ->. destruct a as [|c a].
    - cbn [app]. rewrite replace_miss; [reflexivity|]. rewrite <- (app_nil_l (newline :: r)), prefix_line by assumption. reflexivity.
    - destruct (is_prefix old (c :: a)) eqn:E.
      + apply prefix_iff in E as (s & E). rewrite E, <- app_assoc, !replace_hit, <- app_assoc. f_equal. apply (IH (length s)); auto.
        rewrite E. unfold old. rewrite app_length. cbn. lia.
      + change ((c :: a) ++ newline :: r) with (c :: (a ++ newline :: r)). rewrite (replace_miss c (a ++ newline :: r)).
        * rewrite (replace_miss c a) by assumption. cbn [app]. f_equal. apply (IH (length a)); cbn; auto.
        * change (c :: a ++ newline :: r) with ((c :: a) ++ newline :: r). now rewrite prefix_line.
  Qed.
  Lemma split_cons l : l <> [] -> exists a r, split_lines l = a :: split_lines r /\
    ((exists a', a = a' ++ [newline] /\ l = a' ++ newline :: r) \/ (a = l /\ r = [])).
  Proof.
    induction l as [|c l IH]; [congruence|]. intros _. cbn [split_lines]. destruct (Ascii.eqb_spec c newline) as [->|N].
    - exists [newline], l. split; auto. left. exists []. auto.
    - destruct l as [|d l'].
      + exists [c], []. split; auto.
      + destruct IH as (a & r & E & C); [discriminate|]. rewrite E. exists (c :: a), r. split; auto. destruct C as [(a' & -> & E')|[-> ->]].
        * left. exists (c :: a'). split; auto. cbn. now rewrite E'.
        * right. auto.
  Qed.
  Lemma by_lines l : concat (map (replace old new) (split_lines l)) = replace old new l.
  Proof.
    remember (length l) as n eqn:E. revert l E. induction n as [n IH] using lt_wf_ind. intros l ->. destruct l as [|c l]; [reflexivity|].
    destruct (split_cons (c :: l)) as (a & r & E & C); [discriminate|]. rewrite E. cbn [map concat]. destruct C as [(a' & -> & E')|[-> ->]].
    - rewrite (IH (length r)); auto; [|rewrite E', app_length; cbn; lia]. rewrite E', !replace_line. rewrite <- app_assoc. reflexivity.
    - cbn. apply app_nil_r.
  Qed.
End Replace.

Lemma split_mask l l' : map (Ascii.eqb newline) l = map (Ascii.eqb newline) l' -> length (split_lines l) = length (split_lines l').
Proof.
  assert (N : forall c, (c =? newline)%char = (newline =? c)%char) by (intros; apply Ascii.eqb_sym).
  revert l'; induction l as [|c l IH]; intros [|c' l'] E; try discriminate; [reflexivity|].
  cbn [map] in E. pose proof (f_equal (hd false) E) as E1. pose proof (f_equal (@tl bool) E) as E2. cbn [hd tl] in E1, E2. clear E. cbn [split_lines]. rewrite (N c), (N c'), E1. specialize (IH l' E2).
  destruct (newline =? c')%char; [cbn; now rewrite IH|].
  destruct (split_lines l), (split_lines l'); cbn in *; congruence || lia.
Qed.
Local Opaque newline creturn.
Lemma no_cr l : ~ In creturn l -> universal_newlines l = l.
Proof.
  induction l as [|c l IH]; intros H; [reflexivity|]. cbn. destruct (Ascii.eqb_spec c creturn) as [->|N]; [exfalso; apply H; cbn; auto|].
  f_equal. apply IH. intros I; apply H; cbn; auto.
Qed.
Lemma cr_gone l : ~ In creturn (universal_newlines l).
Proof.
  remember (length l) as n eqn:E. revert l E. induction n as [n IH] using lt_wf_ind. intros l ->. destruct l as [|c l]; [auto|]. cbn.
  assert (NC : newline <> creturn) by discriminate.
  destruct (Ascii.eqb_spec c creturn) as [->|N].
  - destruct l as [|d l']; [intros [E|[]]; auto|]. destruct (Ascii.eqb d newline).
    + intros [E|I]; auto. revert I. apply (IH (length l')); cbn; auto.
    + intros [E|I]; auto. revert I. apply (IH (length (d :: l'))); cbn; auto.
  - intros [E|I]; auto. revert I. apply (IH (length l)); cbn; auto.
Qed.

Transparent newline creturn.
(** The two headers *)
Definition v22 : text := tl version22.
Definition v10 : text := tl version10.
Definition lt_char : ascii := "<"%char.
Lemma v22_eq : version22 = lt_char :: v22. Proof. reflexivity. Qed.
Lemma v10_eq : version10 = lt_char :: v10. Proof. reflexivity. Qed.
Lemma v_len : length v10 = length v22. Proof. reflexivity. Qed.
Ltac notin := let H := fresh in intros H; vm_compute in H; repeat (destruct H as [H|H]; [discriminate|]); exact H.
Lemma v22_lt : ~ In lt_char v22. Proof. notin. Qed.
Lemma v10_lt : ~ In lt_char v10. Proof. notin. Qed.
Lemma v_diff : v10 <> v22. Proof. vm_compute. discriminate. Qed.
Lemma v22_nl : ~ In newline (lt_char :: v22). Proof. notin. Qed.
Lemma v10_nl : ~ In newline (lt_char :: v10). Proof. notin. Qed.
Lemma v22_cr : ~ In creturn (lt_char :: v22). Proof. notin. Qed.
Lemma v10_cr : ~ In creturn (lt_char :: v10). Proof. notin. Qed.

Definition rewritten (X : text) : text := replace version22 version10 X.
Lemma rewritten_spec X :
  length (rewritten X) = length X /\
  (forall k, occurs version22 X k -> occurs version10 (rewritten X) k) /\
  (forall i, ~ covered version22 X i -> nth_error (rewritten X) i = nth_error X i) /\
  (forall k, ~ occurs version22 (rewritten X) k) /\
  length (split_lines (rewritten X)) = length (split_lines X).
Proof.
  unfold rewritten. rewrite v22_eq, v10_eq. split; [apply replace_len, v_len|]. split; [intros k; apply replace_occurs; [apply v_len|apply v22_lt]|].
  split; [intros i; apply replace_outside; apply v_len|]. split; [intros k; apply replace_none; [apply v_len|apply v22_lt|apply v10_lt|apply v_diff]|].
  apply split_mask. apply replace_mask; [apply v_len| |]; intros a Ha; apply Ascii.eqb_neq; intros <-; revert Ha; [apply v22_nl|apply v10_nl].
Qed.
Lemma rewritten_lines X : concat (map (replace version22 version10) (split_lines X)) = rewritten X.
Proof. unfold rewritten. rewrite v22_eq, v10_eq. apply by_lines; first [apply v_len|apply v22_nl|apply v10_nl|apply v22_lt|apply v10_lt|apply v_diff]. Qed.
Lemma rewritten_again X : rewritten (rewritten X) = rewritten X.
Proof.
  pose proof (rewritten_spec X) as (_ & _ & _ & N & _). unfold rewritten at 1. rewrite v22_eq at 1. rewrite v10_eq at 1. apply replace_fixed; try apply v_len.
  intros k. rewrite <- v22_eq. apply N.
Qed.
Lemma rewritten_cr X : ~ In creturn X -> ~ In creturn (rewritten X).
Proof.
  intros H I. apply H. apply In_nth_error in I as (i & E).
  assert (M : map (Ascii.eqb creturn) (rewritten X) = map (Ascii.eqb creturn) X).
  { unfold rewritten. rewrite v22_eq, v10_eq. apply replace_mask; [apply v_len| |]; intros a Ha; apply Ascii.eqb_neq; intros <-; revert Ha; [apply v22_cr|apply v10_cr]. }
  assert (F : nth_error (map (Ascii.eqb creturn) X) i = Some true) by (rewrite <- M, nth_error_map, E; cbn; reflexivity).
  rewrite nth_error_map in F. destruct (nth_error X i) as [a|] eqn:G; [|discriminate]. cbn [option_map] in F. assert (F' : Ascii.eqb creturn a = true) by congruence. apply Ascii.eqb_eq in F'. subst.
  eapply nth_error_In; eauto.
Qed.

Lemma modify_result inp out w content : w_files w inp = Some content -> inp <> out -> can_write w out = true ->
  modify_vtu_file inp out w = (Ok tt, set_file out (rewritten (universal_newlines content)) (set_file out [] w)).
Proof.
  intros H D C. unfold modify_vtu_file. rewrite H, C. cbn [set_file w_files]. destruct (String.eqb_spec inp out); [congruence|].
  rewrite H, rewritten_lines. reflexivity.
Qed.

(** Saving *)
Lemma entry_assign {V} (d : list (string * V)) k v k' : entry (assign d k v) k' = if String.eqb k k' then Some v else entry d k'.
Proof.
  unfold entry. induction d as [|[a x] d IH]; cbn; [now destruct (String.eqb k k')|].
  destruct (String.eqb_spec k a) as [->|N]; cbn; [now destruct (String.eqb a k')|].
  destruct (String.eqb_spec a k') as [->|N']; cbn; [|exact IH]. destruct (String.eqb_spec k k'); [congruence|reflexivity].
Qed.
Lemma keys_assign {V} (d : list (string * V)) k v : NoDup (map fst d) -> NoDup (map fst (assign d k v)).
Proof.
  induction d as [|[a x] d IH]; cbn; intros H; [constructor; [auto|constructor]|].
  destruct (String.eqb_spec k a) as [->|N]; cbn; [exact H|]. inversion H as [|? ? Ha Hd]; subst. constructor; [|auto].
  intros I. apply Ha. clear - I N. induction d as [|[c y] d IH]; cbn in *; [intuition congruence|].
  destruct (String.eqb k c); cbn in *; [exact I|]. destruct I as [I|I]; auto.
Qed.
Lemma find_app' {A} (f : A -> bool) l m : find f (l ++ m) = match find f l with Some x => Some x | None => find f m end.
Proof. induction l as [|a l IH]; [reflexivity|]. cbn. destruct (f a); auto. Qed.
Lemma last_cons {V} (e : string * V) l k : last_named (e :: l) k =
  match last_named l k with Some v => Some v | None => if String.eqb (fst e) k then Some (snd e) else None end.
Proof.
  unfold last_named, entry. cbn [rev]. rewrite find_app'. destruct (find _ (rev l)); [reflexivity|]. cbn. now destruct (String.eqb (fst e) k).
Qed.

Section SaveFacts.
  Context {X : Type} (f32 : X -> X).
  Notation good_cell n a := (a_shape a = [n]).
  Lemma add_cells_ok n l (m : vtk X) : (forall e, In e l -> good_cell n (snd e)) -> exists m', add_cells f32 n l m = Ok m' /\
    v_points m' = v_points m /\ v_type m' = v_type m /\ v_cells m' = v_cells m /\ v_point_data m' = v_point_data m /\
    (NoDup (map fst (v_cell_data m)) -> NoDup (map fst (v_cell_data m'))) /\
    forall k, entry (v_cell_data m') k = match last_named l k with Some a => Some [as_float32 f32 a] | None => entry (v_cell_data m) k end.
  Proof.
    revert m; induction l as [|[name a] l IH]; intros m H.
    - exists m. cbn. repeat split; auto.
    - cbn [add_cells]. unfold shape_is. pose proof (H (name, a) (or_introl eq_refl)) as HH. cbn [snd] in HH. rewrite HH. destruct (list_eq_dec _ _ _); [|congruence].
      destruct (IH (mkVtk (v_points m) (v_type m) (v_cells m) (v_point_data m) (assign (v_cell_data m) name [as_float32 f32 a]))) as (m' & E & A & B & C & D & F & G);
        [intros; apply H; cbn; auto|].
      exists m'. repeat split; auto.
      + intros ND. apply F. now apply keys_assign.
      + intros k. rewrite G, last_cons. cbn [fst snd]. destruct (last_named l k); [reflexivity|]. cbn [v_cell_data]. rewrite entry_assign.
        destruct (String.eqb name k); reflexivity.
  Qed.
  Lemma add_cells_bad n l (m : vtk X) e : In e l -> a_shape (snd e) <> [n] -> add_cells f32 n l m = Err AssertionErr.
  Proof.
    revert m; induction l as [|[name a] l IH]; intros m I H; [destruct I|]. cbn [add_cells]. unfold shape_is. destruct (list_eq_dec _ _ _) as [E|]; [|reflexivity].
    apply IH; auto. destruct I as [<-|I]; [now cbn in H|exact I].
  Qed.
  Lemma add_points_ok sol l (m : vtk X) : (forall e, In e l -> good_point sol (snd e)) -> exists m', add_points f32 sol l m = Ok m' /\
    v_points m' = v_points m /\ v_type m' = v_type m /\ v_cells m' = v_cells m /\ v_cell_data m' = v_cell_data m /\
    (NoDup (map fst (v_point_data m)) -> NoDup (map fst (v_point_data m'))) /\
    forall k, entry (v_point_data m') k = match last_named l k with Some a => Some (as_float32 f32 a) | None => entry (v_point_data m) k end.
  Proof.
    revert m; induction l as [|[name a] l IH]; intros m H.
    - exists m. cbn. repeat split; auto.
    - cbn [add_points]. destruct (H (name, a)) as (n & s & s' & E1 & E2); [cbn; auto|]. cbn [snd] in E1. unfold len. rewrite E1, E2. cbn [bind]. rewrite Nat.eqb_refl.
      destruct (IH (mkVtk (v_points m) (v_type m) (v_cells m) (assign (v_point_data m) name (as_float32 f32 a)) (v_cell_data m))) as (m' & E & A & B & C & D & F & G);
        [intros; apply H; cbn; auto|].
      exists m'. repeat split; auto.
      + intros ND. apply F. now apply keys_assign.
      + intros k. rewrite G, last_cons. cbn [fst snd]. destruct (last_named l k); [reflexivity|]. cbn [v_point_data]. rewrite entry_assign.
        destruct (String.eqb name k); reflexivity.
  Qed.
  Lemma add_points_bad sol l (m : vtk X) e : In e l -> ~ good_point sol (snd e) -> exists x, add_points f32 sol l m = Err x.
  Proof.
    revert m; induction l as [|[name a] l IH]; intros m I H; [destruct I|]. cbn [add_points]. unfold len.
    destruct (a_shape a) as [|n s] eqn:E1; [cbn; eauto|]. destruct (a_shape sol) as [|n' s'] eqn:E2; [cbn; eauto|]. cbn [bind].
    destruct (Nat.eqb_spec n n') as [->|]; [|eauto]. apply IH; auto. destruct I as [<-|I]; [|exact I].
    exfalso. apply H. cbn. exists n', s, s'. auto.
  Qed.

  Context (encode : string -> vtk X -> result text) (ele_type cell_type : string) (points : list (list X)) (cells : list (list nat))
    (sol : array X) (path : string) (cell_infos point_infos : option (list (string * array X))) (w : world).
  Theorem save_unknown e : get_meshio_cell_type ele_type = Err e ->
    save_sol f32 encode ele_type points cells sol path cell_infos point_infos w = (Err e, w).
  Proof. intros H. unfold save_sol. now rewrite H. Qed.
  Theorem save_bare : get_meshio_cell_type ele_type = Ok cell_type -> dirname path = ""%string ->
    save_sol f32 encode ele_type points cells sol path cell_infos point_infos w = (Err OSErr, w).
  Proof. intros H D. unfold save_sol. rewrite H, D. reflexivity. Qed.
  Theorem save_invalid : 
    (exists e, In e (items cell_infos) /\ a_shape (snd e) <> [length cells]) \/ (exists e, In e (items point_infos) /\ ~ good_point sol (snd e)) ->
    exists e w', save_sol f32 encode ele_type points cells sol path cell_infos point_infos w = (Err e, w') /\ forall p, w_files w' p = w_files w p.
  Proof.
    intros H. unfold save_sol. destruct (get_meshio_cell_type ele_type) as [ct|e]; [|eauto].
    unfold makedirs. destruct (String.eqb (dirname path) ""); [eauto|]. destruct (w_files w (dirname path)); [eauto|].
    set (m := mkVtk _ _ _ _ _). destruct H as [(e & I & B)|(e & I & B)].
    - destruct cell_infos as [l|]; [|destruct I]. cbn [items] in I. rewrite (add_cells_bad _ _ m e I B). eauto.
    - destruct (match cell_infos with Some l => add_cells f32 (length cells) l m | None => Ok m end) as [m1|x]; [|eauto].
      destruct point_infos as [l|]; [|destruct I]. cbn [items] in I. destruct (add_points_bad sol l m1 e I B) as [x ->]. eauto.
  Qed.
  Theorem save_valid : get_meshio_cell_type ele_type = Ok cell_type -> dirname path <> ""%string -> w_files w (dirname path) = None ->
    (forall e, In e (items cell_infos) -> a_shape (snd e) = [length cells]) -> (forall e, In e (items point_infos) -> good_point sol (snd e)) ->
    exists m, save_sol f32 encode ele_type points cells sol path cell_infos point_infos w = write encode path m (add_dir (dirname path) w) /\
      v_points m = points /\ v_type m = cell_type /\ v_cells m = cells /\
      NoDup (map fst (v_point_data m)) /\ NoDup (map fst (v_cell_data m)) /\
      (forall k, entry (v_cell_data m) k = match last_named (items cell_infos) k with Some a => Some [as_float32 f32 a] | None => None end) /\
      (forall k, entry (v_point_data m) k = match last_named (items point_infos) k with
                                            | Some a => Some (as_float32 f32 a)
                                            | None => if String.eqb k "sol" then Some (as_float32 f32 sol) else None end).
  Proof.
    intros T D F HC HP. unfold save_sol. rewrite T. unfold makedirs. destruct (String.eqb_spec (dirname path) ""); [congruence|]. rewrite F.
    set (m := mkVtk points cell_type cells [("sol"%string, as_float32 f32 sol)] []).
    assert (C : exists m1, (match cell_infos with Some l => add_cells f32 (length cells) l m | None => Ok m end) = Ok m1 /\
      v_points m1 = points /\ v_type m1 = cell_type /\ v_cells m1 = cells /\ v_point_data m1 = v_point_data m /\ NoDup (map fst (v_cell_data m1)) /\
      forall k, entry (v_cell_data m1) k = match last_named (items cell_infos) k with Some a => Some [as_float32 f32 a] | None => None end).
    { destruct cell_infos as [l|].
      - destruct (add_cells_ok (length cells) l m HC) as (m' & E & A & B & C & D' & F' & G). exists m'. repeat split; auto. apply F'. constructor.
      - exists m. repeat split; auto. constructor. }
    destruct C as (m1 & -> & A1 & B1 & C1 & D1 & F1 & G1).
    assert (N0 : NoDup (map fst (v_point_data m1))) by (rewrite D1; cbn; constructor; [auto|constructor]).
    assert (S0 : forall k, entry (v_point_data m1) k = if String.eqb k "sol" then Some (as_float32 f32 sol) else None).
    { intros k. rewrite D1. unfold entry. cbn [v_point_data m find fst snd]. rewrite String.eqb_sym. now destruct (String.eqb k "sol"). }
    destruct point_infos as [l|].
    - destruct (add_points_ok sol l m1 HP) as (m' & E & A & B & C & D' & F' & G). rewrite E. exists m'.
      repeat split; try congruence; [now apply F'|intros k; now rewrite D'|intros k; now rewrite G, S0].
    - exists m1. repeat split; auto.
  Qed.
End SaveFacts.

(** Timing *)
Section TimingFacts.
  Context {A : Type} (clock : nat -> R) (show4 show : R -> text).
  Theorem timeit_transparent name (func : call A) w r w' : func (tick w) = (r, w') ->
    exists w'', timeit clock show4 name func w = (r, w'') /\ w_files w'' = w_files w' /\ w_dirs w'' = w_dirs w' /\
      w_log w'' = w_log w' ++ match r with
    | Ok _ => [str "Function " ++ name ++ str " took " ++ show4 (clock (w_tick w') - clock (w_tick w))%R ++ str " seconds"]
    | Err _ => []
    end.
  Proof.
    intros H. unfold timeit, now. rewrite H. destruct r as [a|e].
    - eexists. split; [reflexivity|]. cbn. repeat split.
    - eexists. split; [reflexivity|]. repeat split. now rewrite app_nil_r.
  Qed.
  Theorem walltime_error platform dir file name (func : call A) w e w' : func (tick w) = (Err e, w') ->
    walltime clock show platform dir file name func w = (Err e, w').
  Proof. intros H. unfold walltime, now. now rewrite H. Qed.
  Theorem walltime_plain p file name (func : call A) w a w' : func (tick w) = (Ok a, w') ->
    exists w'', walltime clock show (Ok p) None file name func w = (Ok a, w'') /\ w_files w'' = w_files w'.
  Proof. intros H. unfold walltime, now. rewrite H. eexists. split; reflexivity. Qed.
  Theorem walltime_file p d file name (func : call A) w a w' : func (tick w) = (Ok a, w') ->
    let path := path_join d ((match file with Some f => f | None => "walltime"%string end) ++ "_" ++ p ++ ".txt") in
    d <> ""%string -> w_files w' d = None -> dirname path = d ->
    exists w'', walltime clock show (Ok p) (Some d) file name func w = (Ok a, w'') /\ w_dirs w'' d = true /\
      (forall q, q <> path -> w_files w'' q = w_files w' q) /\
      let t0 := clock (w_tick w) in let t1 := clock (w_tick w') in
      w_files w'' path = Some (show t0 ++ str ", " ++ show t1 ++ str ", " ++ show (t1 - t0)%R ++ [newline]).
  Proof.
    intros H path D F P. unfold walltime, now. rewrite H. unfold makedirs. destruct (String.eqb_spec d ""); [congruence|].
    cbn [add_log tick w_files]. rewrite F. fold path. unfold can_write. rewrite P. cbn [add_dir w_dirs]. rewrite String.eqb_refl. cbn [orb]. rewrite orb_true_r.
    eexists. split; [reflexivity|]. cbn. rewrite String.eqb_refl. repeat split.
    - intros q Hq. destruct (String.eqb_spec q path); [congruence|reflexivity].
    - now rewrite String.eqb_refl.
  Qed.
End TimingFacts.

(** Logging *)
Definition own (st : logging) (n : string) := l_handlers (loggers st n).
Lemma setup_handlers st name n : own (setup_logger name st) n =
  if String.eqb n name then match own st n with [] => [mkHandler (next_id st) true] | _ => own st n end else own st n.
Proof.
  unfold own, setup_logger, set_level, set_logger. cbn [loggers next_id].
  destruct (String.eqb_spec name "jax") as [->|N1]; [|destruct (String.eqb_spec name "tensorflow") as [->|N2]]; cbn [loggers next_id l_handlers l_level l_propagate];
    rewrite ?String.eqb_refl; repeat match goal with |- context[String.eqb ?a ?b] => destruct (String.eqb_spec a b); try congruence; subst; cbn [l_handlers l_level l_propagate] end;
    repeat match goal with |- context[match l_handlers ?x with _ => _ end] => destruct (l_handlers x) eqn:?; cbn [loggers next_id l_handlers l_level l_propagate] end;
    rewrite ?String.eqb_refl; repeat match goal with |- context[String.eqb ?a ?b] => destruct (String.eqb_spec a b); try congruence; subst; cbn [l_handlers l_level l_propagate] end; try congruence; auto.
Qed.
Lemma setup_propagate st name n : l_propagate (loggers (setup_logger name st) n) =
  if String.eqb n name then match own st n with [] => false | _ => l_propagate (loggers st n) end else l_propagate (loggers st n).
Proof.
  unfold own, setup_logger, set_level, set_logger. cbn [loggers next_id].
  destruct (String.eqb_spec name "jax") as [->|N1]; [|destruct (String.eqb_spec name "tensorflow") as [->|N2]]; cbn [loggers next_id l_handlers l_level l_propagate];
    rewrite ?String.eqb_refl; repeat match goal with |- context[String.eqb ?a ?b] => destruct (String.eqb_spec a b); try congruence; subst; cbn [l_handlers l_level l_propagate] end;
    repeat match goal with |- context[match l_handlers ?x with _ => _ end] => destruct (l_handlers x) eqn:?; cbn [loggers next_id l_handlers l_level l_propagate] end;
    rewrite ?String.eqb_refl; repeat match goal with |- context[String.eqb ?a ?b] => destruct (String.eqb_spec a b); try congruence; subst; cbn [l_handlers l_level l_propagate] end; try congruence; auto.
Qed.
Lemma setup_level st name n : l_level (loggers (setup_logger name st) n) =
  if String.eqb n "tensorflow" || String.eqb n "jax" then ERROR else if String.eqb n name then DEBUG else l_level (loggers st n).
Proof.
  unfold setup_logger. set (st3 := set_level "jax" ERROR (set_level "tensorflow" ERROR (set_level name DEBUG st))).
  assert (E : l_level (loggers st3 n) = if String.eqb n "tensorflow" || String.eqb n "jax" then ERROR else if String.eqb n name then DEBUG else l_level (loggers st n)).
  { unfold st3, set_level, set_logger. cbn [loggers]. destruct (String.eqb_spec n "jax") as [->|]; [reflexivity|].
    destruct (String.eqb_spec n "tensorflow") as [->|]; [reflexivity|]. cbn [orb]. now destruct (String.eqb n name). }
  rewrite <- E. cbv zeta. cbn [loggers next_id]. destruct (l_handlers (loggers st3 name)); [|reflexivity].
  unfold set_logger. cbn [loggers]. destruct (String.eqb_spec n name) as [->|]; reflexivity.
Qed.
Lemma setup_id st name : next_id (setup_logger name st) = S (next_id st).
Proof. unfold setup_logger. cbv zeta. cbn [loggers next_id set_level set_logger]. now destruct (l_handlers _). Qed.

Definition run_setups (names : list string) (st : logging) : logging := fold_left (fun st n => setup_logger n st) names st.
Theorem setups_kept names st n : own st n <> [] \/ ~ In n names -> own (run_setups names st) n = own st n /\
  l_propagate (loggers (run_setups names st) n) = l_propagate (loggers st n).
Proof.
  revert st; induction names as [|a names IH]; intros st H; [split; reflexivity|]. cbn [run_setups fold_left].
  assert (E : own (setup_logger a st) n = own st n /\ l_propagate (loggers (setup_logger a st) n) = l_propagate (loggers st n)).
  { rewrite setup_handlers, setup_propagate. destruct (String.eqb_spec n a) as [->|D]; [|auto]. destruct H as [H|H]; [|exfalso; apply H; cbn; auto].
    destruct (own st a); [congruence|auto]. }
  destruct E as [E1 E2]. destruct (IH (setup_logger a st)) as [F1 F2].
  - rewrite E1. destruct H as [H|H]; [now left|right; intros I; apply H; cbn; auto].
  - unfold run_setups in *. now rewrite F1, F2, E1, E2.
Qed.
Theorem setups_one names st n : own st n = [] -> In n names -> exists h, own (run_setups names st) n = [h] /\ h_formatted h = true /\
  l_propagate (loggers (run_setups names st) n) = false.
Proof.
  revert st; induction names as [|a names IH]; intros st H I; [destruct I|]. cbn [run_setups fold_left].
  destruct (String.eqb_spec n a) as [->|D].
  - destruct (setups_kept names (setup_logger a st) a) as [E F].
    + left. rewrite setup_handlers, String.eqb_refl, H. discriminate.
    + unfold run_setups in *. rewrite E, F, setup_handlers, setup_propagate, String.eqb_refl, H. eauto.
  - apply IH; [|destruct I; congruence || auto]. rewrite setup_handlers. destruct (String.eqb_spec n a); [congruence|auto].
Qed.
Theorem setups_levels names st n : 
  (n = "tensorflow"%string \/ n = "jax"%string -> names <> [] -> l_level (loggers (run_setups names st) n) = ERROR) /\
  (n <> "tensorflow"%string -> n <> "jax"%string -> l_level (loggers (run_setups names st) n) = if in_dec string_dec n names then DEBUG else l_level (loggers st n)).
Proof.
  split.
  - intros H. destruct names as [|a names] using rev_ind; [congruence|]. intros _. unfold run_setups. rewrite fold_left_app. cbn [fold_left]. rewrite setup_level.
    destruct H as [-> | ->]; reflexivity.
  - intros N1 N2. induction names as [|a names IH] using rev_ind; [reflexivity|]. unfold run_setups in *. rewrite fold_left_app. cbn [fold_left]. rewrite setup_level.
    destruct (String.eqb_spec n "tensorflow"); [congruence|]. destruct (String.eqb_spec n "jax"); [congruence|]. cbn [orb].
    destruct (in_dec string_dec n (names ++ [a])) as [I|I]; rewrite in_app_iff in I; cbn in I.
    + destruct (String.eqb_spec n a); [reflexivity|]. rewrite IH. destruct (in_dec string_dec n names); [reflexivity|]. intuition congruence.
    + destruct (String.eqb_spec n a); [intuition congruence|]. rewrite IH. destruct (in_dec string_dec n names); [tauto|reflexivity].
Qed.

(** Paths *)
Lemma str_app a b : str (a ++ b) = (str a ++ str b)%list.
Proof. unfold str. induction a as [|c a IH]; cbn [append list_ascii_of_string app]; [reflexivity|]. now rewrite IH. Qed.
Lemma drop_all {A} (f : A -> bool) l m : (forall a, In a l -> f a = true) -> drop_while f (l ++ m) = drop_while f m.
Proof. intros H. induction l as [|a l IH]; [reflexivity|]. cbn. rewrite (H a) by (cbn; auto). apply IH. intros; apply H; cbn; auto. Qed.
Theorem dirname_join d f : d <> ""%string -> last (str d) slash <> slash -> ~ In slash (str f) -> f <> ""%string -> dirname (path_join d f) = d.
Proof.
  intros D L F N.
  assert (RD : exists e r, rev (str d) = e :: r /\ e <> slash).
  { destruct (rev (str d)) as [|e r] eqn:E.
    - exfalso. apply D. apply (f_equal (@rev ascii)) in E. rewrite rev_involutive in E. destruct d; [reflexivity|discriminate].
    - exists e, r. split; auto. intros ->. apply L. apply (f_equal (@rev ascii)) in E. rewrite rev_involutive in E. rewrite E. cbn. apply last_last. }
  destruct RD as (e & r & RE & ES).
  assert (J : path_join d f = (d ++ "/" ++ f)%string).
  { unfold path_join. rewrite RE. destruct (str f) as [|c t] eqn:SF; [destruct f; [congruence|discriminate]|].
    destruct (Ascii.eqb_spec c slash) as [->|_]; [exfalso; apply F; cbn; auto|]. destruct (Ascii.eqb_spec e slash); [congruence|reflexivity]. }
  rewrite J. unfold dirname. rewrite !str_app, !rev_app_distr. cbn [str list_ascii_of_string rev app]. rewrite <- app_assoc.
  rewrite drop_all by (intros a Ha; apply in_rev in Ha; destruct (Ascii.eqb_spec a slash) as [->|]; [contradiction|reflexivity]).
  cbn [app drop_while]. change (Ascii.eqb "/" slash) with true. cbn [negb]. rewrite rev_involutive. cbn [drop_while]. change (Ascii.eqb "/" slash) with true. cbv iota.
  rewrite RE. cbn [drop_while]. destruct (Ascii.eqb_spec e slash); [congruence|]. rewrite <- RE, rev_involutive.
  destruct (str d) eqn:SD; [destruct d; [congruence|discriminate]|]. rewrite <- SD. apply string_of_list_ascii_of_string.
Qed.
Lemma join_plain d f : d <> ""%string -> last (str d) slash <> slash -> ~ In slash (str f) -> f <> ""%string -> path_join d f = (d ++ "/" ++ f)%string.
Proof.
  intros D L F N. unfold path_join. destruct (rev (str d)) as [|e r] eqn:E.
  - exfalso. apply D. apply (f_equal (@rev ascii)) in E. rewrite rev_involutive in E. destruct d; [reflexivity|discriminate].
  - destruct (str f) as [|c t] eqn:SF; [destruct f; [congruence|discriminate]|].
    destruct (Ascii.eqb_spec c slash) as [->|_]; [exfalso; apply F; cbn; auto|].
    destruct (Ascii.eqb_spec e slash) as [->|]; [|reflexivity]. exfalso. apply L. apply (f_equal (@rev ascii)) in E. rewrite rev_involutive in E. rewrite E. apply last_last.
Qed.
Section MoreTiming.
  Context {A : Type} (clock : nat -> R) (show : R -> text).
  Theorem walltime_writes p d file name (func : call A) w a w' : func (tick w) = (Ok a, w') ->
    let fname := match file with Some f => f | None => "walltime"%string end in
    d <> ""%string -> last (str d) "/"%char <> "/"%char -> w_files w' d = None ->
    ~ In "/"%char (str (fname ++ "_" ++ p ++ ".txt")) ->
    let path := (d ++ "/" ++ fname ++ "_" ++ p ++ ".txt")%string in
    exists w'', walltime clock show (Ok p) (Some d) file name func w = (Ok a, w'') /\ w_dirs w'' d = true /\
    (forall q, q <> path -> w_files w'' q = w_files w' q) /\
    let t0 := clock (w_tick w) in let t1 := clock (w_tick w') in
    w_files w'' path = Some (show t0 ++ str ", " ++ show t1 ++ str ", " ++ show (t1 - t0)%R ++ [newline]).
  Proof.
    intros H fname D L F S path.
    assert (N : (fname ++ "_" ++ p ++ ".txt")%string <> ""%string) by (destruct fname; discriminate).
    pose proof (walltime_file clock show p d file name func w a w' H) as W. cbv zeta in W. fold fname in W.
    rewrite (join_plain d (fname ++ "_" ++ p ++ ".txt") D L S N) in W. apply W; auto.
    rewrite <- (join_plain d (fname ++ "_" ++ p ++ ".txt") D L S N). now apply dirname_join.
  Qed.
  Theorem walltime_platform dir file name (func : call A) w a w' e : func (tick w) = (Ok a, w') ->
    fst (walltime clock show (Err e) dir file name func w) = Err e.
  Proof. intros H. unfold walltime, now. now rewrite H. Qed.
End MoreTiming.

Theorem modify_only_header input output w content :
  w_files w input = Some content -> input <> output -> can_write w output = true -> ~ In creturn content ->
  exists w' T, modify_vtu_file input output w = (Ok tt, w') /\ w_files w' output = Some T /\
  (forall p, p <> output -> w_files w' p = w_files w p) /\
  length T = length content /\ length (split_lines T) = length (split_lines content) /\
  (forall k, occurs version22 content k -> occurs version10 T k) /\
  (forall i, ~ covered version22 content i -> nth_error T i = nth_error content i) /\
  (forall k, ~ occurs version22 T k).
Proof.
  intros H D C N. rewrite (modify_result input output w content H D C), (no_cr content N). do 2 eexists. split; [reflexivity|].
  destruct (rewritten_spec content) as (A1 & A2 & A3 & A4 & A5). split; [cbn; now rewrite String.eqb_refl|]. split; [|repeat split; auto].
  intros p Hp. cbn. destruct (String.eqb_spec p output); [congruence|reflexivity].
Qed.
Lemma can_write_set w p t q : can_write (set_file p t w) q = can_write w q.
Proof. reflexivity. Qed.
Theorem modify_newlines input output w content :
  w_files w input = Some content -> input <> output -> can_write w output = true ->
  w_files (snd (modify_vtu_file input output w)) output
  = w_files (snd (modify_vtu_file input output (set_file input (universal_newlines content) w))) output.
Proof.
  intros H D C. rewrite (modify_result input output w content H D C).
  rewrite (modify_result input output (set_file input (universal_newlines content) w) (universal_newlines content));
    [|cbn; now rewrite String.eqb_refl|exact D|exact C].
  cbn [snd set_file w_files]. rewrite String.eqb_refl, (no_cr (universal_newlines content) (cr_gone content)). reflexivity.
Qed.
Theorem modify_idempotent input output output2 w content :
  w_files w input = Some content -> input <> output -> output <> output2 -> can_write w output = true -> can_write w output2 = true ->
  exists w1 w2, modify_vtu_file input output w = (Ok tt, w1) /\ modify_vtu_file output output2 w1 = (Ok tt, w2) /\
  w_files w2 output2 = w_files w1 output.
Proof.
  intros H D D2 C C2. rewrite (modify_result input output w content H D C). set (T := rewritten (universal_newlines content)).
  do 2 eexists. split; [reflexivity|]. split; [apply (modify_result output output2 _ T); [cbn; now rewrite String.eqb_refl|exact D2|exact C2]|].
  cbn [set_file w_files]. rewrite !String.eqb_refl. f_equal. rewrite no_cr by (apply rewritten_cr, cr_gone). apply rewritten_again.
Qed.
Theorem modify_in_place path w content : w_files w path = Some content -> can_write w path = true ->
  exists w', modify_vtu_file path path w = (Ok tt, w') /\ w_files w' path = Some [].
Proof.
  intros H C. unfold modify_vtu_file. rewrite H, C. cbn [set_file w_files]. rewrite String.eqb_refl. eexists. split; [reflexivity|].
  cbn. now rewrite String.eqb_refl.
Qed.
Theorem modify_missing input output w : w_files w input = None -> modify_vtu_file input output w = (Err OSErr, w).
Proof. intros H. unfold modify_vtu_file. now rewrite H. Qed.
