(** Proofs for C71. *)
From Coq Require Import List Arith Lia Bool Permutation Sorting.Sorted.
From Verif Require Import Num Arr ArrFacts Fe Problem BatchFacts ProblemFacts Quiet SpecQuiet.
Import ListNotations.

(** ** Sorting *)
Lemma insert_perm x l : Permutation (insert x l) (x :: l).
Proof. induction l as [|y l IH]; [reflexivity|]. cbn. destruct (x <=? y); [reflexivity|]. rewrite IH. apply perm_swap. Qed.
Lemma sort_perm l : Permutation (sort l) l.
Proof. induction l as [|x l IH]; [reflexivity|]. cbn. rewrite insert_perm. now constructor. Qed.
Lemma insert_sorted x l : StronglySorted le l -> StronglySorted le (insert x l).
Proof.
  induction 1 as [|y l S IH F]; [repeat constructor|]. cbn. destruct (x <=? y) eqn:E.
  - apply Nat.leb_le in E. constructor; [now constructor|]. constructor; auto. eapply Forall_impl; [|exact F]. cbn. lia.
  - apply Nat.leb_gt in E. constructor; auto. rewrite insert_perm. constructor; [lia|auto].
Qed.
Lemma sort_sorted l : StronglySorted le (sort l).
Proof. induction l as [|x l IH]; [constructor|]. cbn. now apply insert_sorted. Qed.
Lemma sorted_unique l l' : StronglySorted le l -> StronglySorted le l' -> Permutation l l' -> l = l'.
Proof.
  intros S. revert l'. induction S as [|x l S IH F]; intros l' S' P; [now apply Permutation_nil in P|].
  destruct S' as [|y l' S' F']; [symmetry in P; now apply Permutation_nil in P|].
  assert (x = y).
  { rewrite Forall_forall in F, F'. apply Nat.le_antisymm.
    - assert (I : In y (x :: l)) by (eapply Permutation_in; [symmetry; exact P|now left]). destruct I as [->|I]; auto.
    - assert (I : In x (y :: l')) by (eapply Permutation_in; [exact P|now left]). destruct I as [->|I]; auto. }
  subst y. f_equal. apply IH; auto. now apply Permutation_cons_inv in P.
Qed.
Lemma sort_eq a b : sort a = sort b <-> Permutation a b.
Proof.
  split; intros H.
  - rewrite <- (sort_perm a), <- (sort_perm b), H. reflexivity.
  - apply sorted_unique; try apply sort_sorted. now rewrite !sort_perm.
Qed.

(** ** Equality tests *)
Lemma cface_eqb_eq a b : cface_eqb a b = true <-> a = b.
Proof.
  unfold cface_eqb. rewrite andb_true_iff, !Nat.eqb_eq. destruct a, b; cbn. split; [intros [-> ->]; auto|intros E; injection E; auto].
Qed.
Lemma key_eqb_eq a b : key_eqb a b = true <-> a = b.
Proof.
  revert b; induction a as [|x a IH]; intros [|y b]; cbn.
  - split; reflexivity.
  - split; discriminate.
  - split; discriminate.
  - rewrite andb_true_iff, Nat.eqb_eq, IH. split; [intros [H1 H2]; congruence|intros E; injection E as E1 E2; auto].
Qed.
Lemma member_in x l : member x l = true <-> In x l.
Proof. unfold member. rewrite existsb_exists. split; [intros (y & H & E); apply cface_eqb_eq in E; now subst|]. intros H. exists x. split; auto. now apply cface_eqb_eq. Qed.
Lemma to_set_in x l : In x (to_set l) <-> In x l.
Proof.
  induction l as [|y l IH]; [reflexivity|]. cbn. destruct (member y l) eqn:E; [|cbn; now rewrite IH]. apply member_in in E. rewrite IH. split; [auto|]. intros [->|H]; auto.
Qed.
Lemma to_set_nodup l : NoDup (to_set l).
Proof.
  induction l as [|y l IH]; [constructor|]. cbn. destruct (member y l) eqn:E; [auto|]. constructor; auto. rewrite to_set_in, <- member_in. congruence.
Qed.
Lemma set_minus_in x a b : In x (set_minus a b) <-> In x a /\ ~ In x b.
Proof. unfold set_minus. rewrite filter_In, to_set_in, negb_true_iff, <- (member_in x b). destruct (member x b); intuition congruence. Qed.
Lemma set_minus_nodup a b : NoDup (set_minus a b).
Proof. apply NoDup_filter, to_set_nodup. Qed.

Lemma last_cons {A} (a : A) l d : last (a :: l) d = last l a.
Proof. revert a d; induction l as [|b l IH]; intros a d; [reflexivity|]. change (last (b :: l) d = last (b :: l) a). now rewrite !IH. Qed.

(** ** The dict *)
Section Faces.
  Variable cf : list (list (list nat)).
  Definition key (x : cface) : list nat := nth (snd x) (nth (fst x) cf []) [].
  Record good (st : hstate) : Prop := {
    g_nodup : NoDup (h_all st);
    g_some : forall k y, lookup k (h_map st) = Some y -> In y (h_all st) /\ key y = k;
    g_none : forall k y, lookup k (h_map st) = None -> In y (h_all st) -> key y <> k;
    g_inner : forall z, In z (h_inner st) <-> In z (h_all st) /\ exists g, In g (h_all st) /\ g <> z /\ key g = key z
  }.
  Lemma good_start : good (mkH [] [] []).
  Proof. constructor; cbn; try constructor; try discriminate; try tauto. Qed.
  Lemma lookup_snoc k m k' v : lookup k (m ++ [(k', v)]) = match lookup k m with Some y => Some y | None => if key_eqb k k' then Some v else None end.
  Proof. induction m as [|[k1 v1] m IH]; [reflexivity|]. cbn. destruct (key_eqb k k1); auto. Qed.
  Lemma add_face_all st x : h_all (add_face cf st x) = h_all st ++ [x].
  Proof. unfold add_face. destruct (lookup _ _); reflexivity. Qed.
  Lemma add_face_good st x : good st -> ~ In x (h_all st) -> good (add_face cf st x).
  Proof.
    intros [G1 G2 G3 G4] NX. assert (ND : NoDup (h_all st ++ [x])).
    { apply (Permutation_NoDup (l := x :: h_all st)); [apply Permutation_cons_append|]. now constructor. }
    unfold add_face. fold (key x). destruct (lookup (key x) (h_map st)) as [y|] eqn:E.
    - destruct (G2 _ _ E) as [Iy Ky]. constructor; cbn [h_all h_map h_inner].
      + exact ND.
      + intros k z H. destruct (G2 k z H). split; auto. apply in_or_app; auto.
      + intros k z H I. apply in_app_iff in I as [I|[<-|[]]]; [now apply G3|congruence].
      + intros z. rewrite in_app_iff, G4, in_app_iff. cbn [In]. split.
        * intros [[I (g & Ig & Ng & Kg)]|[<-|[<-|[]]]].
          -- split; auto. exists g. rewrite in_app_iff. auto.
          -- split; auto. exists x. rewrite in_app_iff. cbn. repeat split; auto. congruence.
          -- split; auto. exists y. rewrite in_app_iff. repeat split; auto. congruence.
        * intros [[I|[<-|[]]] (g & Ig & Ng & Kg)]; [|auto]. apply in_app_iff in Ig as [Ig|[<-|[]]]; [left; split; eauto|].
          destruct (Nat.eq_dec (fst y) (fst z)) as [E1|N1]; [destruct (Nat.eq_dec (snd y) (snd z)) as [E2|N2]|].
          -- right. left. destruct y, z; cbn in *; congruence.
          -- left. split; auto. exists y. repeat split; auto; congruence.
          -- left. split; auto. exists y. repeat split; auto; congruence.
    - constructor; cbn [h_all h_map h_inner].
      + exact ND.
      + intros k z H. rewrite lookup_snoc in H. destruct (lookup k (h_map st)) as [w|] eqn:El.
        * injection H as <-. destruct (G2 _ _ El). split; auto. apply in_or_app; auto.
        * destruct (key_eqb k (key x)) eqn:Ek; [|discriminate]. injection H as <-. apply key_eqb_eq in Ek. split; [apply in_or_app; right; now left|auto].
      + intros k z H I. rewrite lookup_snoc in H. destruct (lookup k (h_map st)) eqn:El; [discriminate|].
        destruct (key_eqb k (key x)) eqn:Ek; [discriminate|]. apply in_app_iff in I as [I|[<-|[]]]; [now apply (G3 k)|].
        intros K. symmetry in K. apply key_eqb_eq in K. congruence.
      + intros z. rewrite G4, in_app_iff. cbn [In]. split.
        * intros [I (g & Ig & Ng & Kg)]. split; auto. exists g. rewrite in_app_iff. auto.
        * intros [[I|[<-|[]]] (g & Ig & Ng & Kg)]; apply in_app_iff in Ig as [Ig|[<-|[]]].
          -- split; eauto.
          -- exfalso. apply (G3 _ _ E I). congruence.
          -- exfalso. apply (G3 _ _ E Ig). congruence.
          -- congruence.
  Qed.

  Lemma add_faces_all c l st : h_all (fold_left (fun st f => add_face cf st (c, f)) l st) = h_all st ++ map (fun f => (c, f)) l.
  Proof. revert st; induction l as [|f l IH]; intros st; cbn; [now rewrite app_nil_r|]. rewrite IH, add_face_all, <- app_assoc. reflexivity. Qed.
  Lemma add_faces_good c l st : good st -> NoDup l -> (forall f, In f l -> ~ In (c, f) (h_all st)) -> good (fold_left (fun st f => add_face cf st (c, f)) l st).
  Proof.
    revert st; induction l as [|f l IH]; intros st G ND N; [exact G|]. cbn. inversion ND as [|? ? N1 N2]; subst. apply IH; auto.
    - apply add_face_good; auto. apply N. now left.
    - intros g Hg. rewrite add_face_all, in_app_iff. intros [H|[H|[]]]; [apply (N g); [now right|auto]|]. injection H as ->. auto.
  Qed.

  Lemma add_cells_ok tab cs : length tab = length cf -> (forall c, In c cs -> c < length cf) ->
    forall st, exists st', add_cells tab cf st cs = Ok st' /\
      (forall x, In x (h_all st') <-> In x (h_all st) \/ In (fst x) cs /\ nth (fst x) tab false = true /\ snd x < length (nth (fst x) cf [])) /\
      (good st -> NoDup cs -> (forall c f, In c cs -> ~ In (c, f) (h_all st)) -> good st').
  Proof.
    intros LT. induction cs as [|c cs IH]; intros HC st.
    - exists st. split; [reflexivity|]. split; [intros x; cbn; tauto|auto].
    - assert (Hc : c < length cf) by (apply HC; now left). cbn [add_cells]. unfold add_cell.
      rewrite (nth_error_nth' tab false) by lia. rewrite (nth_error_nth' cf []) by auto.
      destruct (nth c tab false) eqn:ET; cbn [bind].
      + set (st1 := fold_left _ _ st). destruct (IH ltac:(intros; apply HC; now right) st1) as (st' & E & M & G). exists st'. split; [exact E|].
        assert (A1 : h_all st1 = h_all st ++ map (fun f => (c, f)) (seq 0 (length (nth c cf [])))) by apply add_faces_all. split.
        * intros [c1 f1]. rewrite M, A1, in_app_iff, in_map_iff. cbn [fst snd In]. split.
          -- intros [[H|(f & Ef & If)]|(H & H')]; [auto| |auto]. injection Ef as -> ->. apply in_seq in If. right. split; [now left|]. split; [auto|lia].
          -- intros [H|([H|H] & H1 & H2)]; [auto| |auto]. subst c1. left. right. exists f1. split; auto. apply in_seq. lia.
        * intros Gs ND N. inversion ND as [|? ? N1 N2]; subst. apply G; auto.
          -- apply add_faces_good; [auto|apply seq_NoDup|]. intros f _. apply N. now left.
          -- intros c2 f2 H2. rewrite A1, in_app_iff, in_map_iff. intros [H|(f & Ef & _)]; [apply (N c2 f2); [now right|auto]|]. injection Ef as -> ->. auto.
      + destruct (IH ltac:(intros; apply HC; now right) st) as (st' & E & M & G). exists st'. split; [exact E|]. split.
        * intros [c1 f1]. rewrite M. cbn [fst snd In]. split; [tauto|]. intros [H|([H|H] & H1 & H2)]; [auto| |auto]. subst c1. congruence.
        * intros Gs ND N. inversion ND as [|? ? N1 N2]; subst. apply G; auto. intros c2 f2 H2. apply N. now right.
  Qed.

  (** the faces recorded are those of the active cells *)
  Definition covers (tab : list bool) (st : hstate) : Prop :=
    forall x, In x (h_all st) <-> fst x < length cf /\ nth (fst x) tab false = true /\ snd x < length (nth (fst x) cf []).
  Definition outer (tab : list bool) (x : cface) : Prop :=
    (fst x < length cf /\ nth (fst x) tab false = true /\ snd x < length (nth (fst x) cf [])) /\
    forall y, fst y < length cf -> nth (fst y) tab false = true -> snd y < length (nth (fst y) cf []) -> key y = key x -> y = x.
  Lemma cface_dec (a b : cface) : {a = b} + {a <> b}.
  Proof. decide equality; apply Nat.eq_dec. Qed.
  Lemma ext_outer tab st : good st -> covers tab st -> forall x, In x (set_minus (h_all st) (h_inner st)) <-> outer tab x.
  Proof.
    intros [G1 G2 G3 G4] C x. unfold covers in C. rewrite set_minus_in, G4, (C x). unfold outer. split.
    - intros [H N]. split; auto. intros y H1 H2 H3 K. destruct (cface_dec y x) as [E|NE]; auto. exfalso. apply N. split; auto. exists y.
      split; [apply C; auto|auto].
    - intros [H U]. split; auto. intros [_ (g & Ig & Ng & Kg)]. apply C in Ig as (H1 & H2 & H3). apply Ng. now apply U.
  Qed.

  Lemma init_ok tab : length tab = length cf -> exists st, hash_map_for_faces tab cf (mkH [] [] []) (seq 0 (length cf)) = Ok (set_minus (h_all st) (h_inner st), st) /\ good st /\ covers tab st.
  Proof.
    intros L. destruct (add_cells_ok tab (seq 0 (length cf)) L ltac:(intros c H; apply in_seq in H; lia) (mkH [] [] [])) as (st & E & M & G).
    exists st. unfold hash_map_for_faces. rewrite E. split; [reflexivity|]. split.
    - apply G; [apply good_start|apply seq_NoDup|auto].
    - intros x. rewrite M, in_seq. cbn [h_all In]. intuition lia.
  Qed.

  Lemma count_le old new : grows old new -> count_true old <= count_true new.
  Proof.
    intros [L G]. revert new L G. unfold count_true. induction old as [|a old IH]; intros new L G; [cbn; lia|]. destruct new as [|b new]; [discriminate|].
    assert (IHn : length (filter (fun b => b) old) <= length (filter (fun b => b) new)) by (apply IH; [cbn in L; lia|intros c; exact (G (S c))]).
    specialize (G 0). cbn in G |- *. destruct a, b; cbn; try lia; discriminate (G eq_refl).
  Qed.
  Lemma update_ok old new st : length old = length cf -> grows old new -> good st -> covers old st ->
    exists st', update_hash_map old new cf st = Ok (set_minus (h_all st') (h_inner st'), st') /\ good st' /\ covers new st'.
  Proof.
    intros L GR G C. pose proof (count_le old new GR) as CL. destruct GR as [LN GR]. unfold update_hash_map. rewrite (proj2 (Nat.leb_le _ _) CL).
    destruct (add_cells_ok new (changed old new) ltac:(congruence) ltac:(intros c H; apply filter_In in H as [H _]; apply in_seq in H; lia) st) as (st' & E & M & G').
    exists st'. unfold hash_map_for_faces. rewrite E. split; [reflexivity|]. split.
    - apply G'; [auto|apply NoDup_filter, seq_NoDup|]. intros c f H I. apply filter_In in H as [H N]. apply C in I as (_ & I & _). cbn in I.
      rewrite (GR c I), I in N. discriminate.
    - intros x. rewrite M, (C x). unfold changed. rewrite filter_In, in_seq, negb_true_iff. split.
      + intros [(H1 & H2 & H3)|((H0 & _) & H2 & H3)]; [auto|]. split; [lia|auto].
      + intros (H1 & H2 & H3). destruct (nth (fst x) old false) eqn:EO; [left; auto|]. right. rewrite H2. cbn. split; auto. split; auto. lia.
  Qed.
  Lemma map2_eqb_same (a b : list bool) : length a = length b -> forallb (fun b => b) (map2 Bool.eqb a b) = true -> a = b.
  Proof.
    revert b; induction a as [|x a IH]; intros [|y b] L H; try discriminate; [reflexivity|]. cbn in H. apply andb_true_iff in H as [H1 H2].
    apply Bool.eqb_prop in H1. f_equal; auto.
  Qed.
  Lemma steps_ok news : forall tab st, length tab = length cf -> grow tab news -> good st -> covers tab st ->
    exists st', steps cf (tab, set_minus (h_all st) (h_inner st), st) news = Ok (last news tab, set_minus (h_all st') (h_inner st'), st') /\ good st' /\ covers (last news tab) st'.
  Proof.
    induction news as [|new news IH]; intros tab st L GR G C; [exists st; auto|]. destruct GR as [GR GRs]. cbn [steps step].
    assert (LN : length new = length cf) by (destruct GR; congruence).
    rewrite last_cons. destruct (forallb _ _) eqn:F.
    - apply map2_eqb_same in F; [|congruence]. subst new. cbn [bind]. now apply IH.
    - destruct (update_ok tab new st L GR G C) as (st1 & E1 & G1 & C1). rewrite E1. cbn [bind fst snd]. now apply IH.
  Qed.
End Faces.

Lemma faces_length cells face_inds : length (faces_of cells face_inds) = length cells.
Proof. apply map_length. Qed.
Lemma faces_nth cells face_inds c : c < length cells -> nth c (faces_of cells face_inds) [] = map (fun inds => sort (map (fun a => nth a (nth c cells []) 0) inds)) face_inds.
Proof. intros H. unfold faces_of. rewrite (nth_map_in _ _ _ []) by auto. reflexivity. Qed.
Lemma outer_iff cells face_inds tab c f : outer (faces_of cells face_inds) tab (c, f) <-> outer_face cells face_inds tab c f.
Proof.
  assert (LF : forall c f, (c < length (faces_of cells face_inds) /\ nth c tab false = true /\ f < length (nth c (faces_of cells face_inds) [])) <-> active_face cells face_inds tab c f).
  { intros c0 f0. unfold active_face. rewrite faces_length. split; intros (H1 & H2 & H3).
    - rewrite faces_nth, map_length in H2 || rewrite faces_nth, map_length in H3; auto.
    - rewrite faces_nth, map_length; auto. }
  assert (KF : forall c f c' f', active_face cells face_inds tab c f -> active_face cells face_inds tab c' f' ->
    key (faces_of cells face_inds) (c', f') = key (faces_of cells face_inds) (c, f) <-> Permutation (face_nodes cells face_inds c f) (face_nodes cells face_inds c' f')).
  { intros c0 f0 c1 f1 (H1 & H2 & _) (H3 & H4 & _). unfold key, face_nodes. cbn [fst snd]. rewrite !faces_nth by auto.
    rewrite !(nth_map_in _ _ _ []) by auto. rewrite sort_eq. split; intros; now symmetry. }
  unfold outer, outer_face. cbn [fst snd]. rewrite LF. split.
  - intros [A U]. split; auto. intros c' f' A' P. apply LF in A' as A''. destruct A'' as (B1 & B2 & B3).
    assert (E : (c', f') = (c, f)) by (apply U; auto; apply KF; auto). injection E; auto.
  - intros [A U]. split; auto. intros [c' f'] B1 B2 B3 K. cbn [fst snd] in *. assert (A' : active_face cells face_inds tab c' f') by (apply LF; auto).
    destruct (U c' f' A') as [-> ->]; auto. apply KF; auto.
Qed.

Lemma external_ok cells face_inds tab news : length tab = length cells -> grow tab news ->
  exists ext, external_faces cells face_inds tab news = Ok ext /\ NoDup ext /\
    forall c f, In (c, f) ext <-> outer_face cells face_inds (last news tab) c f.
Proof.
  intros L GR. set (cf := faces_of cells face_inds). assert (LC : length tab = length cf) by (unfold cf; now rewrite faces_length).
  destruct (init_ok cf tab LC) as (st & E & G & C). destruct (steps_ok cf news tab st LC GR G C) as (st' & E' & G' & C').
  exists (set_minus (h_all st') (h_inner st')). unfold external_faces, initialize_hash_map. fold cf. rewrite E. cbn [bind fst snd]. rewrite E'. cbn [bind fst snd].
  split; [reflexivity|]. split; [apply set_minus_nodup|]. intros c f. rewrite (ext_outer cf _ st' G' C'). apply outer_iff.
Qed.

(** ** The table of faces *)
Lemma last_index_some x l i j : last_index x l i = Some j -> exists k, j = i + k /\ nth_error l k = Some x.
Proof.
  revert i j; induction l as [|y l IH]; intros i j H; [discriminate|]. cbn in H. destruct (last_index x l (S i)) as [j'|] eqn:E.
  - injection H as <-. destruct (IH _ _ E) as (k & -> & H). exists (S k). split; [lia|exact H].
  - destruct (cface_eqb x y) eqn:Ex; [|discriminate]. injection H as <-. apply cface_eqb_eq in Ex. subst. exists 0. split; [lia|reflexivity].
Qed.
Lemma last_index_none x l i : last_index x l i = None -> ~ In x l.
Proof.
  revert i; induction l as [|y l IH]; intros i H; [intros []|]. cbn in H. destruct (last_index x l (S i)) eqn:E; [discriminate|].
  destruct (cface_eqb x y) eqn:Ex; [discriminate|]. intros [<-|I]; [|exact (IH _ E I)]. assert (cface_eqb y y = true) by now apply cface_eqb_eq. congruence.
Qed.
Lemma set_true_length l i : length (set_true l i) = length l.
Proof. revert i; induction l as [|a l IH]; intros [|i]; cbn; auto. Qed.
Lemma set_true_nth l i j : i < length l -> nth j (set_true l i) false = (j =? i) || nth j l false.
Proof.
  revert i j; induction l as [|a l IH]; intros i j H; cbn in H; [lia|]. destruct i as [|i], j as [|j]; cbn; auto. apply IH. lia.
Qed.
Section Table.
  Context {X : Type} (top : list (list X) -> bool) (points : list (list X)) (cells face_inds : list (list nat)) (boundary : list cface).
  Notation fp := (face_points points cells face_inds).
  Lemma mark_ok ext : forall t1 t2 r1 r2, NoDup boundary -> length t1 = length boundary -> length t2 = length boundary ->
    mark_faces top points cells face_inds boundary ext (t1, t2) = Ok (r1, r2) ->
    (forall x, In x ext -> In x boundary) /\ length r1 = length boundary /\ length r2 = length boundary /\
    forall i x, nth_error boundary i = Some x ->
      (nth i r1 false = true <-> nth i t1 false = true \/ In x ext) /\ (nth i r2 false = true <-> nth i t2 false = true \/ In x ext /\ top (fp x) = true).
  Proof.
    induction ext as [|y ext IH]; intros t1 t2 r1 r2 ND L1 L2 H; cbn [mark_faces] in H.
    - injection H as <- <-. repeat split; auto; try tauto. 1: intros x []. 1: intros [H1|[]]; exact H1. intros [H1|[[] _]]; exact H1.
    - destruct (last_index y boundary 0) as [j|] eqn:E; [|discriminate]. destruct (last_index_some _ _ _ _ E) as (k & -> & Ek). cbn [Nat.add fst snd] in H.
      assert (Hk : k < length boundary) by (apply nth_error_Some; congruence).
      assert (UN : forall i x, nth_error boundary i = Some x -> i = k <-> x = y).
      { intros i x Ei. split; [intros ->; congruence|]. intros ->. apply (proj1 (NoDup_nth_error boundary) ND); [apply nth_error_Some; congruence|congruence]. }
      apply IH in H; [|auto|now rewrite set_true_length|destruct (top _); [now rewrite set_true_length|auto]].
      destruct H as (H1 & H2 & H3 & H4). split; [|split; [auto|split; [auto|]]].
      { intros x [<-|Hx]; [eapply nth_error_In; eauto|auto]. }
      intros i x Ei. destruct (H4 i x Ei) as [A B]. specialize (UN i x Ei). cbn [In]. split.
      + rewrite A, set_true_nth by lia. rewrite orb_true_iff, Nat.eqb_eq. split; [intros [[->|?]|?]|intros [?|[?|?]]]; auto.
        * right. left. symmetry. now apply UN.
        * left. left. apply UN. congruence.
      + rewrite B. destruct (top (fp y)) eqn:T.
        * rewrite set_true_nth by lia. rewrite orb_true_iff, Nat.eqb_eq. split.
          -- intros [[->|?]|[? ?]]; auto. right. assert (x = y) by now apply UN. subst. auto.
          -- intros [?|[[?|?] ?]]; auto. left. left. apply UN. congruence.
        * split; [intros [?|[? ?]]; auto|]. intros [?|[[<-|?] ?]]; auto. congruence.
  Qed.
  Lemma mark_total ext : forall t, (forall x, In x ext -> In x boundary) -> exists r, mark_faces top points cells face_inds boundary ext t = Ok r.
  Proof.
    induction ext as [|y ext IH]; intros t H; [eexists; reflexivity|]. cbn. destruct (last_index y boundary 0) as [j|] eqn:E.
    - apply IH. intros; apply H; now right.
    - exfalso. apply last_index_none in E. apply E, H. now left.
  Qed.
  Lemma mark_raises ext : forall t, ~ (forall x, In x ext -> In x boundary) -> mark_faces top points cells face_inds boundary ext t = Err ValueErr.
  Proof.
    induction ext as [|y ext IH]; intros t H; [exfalso; apply H; intros x []|]. cbn. destruct (last_index y boundary 0) as [j|] eqn:E; [|reflexivity].
    apply IH. intros A. apply H. intros x [<-|I]; [|auto]. destruct (last_index_some _ _ _ _ E) as (k & _ & Ek). eapply nth_error_In; eauto.
  Qed.
  Lemma table_ok ext : NoDup boundary ->
    ((exists tab, get_active_face_truth_tab top points cells face_inds boundary ext = Ok tab) <-> forall x, In x ext -> In x boundary) /\
    (forall tab, get_active_face_truth_tab top points cells face_inds boundary ext = Ok tab -> length tab = length boundary /\
       forall i x, nth_error boundary i = Some x ->
         (fst (nth i tab (false, false)) = true <-> In x ext) /\ (snd (nth i tab (false, false)) = true <-> In x ext /\ top (fp x) = true)).
  Proof.
    intros ND. unfold get_active_face_truth_tab. split.
    - split.
      + intros (tab & H). destruct (mark_faces _ _ _ _ _ _ _) as [[r1 r2]|] eqn:E; [|discriminate].
        apply mark_ok in E as (A & _); auto; apply repeat_length.
      + intros H. destruct (mark_total ext (repeat false (length boundary), repeat false (length boundary)) H) as (r & E). rewrite E. cbn. eauto.
    - intros tab H. destruct (mark_faces _ _ _ _ _ _ _) as [[r1 r2]|] eqn:E; [|discriminate]. cbn in H. injection H as <-.
      apply mark_ok in E as (_ & L1 & L2 & A); auto; try apply repeat_length. split; [rewrite combine_length; lia|].
      intros i x Ei. assert (Hi : i < length boundary) by (apply nth_error_Some; congruence).
      rewrite combine_nth by lia. cbn [fst snd]. destruct (A i x Ei) as [A1 A2]. rewrite A1, A2, !nth_repeat. intuition congruence.
  Qed.
End Table.

(** ** Quiet points *)
Lemma quiet_ok num_points cells tab : (length tab = length cells -> exists q, get_quiet_point_inds_set num_points cells tab = Ok q) /\
  forall q, get_quiet_point_inds_set num_points cells tab = Ok q -> NoDup q /\
    forall n, In n q <-> n < num_points /\ forall c, c < length cells -> nth c tab false = true -> ~ In n (nth c cells []).
Proof.
  unfold get_quiet_point_inds_set. destruct (length tab =? length cells) eqn:E; [|split; [apply Nat.eqb_neq in E; congruence|discriminate]].
  split; [eauto|]. intros q H. injection H as <-. split; [apply NoDup_filter, seq_NoDup|]. intros n. rewrite filter_In, in_seq, negb_true_iff.
  assert (A : existsb (Nat.eqb n) (concat (map (fun c => if nth c tab false then nth c cells [] else []) (seq 0 (length cells)))) = true <->
    exists c, c < length cells /\ nth c tab false = true /\ In n (nth c cells [])).
  { rewrite existsb_exists. split.
    - intros (m & Hm & Em). apply Nat.eqb_eq in Em. subst m. apply in_concat in Hm as (l & Hl & Hn). apply in_map_iff in Hl as (c & <- & Hc).
      apply in_seq in Hc. exists c. destruct (nth c tab false); [|destruct Hn]. split; [lia|auto].
    - intros (c & Hc & Tc & Hn). exists n. split; [|apply Nat.eqb_refl]. apply in_concat. exists (nth c cells []). split; auto.
      apply in_map_iff. exists c. rewrite Tc. split; auto. apply in_seq. lia. }
  split.
  - intros [H1 H2]. split; [lia|]. intros c Hc Tc Hn. assert (T : true = false) by (rewrite <- H2; symmetry; apply A; eauto). discriminate.
  - intros [H1 H2]. split; [lia|]. destruct (existsb _ _) eqn:EX; [|auto]. destruct (proj1 A eq_refl) as (c & Hc & Tc & Hn). exfalso. now apply (H2 c).
Qed.
