(** Proofs for C70. *)
From Coq Require Import List Arith Lia Bool ZArith Permutation.
From Verif Require Import Num Arr ArrFacts Fe Problem BatchFacts ProblemFacts SolverBc LinSolve Periodic SpecPeriodic.
Import ListNotations.

(** ** The map from dofs to columns *)
Section Map.
  Open Scope Z_scope.
  Lemma set_at_length l i v : length (set_at l i v) = length l.
  Proof. revert i; induction l as [|a l IH]; intros [|i]; cbn; auto. Qed.
  Lemma set_at_nth l i v j : (i < length l)%nat -> nth j (set_at l i v) 0 = if (j =? i)%nat then v else nth j l 0.
  Proof.
    revert i j; induction l as [|a l IH]; intros i j H; cbn in H; [lia|]. destruct i as [|i]; cbn [set_at].
    - destruct j; reflexivity.
    - destruct j as [|j]; [reflexivity|]. cbn [nth]. rewrite IH by lia. reflexivity.
  Qed.
  Definition code (a : nat) : Z := - (Z.of_nat a + 1).
  Definition marked_map (N : nat) (ps : list (nat * nat)) : list Z :=
    fold_left (fun l ba => set_at l (fst ba) (code (snd ba))) ps (repeat 1 N).
  Lemma marked_length N ps : length (marked_map N ps) = N.
  Proof.
    unfold marked_map. assert (G : forall l, length (fold_left (fun l ba => set_at l (fst ba) (code (snd ba))) ps l) = length l).
    { induction ps as [|q ps IH]; intros l; [reflexivity|]. cbn. now rewrite IH, set_at_length. }
    now rewrite G, repeat_length.
  Qed.
  Lemma marked_snoc N ps q : marked_map N (ps ++ [q]) = set_at (marked_map N ps) (fst q) (code (snd q)).
  Proof. unfold marked_map. now rewrite fold_left_app. Qed.
  (** a dof that is no slave keeps 1 *)
  Lemma marked_free N ps i : (i < N)%nat -> (forall b a, In (b, a) ps -> (b < N)%nat) -> ~ In i (map fst ps) -> nth i (marked_map N ps) 0 = 1.
  Proof.
    intros Hi. induction ps as [|[b a] ps IH] using rev_ind; intros Hb Hn.
    - unfold marked_map. cbn. rewrite (nth_indep _ 0 1) by (rewrite repeat_length; auto). apply nth_repeat.
    - rewrite marked_snoc, set_at_nth by (rewrite marked_length; apply (Hb b a), in_or_app; right; now left).
      rewrite map_app, in_app_iff in Hn. cbn in Hn. cbn [fst].
      replace (i =? b)%nat with false by (symmetry; apply Nat.eqb_neq; intros ->; tauto).
      apply IH; [|tauto]. intros b' a' H. apply (Hb b' a'), in_or_app. now left.
  Qed.
  Lemma marked_slave N ps i : (i < N)%nat -> (forall b a, In (b, a) ps -> (b < N)%nat) -> In i (map fst ps) ->
    exists a, In (i, a) ps /\ nth i (marked_map N ps) 0 = code a.
  Proof.
    intros Hi. induction ps as [|[b a] ps IH] using rev_ind; intros Hb Hn; [destruct Hn|].
    rewrite marked_snoc, set_at_nth by (rewrite marked_length; apply (Hb b a), in_or_app; right; now left). cbn [fst snd].
    destruct (i =? b)%nat eqn:E.
    - apply Nat.eqb_eq in E as ->. exists a. split; [apply in_or_app; right; now left|reflexivity].
    - rewrite map_app, in_app_iff in Hn. destruct Hn as [Hn|[Hn|[]]]; [|apply Nat.eqb_neq in E; cbn in Hn; congruence].
      destruct IH as (a' & Ha & Ea); auto; [intros b' a' H; apply (Hb b' a'), in_or_app; now left|].
      exists a'. split; [apply in_or_app; now left|exact Ea].
  Qed.
  Definition is_slave (ps : list (nat * nat)) (i : nat) : bool := existsb (Nat.eqb i) (map fst ps).
  Lemma is_slave_in ps i : is_slave ps i = true <-> In i (map fst ps).
  Proof. unfold is_slave. rewrite existsb_exists. split; [intros (x & H & E); apply Nat.eqb_eq in E; now subst|]. intros H. exists i. now rewrite Nat.eqb_refl. Qed.
  Lemma marked_one N ps i : (i < N)%nat -> (forall b a, In (b, a) ps -> (b < N)%nat) -> (nth i (marked_map N ps) 0 =? 1) = negb (is_slave ps i).
  Proof.
    intros Hi Hb. destruct (is_slave ps i) eqn:E.
    - apply is_slave_in in E. destruct (marked_slave N ps i Hi Hb E) as (a & _ & ->). apply Z.eqb_neq. unfold code. lia.
    - rewrite marked_free; auto. intros H. apply is_slave_in in H. congruence.
  Qed.
  (** the dofs that are no slaves, in order *)
  Definition free_dofs (N : nat) (ps : list (nat * nat)) : list nat := filter (fun i => negb (is_slave ps i)) (seq 0 N).
  Definition rank (ps : list (nat * nat)) (i : nat) : nat := length (free_dofs i ps).

  Lemma fill_length l k : length (fill l k) = length l.
  Proof. revert k; induction l as [|v l IH]; intros k; [reflexivity|]. cbn. destruct (v =? 1); cbn; now rewrite IH. Qed.
  Lemma fill_nth l k i : (i < length l)%nat ->
    nth i (fill l k) 0 = if nth i l 0 =? 1 then k + Z.of_nat (length (filter (fun v => v =? 1) (firstn i l))) else nth i l 0.
  Proof.
    revert k i; induction l as [|v l IH]; intros k i H; cbn in H; [lia|]. destruct i as [|i]; cbn [fill firstn filter nth length].
    - destruct (v =? 1) eqn:E; cbn [nth length]; [lia|]. reflexivity.
    - destruct (v =? 1) eqn:E; cbn [nth]; rewrite IH by lia; destruct (nth i l 0 =? 1); auto. cbn [length]. lia.
  Qed.
  Lemma filter_map_len {A B} (f : B -> bool) (g : A -> B) l : length (filter f (map g l)) = length (filter (fun x => f (g x)) l).
  Proof. induction l as [|a l IH]; [reflexivity|]. cbn. destruct (f (g a)); cbn; now rewrite IH. Qed.
  Lemma firstn_seq i : forall n k, (i <= n)%nat -> firstn i (seq k n) = seq k i.
  Proof. induction i as [|i IH]; intros [|n] k H; cbn; auto; [lia|]. f_equal. apply IH. lia. Qed.
  Lemma filter_len_ext {A} (f g : A -> bool) l : (forall a, In a l -> f a = g a) -> length (filter f l) = length (filter g l).
  Proof.
    intros H. induction l as [|a l IH]; [reflexivity|]. cbn. rewrite (H a) by now left.
    assert (E : length (filter f l) = length (filter g l)) by (apply IH; intros; apply H; now right). destruct (g a); cbn; congruence.
  Qed.
  Lemma ones_before N ps i : (i <= N)%nat -> (forall b a, In (b, a) ps -> (b < N)%nat) ->
    length (filter (fun v => v =? 1) (firstn i (marked_map N ps))) = rank ps i.
  Proof.
    intros Hi Hb. assert (E : marked_map N ps = map (fun j => nth j (marked_map N ps) 0) (seq 0 N)).
    { apply (list_ext 0); [now rewrite map_length, seq_length, marked_length|]. rewrite marked_length. intros j Hj.
      rewrite (nth_map_in _ _ _ 0%nat) by (now rewrite seq_length). now rewrite seq_nth. }
    rewrite E, firstn_map, firstn_seq by auto. rewrite filter_map_len. unfold rank, free_dofs. apply filter_len_ext.
    intros j Hj. apply in_seq in Hj. apply marked_one; auto. lia.
  Qed.
  Lemma rank_S ps i : rank ps (S i) = (rank ps i + if is_slave ps i then 0 else 1)%nat.
  Proof.
    unfold rank, free_dofs. rewrite seq_S, filter_app, app_length. cbn. destruct (is_slave ps i); reflexivity.
  Qed.
  Lemma rank_mono ps i j : (i <= j)%nat -> (rank ps i <= rank ps j)%nat.
  Proof. induction 1 as [|j H IH]; [lia|]. rewrite rank_S. lia. Qed.
  (** the r-th free dof, and back *)
  Lemma free_nth N ps i : (i < N)%nat -> is_slave ps i = false -> nth (rank ps i) (free_dofs N ps) 0%nat = i.
  Proof.
    intros Hi Hs. unfold rank, free_dofs. replace N with (i + S (N - S i))%nat by lia. rewrite seq_app, filter_app, app_nth2 by lia.
    rewrite Nat.sub_diag. cbn. now rewrite Hs.
  Qed.
  Lemma free_rank N ps r : (r < length (free_dofs N ps))%nat ->
    let i := nth r (free_dofs N ps) 0%nat in (i < N)%nat /\ is_slave ps i = false /\ rank ps i = r.
  Proof.
    intros Hr i. assert (I : In i (free_dofs N ps)) by (apply nth_In; auto). apply filter_In in I as (I & NS). apply in_seq in I.
    assert (Hi : (i < N)%nat) by lia. assert (Hs : is_slave ps i = false) by (now destruct (is_slave ps i)). split; [auto|split; auto].
    assert (ND : NoDup (free_dofs N ps)) by (apply NoDup_filter, seq_NoDup).
    assert (Hr' : (rank ps i < length (free_dofs N ps))%nat).
    { change (length (free_dofs N ps)) with (rank ps N). apply Nat.lt_le_trans with (rank ps (S i)); [rewrite rank_S, Hs; lia|apply rank_mono; lia]. }
    apply (proj1 (NoDup_nth (free_dofs N ps) 0%nat) ND); auto. rewrite free_nth by auto. reflexivity.
  Qed.
  Lemma free_count N ps : (forall b a, In (b, a) ps -> (b < N)%nat) ->
    (length (free_dofs N ps) + length (nodup Nat.eq_dec (map fst ps)) = N)%nat.
  Proof.
    intros Hb. assert (P : Permutation (nodup Nat.eq_dec (map fst ps)) (filter (is_slave ps) (seq 0 N))).
    { apply NoDup_Permutation; [apply NoDup_nodup|apply NoDup_filter, seq_NoDup|]. intros x. rewrite nodup_In, filter_In, is_slave_in, in_seq.
      split; [|tauto]. intros H. split; auto. apply in_map_iff in H as ([b a] & <- & H). apply Hb in H. cbn. lia. }
    apply Permutation_length in P. rewrite P. unfold free_dofs. clear.
    rewrite <- (seq_length N 0) at 3. induction (seq 0 N) as [|a l IH]; [reflexivity|]. cbn. destruct (is_slave ps a); cbn; lia.
  Qed.
End Map.

Section Columns.
  Variables (N : nat) (ps : list (nat * nat)).
  Hypothesis BOUND : forall b a, In (b, a) ps -> (b < N)%nat.
  Open Scope Z_scope.
  Let l := fill (marked_map N ps) 0.
  Lemma reduced_free i : (i < N)%nat -> is_slave ps i = false -> nth i l 0 = Z.of_nat (rank ps i).
  Proof.
    intros Hi Hs. unfold l. rewrite fill_nth by (now rewrite marked_length). rewrite marked_one by auto. rewrite Hs. cbn [negb].
    rewrite ones_before by (auto; lia). lia.
  Qed.
  Lemma reduced_slave i : (i < N)%nat -> is_slave ps i = true -> exists a, In (i, a) ps /\ nth i l 0 = code a.
  Proof.
    intros Hi Hs. unfold l. rewrite fill_nth by (now rewrite marked_length). rewrite marked_one by auto. rewrite Hs. cbn [negb].
    apply marked_slave; auto. now apply is_slave_in.
  Qed.
  Lemma reduced_length : length l = N.
  Proof. unfold l. now rewrite fill_length, marked_length. Qed.
  Lemma column_free i : (i < N)%nat -> is_slave ps i = false -> column l i = Ok (Z.of_nat (rank ps i)).
  Proof.
    intros Hi Hs. unfold column. rewrite reduced_free by auto. replace (Z.of_nat (rank ps i) <? 0) with false; [reflexivity|].
    symmetry. apply Z.ltb_ge. lia.
  Qed.
  Lemma column_slave i j : (i < N)%nat -> is_slave ps i = true -> column l i = Ok j -> 0 <= j ->
    exists a, In (i, a) ps /\ (a < N)%nat /\ is_slave ps a = false /\ j = Z.of_nat (rank ps a).
  Proof.
    intros Hi Hs E Hj. destruct (reduced_slave i Hi Hs) as (a & Ha & Ea). unfold column in E. rewrite Ea in E.
    replace (code a <? 0) with true in E by (symmetry; apply Z.ltb_lt; unfold code; lia).
    replace (Z.to_nat (- code a - 1)) with a in E by (unfold code; lia).
    destruct (nth_error l a) as [w|] eqn:EN; [|discriminate]. injection E as <-.
    assert (La : (a < N)%nat) by (rewrite <- reduced_length; apply nth_error_Some; congruence).
    apply nth_error_nth with (d := 0) in EN. exists a. split; [auto|]. split; [auto|].
    destruct (is_slave ps a) eqn:S; [|now rewrite <- EN, reduced_free].
    destruct (reduced_slave a La S) as (a' & _ & Ea'). rewrite Ea' in EN. unfold code in EN. lia.
  Qed.
  Lemma column_chain i a : (i < N)%nat -> is_slave ps i = true -> NoDup (map fst ps) -> In (i, a) ps -> (a < N)%nat -> is_slave ps a = false ->
    column l i = Ok (Z.of_nat (rank ps a)).
  Proof.
    intros Hi Hs ND Ha La Sa. destruct (reduced_slave i Hi Hs) as (a' & Ha' & Ea).
    assert (a' = a).
    { clear - ND Ha Ha'. induction ps as [|[b c] q IH]; [destruct Ha|]. cbn in ND. inversion ND as [|? ? N1 N2]; subst.
      destruct Ha as [E|Ha], Ha' as [E'|Ha']; try congruence.
      - inversion E; subst. exfalso. apply N1. now apply (in_map fst) in Ha'.
      - inversion E'; subst. exfalso. apply N1. now apply (in_map fst) in Ha.
      - now apply IH. }
    subst a'. unfold column. rewrite Ea. replace (code a <? 0) with true by (symmetry; apply Z.ltb_lt; unfold code; lia).
    replace (Z.to_nat (- code a - 1)) with a by (unfold code; lia).
    rewrite (nth_error_nth' l 0) by (now rewrite reduced_length). now rewrite reduced_free.
  Qed.
End Columns.

(** ** The matrix *)
Section Matrix.
  Context {K : ops}.
  Open Scope num_scope.
  (** the part of the ring laws that summing one unit entry needs; it also holds in the extended reals *)
  Definition unit_laws : Prop := @zero K + 0 = 0 /\ @one K + 0 = 1 /\ @zero K + 1 = 1.
  Hypothesis UL : unit_laws.
  Lemma coo_ones_off n J : forall s g h, (g < s)%nat ->
    set_values_coo (K := K) (seq s n) J (repeat one n) g h = 0.
  Proof.
    destruct UL as (U1 & U2 & U3). unfold set_values_coo.
    revert J. induction n as [|n IH]; intros J s g h H; [reflexivity|]. destruct J as [|j J]; [reflexivity|].
    cbn [seq repeat combine]. rewrite sum_over_cons. cbn [fst snd]. replace (s =? g)%nat with false by (symmetry; apply Nat.eqb_neq; lia).
    cbn [andb]. etransitivity; [|exact U1]. f_equal. apply IH. lia.
  Qed.
  Lemma coo_ones n J : forall s i h, length J = n -> (i < n)%nat ->
    set_values_coo (K := K) (seq s n) J (repeat one n) (s + i) h = if (nth i J 0 =? h)%nat then 1 else 0.
  Proof.
    destruct UL as (U1 & U2 & U3). unfold set_values_coo.
    revert J. induction n as [|n IH]; intros J s i h HL H; [lia|]. destruct J as [|j J]; [discriminate|].
    cbn [seq repeat combine]. rewrite sum_over_cons. cbn [fst snd]. destruct i as [|i].
    - rewrite Nat.add_0_r, Nat.eqb_refl. cbn [andb nth].
      pose proof (coo_ones_off n J (S s) s h ltac:(lia)) as Z. unfold set_values_coo in Z. rewrite Z. destruct (j =? h)%nat; auto.
    - replace (s =? s + S i)%nat with false by (symmetry; apply Nat.eqb_neq; lia). cbn [andb nth].
      replace (s + S i)%nat with (S s + i)%nat by lia. rewrite IH by (cbn in HL; lia). destruct (nth i J 0 =? h)%nat; auto.
  Qed.
End Matrix.
Arguments unit_laws : clear implicits.
Lemma ring_unit (K : ops) : ring_laws K -> unit_laws K.
Proof.
  intros KR. pose (Kth := KR : ring_theory (@zero K) one add mul sub opp eq). repeat split; apply (Radd_0_l Kth) || (rewrite (Radd_comm Kth); apply (Radd_0_l Kth)).
Qed.

(** ** From conditions to pairs *)
Lemma mapM_inv {A B} (f : A -> result B) l r : mapM f l = Ok r -> length r = length l /\ forall i a, nth_error l i = Some a -> exists b, nth_error r i = Some b /\ f a = Ok b.
Proof.
  revert r. induction l as [|a l IH]; intros r H; cbn in H; [injection H as <-; split; auto; intros [|i] a E; discriminate|].
  destruct (f a) as [b|] eqn:E1; [|discriminate]. cbn in H. destruct (mapM f l) as [bs|]; [|discriminate]. cbn in H. injection H as <-.
  destruct (IH bs eq_refl) as [L G]. split; [cbn; lia|]. intros [|i] x E; cbn in E |- *; [injection E as <-; eauto|eauto].
Qed.
Lemma stack_singletons l r n : stack l = Ok r -> length l = n -> length r = n -> forall x, In x l -> length x = 1%nat.
Proof.
  unfold stack. destruct (forallb _ l) eqn:F; [|discriminate]. intros E Hl Hr. injection E as <-. rewrite forallb_forall in F.
  assert (G : forall k (m : list (list nat)), (forall x, In x m -> length x = k) -> length (concat m) = (length m * k)%nat).
  { intros k m; induction m as [|x m IH]; intros H; [reflexivity|]. cbn. rewrite app_length, (H x), IH; auto; [intros; apply H; now right|now left]. }
  intros x Hx. assert (F' : forall y, In y l -> length y = length (hd [] l)) by (intros y Hy; apply Nat.eqb_eq, F, Hy).
  rewrite (G _ _ F') in Hr. rewrite (F' x Hx). subst n. assert (0 < length l)%nat by (destruct l; [destruct Hx|cbn; lia]). nia.
Qed.

Section Pairs.
  Context {X : Type}.
  Variables (near : list X -> list X -> bool) (info : periodic_info X) (pts : list (list X)) (vec : nat).
  Notation tied := (tied near info pts).

  Lemma argwhere_in f n : In n (argwhere f pts) <-> n < length pts /\ f (nth n pts []) = true.
  Proof. unfold argwhere. rewrite filter_In, in_seq. intuition lia. Qed.
  Lemma argwhere_nodup f : NoDup (argwhere f pts).
  Proof. apply NoDup_filter, seq_NoDup. Qed.

  (** what one group is when no error is raised *)
  Lemma group_inv i g : periodic_group near pts info i = Ok g -> exists fA fB c,
    nth_error (pb_locs_A info) i = Some fA /\ nth_error (pb_locs_B info) i = Some fB /\ nth_error (pb_vecs info) i = Some c /\
    fst (fst g) = argwhere fA pts /\ snd g = c /\ length (snd (fst g)) = length (fst (fst g)) /\
    forall nA nB, In (nA, nB) (combine (fst (fst g)) (snd (fst g))) <-> tied i nA nB c.
  Proof.
    unfold periodic_group. destruct (nth_error (pb_locs_A info) i) as [fA|] eqn:EA; [|discriminate].
    destruct (nth_error (pb_locs_B info) i) as [fB|] eqn:EB; [|discriminate].
    destruct (mapM _ (argwhere fA pts)) as [found|] eqn:EM; [|discriminate]. cbn [bind].
    destruct (stack found) as [ordered|] eqn:ES; [|discriminate]. cbn [bind].
    destruct (nth_error (pb_vecs info) i) as [c|] eqn:EV; [|discriminate].
    destruct (_ =? _)%nat eqn:EL; [|discriminate]. intros E. injection E as <-. apply Nat.eqb_eq in EL.
    exists fA, fB, c. cbn [fst snd]. do 6 (split; [auto|]).
    destruct (mapM_inv _ _ _ EM) as [LM GM].
    pose proof (stack_singletons _ _ _ ES LM (eq_sym EL)) as S1.
    assert (EO : ordered = concat found) by (unfold stack in ES; destruct (forallb _ found); [now injection ES as <-|discriminate]).
    assert (G : forall (l : list nat) (fnd : list (list nat)), length fnd = length l -> (forall x, In x fnd -> length x = 1) ->
      forall n m, In (n, m) (combine l (concat fnd)) <-> exists j, nth_error l j = Some n /\ nth_error fnd j = Some [m]).
    { induction l as [|a l IH]; intros fnd HL H1 n m.
      - destruct fnd; [|discriminate]. cbn. split; [tauto|]. intros ([|j] & E & _); discriminate.
      - destruct fnd as [|x fnd]; [discriminate|]. assert (Lx : length x = 1) by (apply H1; now left). destruct x as [|b [|? ?]]; try discriminate.
        cbn [concat app combine In]. rewrite IH by (cbn in HL; try lia; intros; apply H1; now right). split.
        + intros [E|(j & E1 & E2)]; [injection E as <- <-; exists 0; auto|exists (S j); auto].
        + intros ([|j] & E1 & E2); cbn in E1, E2; [left; congruence|right; eauto]. }
    intros nA nB. rewrite EO, G by auto. split.
    - intros (j & E1 & E2). destruct (GM j nA E1) as (x & Ex & Px). rewrite E2 in Ex. injection Ex as <-. unfold partners in Px.
      destruct (nth_error (pb_mappings info) i) as [m|] eqn:Em; [|discriminate]. injection Px as Px.
      assert (HB : In nB (filter (fun nB => near (m (nth nA pts [])) (nth nB pts [])) (argwhere fB pts))) by (rewrite Px; now left).
      apply filter_In in HB as (HB & HN). apply argwhere_in in HB as [HB1 HB2].
      assert (HA : In nA (argwhere fA pts)) by (eapply nth_error_In; eauto). apply argwhere_in in HA as [HA1 HA2].
      exists fA, fB, m. auto 10.
    - intros (fA' & fB' & m & E1 & E2 & E3 & E4 & H1 & H2 & H3 & H4 & H5).
      rewrite EA in E1. injection E1 as <-. rewrite EB in E2. injection E2 as <-.
      assert (HA : In nA (argwhere fA pts)) by now apply argwhere_in. apply In_nth_error in HA as (j & Ej). exists j. split; auto.
      destruct (GM j nA Ej) as (x & Ex & Px). unfold partners in Px. rewrite E3 in Px. injection Px as Px.
      assert (HB : In nB x) by (rewrite <- Px; apply filter_In; split; auto; now apply argwhere_in).
      assert (Lx : length x = 1) by (apply S1; eapply nth_error_In; eauto). destruct x as [|b [|? ?]]; try discriminate.
      destruct HB as [->|[]]. exact Ex.
  Qed.

  (** the pairs (slave, master) of all groups *)
  Definition all_pairs (groups : list (list nat * list nat * nat)) : list (nat * nat) :=
    concat (map (fun g => map (fun q => (dof vec (snd q) (snd g), dof vec (fst q) (snd g))) (combine (fst (fst g)) (snd (fst g)))) groups).
  Lemma combine_app_same {A B} (l1 l2 : list A) (m1 m2 : list B) : length l1 = length m1 -> combine (l1 ++ l2) (m1 ++ m2) = combine l1 m1 ++ combine l2 m2.
  Proof. revert m1; induction l1 as [|a l1 IH]; intros [|b m1] H; try discriminate; [reflexivity|]. cbn. f_equal. apply IH. cbn in H. lia. Qed.
  Lemma combine_maps (nsA nsB : list nat) c : length nsB = length nsA ->
    combine (dof_inds vec nsB c) (dof_inds vec nsA c) = map (fun q => (dof vec (snd q) c, dof vec (fst q) c)) (combine nsA nsB).
  Proof. unfold dof_inds. revert nsB; induction nsA as [|a l IH]; intros [|b m] H; try discriminate; [reflexivity|]. cbn. f_equal. apply IH. cbn in H. lia. Qed.
  Lemma pairs_combine groups : (forall g, In g groups -> length (snd (fst g)) = length (fst (fst g))) ->
    combine (concat (map (fun g => dof_inds vec (snd (fst g)) (snd g)) groups)) (concat (map (fun g => dof_inds vec (fst (fst g)) (snd g)) groups)) = all_pairs groups.
  Proof.
    induction groups as [|g gs IH]; intros H; [reflexivity|]. unfold all_pairs. cbn [map concat].
    rewrite combine_app_same by (unfold dof_inds; rewrite !map_length; apply H; now left).
    rewrite combine_maps by (apply H; now left). f_equal. apply IH. intros; apply H; now right.
  Qed.
  Lemma pairs_fst groups : (forall g, In g groups -> length (snd (fst g)) = length (fst (fst g))) ->
    map fst (all_pairs groups) = concat (map (fun g => dof_inds vec (snd (fst g)) (snd g)) groups).
  Proof.
    intros H. unfold all_pairs. rewrite concat_map, map_map. f_equal. apply map_ext_in. intros g Hg. rewrite map_map. cbn [fst]. unfold dof_inds, dof.
    specialize (H g Hg). revert H. generalize (fst (fst g)) (snd (fst g)). induction l as [|a l IH]; intros [|b m] HL; try discriminate; [reflexivity|].
    cbn. f_equal. apply IH. cbn in HL. lia.
  Qed.
  Lemma pairs_length groups : (forall g, In g groups -> length (snd (fst g)) = length (fst (fst g))) ->
    length (concat (map (fun g => dof_inds vec (snd (fst g)) (snd g)) groups)) = length (all_pairs groups).
  Proof. intros H. now rewrite <- pairs_fst, map_length. Qed.

  Section Groups.
    Variable groups : list (list nat * list nat * nat).
    Hypothesis HG : mapM (periodic_group near pts info) (seq 0 (length (pb_locs_A info))) = Ok groups.
    Lemma groups_nth i g : nth_error groups i = Some g -> periodic_group near pts info i = Ok g.
    Proof.
      intros E. destruct (mapM_inv _ _ _ HG) as [L G].
      assert (Hi : i < length groups) by (apply nth_error_Some; congruence). rewrite L in Hi.
      assert (Ei : nth_error (seq 0 (length (pb_locs_A info))) i = Some i).
      { rewrite (nth_error_nth' _ 0) by auto. rewrite seq_nth; [reflexivity|]. now rewrite seq_length in Hi. }
      destruct (G i i Ei) as (b & Eb & Pb). congruence.
    Qed.
    Lemma groups_some i : i < length (pb_locs_A info) -> exists g, nth_error groups i = Some g.
    Proof.
      intros Hi. destruct (mapM_inv _ _ _ HG) as [L G]. rewrite seq_length in L. destruct (nth_error groups i) eqn:E; [eauto|].
      apply nth_error_None in E. lia.
    Qed.
    Lemma groups_len g : In g groups -> length (snd (fst g)) = length (fst (fst g)).
    Proof.
      intros H. apply In_nth_error in H as (i & E). apply groups_nth in E. destruct (group_inv i g E) as (fA & fB & c & _ & _ & _ & _ & _ & HL & _). exact HL.
    Qed.
    Lemma in_pairs b a : In (b, a) (all_pairs groups) <-> exists i nA nB c, tied i nA nB c /\ b = dof vec nB c /\ a = dof vec nA c.
    Proof.
      unfold all_pairs. rewrite in_concat. split.
      - intros (x & Hx & Hb). apply in_map_iff in Hx as (g & <- & Hg). apply in_map_iff in Hb as ([nA nB] & E & Hq). injection E as <- <-.
        apply In_nth_error in Hg as (i & Eg). apply groups_nth in Eg. destruct (group_inv i g Eg) as (fA & fB & c & _ & _ & _ & _ & Ec & _ & T).
        apply T in Hq. exists i, nA, nB, c. rewrite Ec. auto.
      - intros (i & nA & nB & c & HT & -> & ->).
        assert (Hi : i < length (pb_locs_A info)) by (destruct HT as (fA & fB & m & E & _); apply nth_error_Some; congruence).
        destruct (groups_some i Hi) as (g & Eg). pose proof (groups_nth i g Eg) as Pg.
        destruct (group_inv i g Pg) as (fA & fB & c' & _ & _ & E3 & _ & Ec & _ & T).
        assert (Hc : c' = c) by (destruct HT as (fA' & fB' & m & _ & _ & _ & E & _); congruence). rewrite Hc in Ec, T.
        exists (map (fun q => (dof vec (snd q) (snd g), dof vec (fst q) (snd g))) (combine (fst (fst g)) (snd (fst g)))). split.
        + apply in_map_iff. exists g. split; auto. eapply nth_error_In; eauto.
        + apply in_map_iff. exists (nA, nB). cbn [fst snd]. rewrite Ec. split; auto. now apply T.
    Qed.
    (** different pairs have different slaves *)
    Lemma nodup_concat {A} (L : list (list A)) : (forall i x, nth_error L i = Some x -> NoDup x) ->
      (forall i j x y a, nth_error L i = Some x -> nth_error L j = Some y -> In a x -> In a y -> i = j) -> NoDup (concat L).
    Proof.
      induction L as [|x L IH]; intros H1 H2; [constructor|]. cbn.
      assert (IHL : NoDup (concat L)).
      { apply IH; [intros i y E; apply (H1 (S i) y E)|]. intros i j y z a Ey Ez Hy Hz. pose proof (H2 (S i) (S j) y z a Ey Ez Hy Hz). lia. }
      assert (Hx : NoDup x) by (apply (H1 0 x); reflexivity).
      assert (D : forall a, In a x -> ~ In a (concat L)).
      { intros a Ha Hc. apply in_concat in Hc as (y & Hy & Hay). apply In_nth_error in Hy as (j & Ej). pose proof (H2 0 (S j) x y a eq_refl Ej Ha Hay). lia. }
      clear - Hx IHL D. induction x as [|a x IH]; [exact IHL|]. cbn. inversion Hx; subst. constructor.
      - rewrite in_app_iff. intros [H|H]; [tauto|]. apply (D a); [now left|auto].
      - apply IH; auto. intros b Hb. apply D. now right.
    Qed.
    Lemma distinct_nodup : distinct_slaves near info pts vec -> NoDup (map fst (all_pairs groups)).
    Proof.
      intros D. rewrite pairs_fst by exact groups_len. apply nodup_concat.
      - intros i x E. rewrite nth_error_map in E. destruct (nth_error groups i) as [g|] eqn:Eg; [|discriminate]. injection E as <-.
        pose proof (groups_nth i g Eg) as Pg. destruct (group_inv i g Pg) as (fA & fB & c & _ & _ & _ & EA & Ec & HL & T).
        assert (NA : NoDup (fst (fst g))) by (rewrite EA; apply argwhere_nodup).
        rewrite Ec. clear Ec. revert NA HL T. generalize (fst (fst g)) (snd (fst g)). intros la lb NA HL T.
        assert (T' : forall nA nB, In (nA, nB) (combine la lb) -> tied i nA nB c) by (intros; now apply T). clear T.
        revert lb HL T'. induction la as [|a la IH]; intros [|b lb] HL T; try discriminate; [constructor|]. cbn. inversion NA as [|? ? N1 N2]; subst. constructor.
        + intros H. apply in_map_iff in H as (b' & Eb & Hb). apply In_nth_error in Hb as (j & Ej).
          assert (Hj : j < length la) by (cbn in HL; injection HL as <-; apply nth_error_Some; congruence).
          destruct (nth_error la j) as [a'|] eqn:Ea; [|apply nth_error_None in Ea; lia].
          assert (HP : In (a', b') (combine la lb)).
          { clear - Ea Ej. revert lb j Ea Ej; induction la as [|x la IH]; intros [|y lb] [|j] Ea Ej; try discriminate.
            - injection Ea as ->. injection Ej as ->. now left.
            - right. eapply IH; eauto. }
          assert (TT : tied i a' b' c) by (apply T; now right). assert (TB : tied i a b c) by (apply T; now left).
          destruct (D _ _ _ _ _ _ _ _ TT TB Eb) as [_ ->]. apply N1. eapply nth_error_In; eauto.
        + apply IH; auto. intros; apply T; now right.
      - intros i j x y d Ex Ey Hx Hy. rewrite nth_error_map in Ex, Ey.
        destruct (nth_error groups i) as [g|] eqn:Eg; [|discriminate]. injection Ex as <-.
        destruct (nth_error groups j) as [h|] eqn:Eh; [|discriminate]. injection Ey as <-.
        destruct (group_inv i g (groups_nth i g Eg)) as (fA & fB & c & _ & _ & _ & _ & Ec & HL & T).
        destruct (group_inv j h (groups_nth j h Eh)) as (fA' & fB' & c' & _ & _ & _ & _ & Ec' & HL' & T').
        rewrite Ec in Hx. rewrite Ec' in Hy. unfold dof_inds in Hx, Hy. apply in_map_iff in Hx as (n & En & Hn). apply in_map_iff in Hy as (n' & En' & Hn').
        assert (S : forall (la lb : list nat) q, length lb = length la -> In q lb -> exists r, In (r, q) (combine la lb)).
        { induction la as [|u la IH]; intros [|v lb] q L Hq; try discriminate; [destruct Hq|]. destruct Hq as [->|Hq]; [exists u; now left|].
          destruct (IH lb q) as (r & Hr); auto. exists r. now right. }
        destruct (S _ _ n HL Hn) as (nA & HA). destruct (S _ _ n' HL' Hn') as (nA' & HA'). apply T in HA. apply T' in HA'.
        destruct (D _ _ _ _ _ _ _ _ HA HA') as [-> _]; auto. unfold dof. congruence.
    Qed.
  End Groups.
End Pairs.
