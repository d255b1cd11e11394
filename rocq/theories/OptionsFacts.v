(** Lemmas on option dicts and their resolution. *)
From Coq Require Import String List Arith Bool Lia Permutation.
From Verif Require Import Num Fe Problem XNum PyDict Options.
Import ListNotations.
Local Open Scope string_scope.

Section Facts.
  Context {O : Type}.

  Lemma has_lookup (d : dict O) k : has d k = true <-> exists v, lookup d k = Some v.
  Proof. unfold has. destruct (lookup d k); split; intros H; eauto; try discriminate. now destruct H. Qed.
  Lemma has_false (d : dict O) k : has d k = false <-> lookup d k = None.
  Proof. unfold has. destruct (lookup d k); split; congruence. Qed.

  Lemma lookup_dset (d : dict O) k v k' : lookup (dset d k v) k' = if k' =? k then Some v else lookup d k'.
  Proof.
    induction d as [|[k0 v0] d IH]; cbn; [reflexivity|].
    destruct (k =? k0) eqn:E; cbn.
    - apply String.eqb_eq in E as ->. destruct (k' =? k0); reflexivity.
    - rewrite IH. destruct (k' =? k0) eqn:E1; [|reflexivity]. destruct (k' =? k) eqn:E2; [|reflexivity].
      apply String.eqb_eq in E1, E2. subst. now rewrite String.eqb_refl in E.
  Qed.

  Lemma lookup_app (d1 d2 : dict O) k :
    lookup (d1 ++ d2)%list k = match lookup d1 k with Some v => Some v | None => lookup d2 k end.
  Proof.
    induction d1 as [|[k0 v0] d1 IH]; cbn; [reflexivity|]. destruct (k =? k0); [reflexivity|]. apply IH.
  Qed.

  Lemma lookup_restrict ks (d : dict O) k :
    lookup (restrict ks d) k = if in_dec string_dec k ks then lookup d k else None.
  Proof.
    induction ks as [|k0 ks IH]; [reflexivity|]. unfold restrict. cbn [flat_map]. fold (restrict ks d).
    rewrite lookup_app, IH. destruct (in_dec string_dec k (k0 :: ks)) as [I|N].
    - destruct (lookup d k0) eqn:E.
      + cbn. destruct (k =? k0) eqn:E0.
        * apply String.eqb_eq in E0 as ->. now rewrite E.
        * destruct (in_dec string_dec k ks) as [I'|N']; [reflexivity|]. destruct I as [->|I]; [|contradiction].
          now rewrite String.eqb_refl in E0.
      + cbn. destruct (in_dec string_dec k ks) as [I'|N']; [reflexivity|]. destruct I as [->|I]; [congruence|contradiction].
    - destruct (lookup d k0) eqn:E; cbn.
      + destruct (k =? k0) eqn:E0; [apply String.eqb_eq in E0 as ->; destruct N; now left|].
        destruct (in_dec string_dec k ks); [destruct N; now right|reflexivity].
      + destruct (in_dec string_dec k ks); [destruct N; now right|reflexivity].
  Qed.

  Lemma restrict_nil ks (d : dict O) : restrict ks d = [] <-> forall k, In k ks -> lookup d k = None.
  Proof.
    induction ks as [|k0 ks IH]; [split; [intros _ k []|reflexivity]|].
    unfold restrict. cbn [flat_map]. fold (restrict ks d). destruct (lookup d k0) eqn:E; cbn.
    - split; [discriminate|]. intros H. rewrite (H k0) in E by now left. discriminate.
    - rewrite IH. split; intros H k Hk.
      + destruct Hk as [<-|Hk]; auto.
      + apply H. now right.
  Qed.

  Lemma restrict_perm ks ks' (d : dict O) k : Permutation ks ks' -> lookup (restrict ks d) k = lookup (restrict ks' d) k.
  Proof.
    intros P. rewrite !lookup_restrict. destruct (in_dec string_dec k ks) as [I|N], (in_dec string_dec k ks') as [I'|N'];
      try reflexivity.
    - destruct N'. eapply Permutation_in; eassumption.
    - destruct N. eapply Permutation_in; [symmetry|]; eassumption.
  Qed.

  (** Resolution *)
  Section Orders.
    Variables mk lk nk : list string.
    Hypothesis Pm : Permutation mk METHOD_KEYS.
    Hypothesis Pl : Permutation lk LINEAR_OPTION_KEYS.
    Hypothesis Pn : Permutation nk NEWTON_OPTION_KEYS.

    Lemma filter_perm {A} (f : A -> bool) l l' : Permutation l l' -> Permutation (filter f l) (filter f l').
    Proof.
      induction 1; cbn; auto.
      - destruct (f x); auto.
      - destruct (f x), (f y); auto. constructor.
      - etransitivity; eassumption.
    Qed.
    Lemma methods_none (d : dict O) : (forall m, In m METHOD_KEYS -> lookup d m = None) -> filter (has d) mk = [].
    Proof.
      intros H. assert (P : Permutation (filter (has d) mk) (filter (has d) METHOD_KEYS)) by now apply filter_perm.
      assert (E : filter (has d) METHOD_KEYS = []).
      { cbn. unfold has. rewrite !H by (cbn; auto). reflexivity. }
      rewrite E in P. now apply Permutation_sym, Permutation_nil in P.
    Qed.

    (** the configuration of a flat dict *)
    Lemma resolve_flat (d : dict O) : (forall m, In m METHOD_KEYS -> lookup d m = None) ->
      exists cfg, resolve_solver_options mk lk nk (Some d) = Ok ("newton", cfg) /\
        (forall k, In k NEWTON_OPTION_KEYS -> lookup cfg k = lookup d k) /\
        (forall k, ~ In k NEWTON_OPTION_KEYS -> k <> "linear" -> lookup cfg k = None) /\
        ((forall k, In k LINEAR_OPTION_KEYS -> lookup d k = None) -> lookup cfg "linear" = None) /\
        ((exists k, In k LINEAR_OPTION_KEYS /\ lookup d k <> None) ->
           exists lin, lookup cfg "linear" = Some (VDict lin) /\
             (forall k, In k LINEAR_OPTION_KEYS -> lookup lin k = lookup d k) /\
             (forall k, ~ In k LINEAR_OPTION_KEYS -> lookup lin k = None)).
    Proof.
      intros H. unfold resolve_solver_options. rewrite methods_none by exact H.
      assert (L : forall k, lookup (restrict nk d) k = if in_dec string_dec k NEWTON_OPTION_KEYS then lookup d k else None).
      { intros k. rewrite (restrict_perm nk NEWTON_OPTION_KEYS d k Pn). apply lookup_restrict. }
      assert (NL : ~ In "linear" NEWTON_OPTION_KEYS) by (cbn; intuition discriminate).
      eexists. split; [reflexivity|].
      assert (C : forall k, k <> "linear" ->
        lookup (match restrict lk d with [] => restrict nk d | _ => dset (restrict nk d) "linear" (VDict (restrict lk d)) end) k
        = lookup (restrict nk d) k).
      { intros k Hk. destruct (restrict lk d); [reflexivity|]. rewrite lookup_dset.
        destruct (k =? "linear") eqn:E; [apply String.eqb_eq in E; contradiction|reflexivity]. }
      split; [|split; [|split]].
      - intros k Hk. rewrite C by (intros ->; contradiction). rewrite L. now destruct (in_dec string_dec k NEWTON_OPTION_KEYS).
      - intros k Hk Hl. rewrite C by exact Hl. rewrite L. now destruct (in_dec string_dec k NEWTON_OPTION_KEYS).
      - intros Hn. assert (restrict lk d = []) as ->.
        { apply restrict_nil. intros k Hk. apply Hn. eapply Permutation_in; eassumption. }
        rewrite L. now destruct (in_dec string_dec "linear" NEWTON_OPTION_KEYS).
      - intros (k & Hk & Hd). destruct (restrict lk d) as [|x l] eqn:E.
        { exfalso. apply Hd. rewrite restrict_nil in E. apply E. eapply Permutation_in; [symmetry|]; eassumption. }
        rewrite lookup_dset, String.eqb_refl. exists (x :: l). split; [reflexivity|]. rewrite <- E.
        split; intros k' Hk'; rewrite (restrict_perm lk LINEAR_OPTION_KEYS d k' Pl), lookup_restrict;
          now destruct (in_dec string_dec k' LINEAR_OPTION_KEYS).
    Qed.

    Lemma mk_in m : In m METHOD_KEYS -> In m mk.
    Proof. intros. eapply Permutation_in; [symmetry|]; eassumption. Qed.
    Lemma mk_nodup : NoDup mk.
    Proof. eapply Permutation_NoDup; [symmetry; exact Pm|]. repeat constructor; cbn; intuition discriminate. Qed.

    Lemma methods_one (d : dict O) m : In m METHOD_KEYS -> lookup d m <> None ->
      (forall m', In m' METHOD_KEYS -> m' <> m -> lookup d m' = None) -> filter (has d) mk = [m].
    Proof.
      intros Hm Hd Ho.
      assert (F : forall x, In x (filter (has d) mk) <-> x = m).
      { intros x. rewrite filter_In. split.
        - intros [Hx Hh]. destruct (string_dec x m) as [->|N]; [reflexivity|]. exfalso.
          assert (Hx' : In x METHOD_KEYS) by (eapply Permutation_in; eassumption).
          apply has_lookup in Hh as [v Hv]. rewrite (Ho x Hx' N) in Hv. discriminate.
        - intros ->. split; [now apply mk_in|]. apply has_lookup. destruct (lookup d m); [eauto|congruence]. }
      assert (ND : NoDup (filter (has d) mk)) by (apply NoDup_filter, mk_nodup).
      destruct (filter (has d) mk) as [|x [|y l]] eqn:E.
      - exfalso. destruct (proj2 (F m) eq_refl).
      - f_equal. apply F. now left.
      - exfalso. assert (x = m) by (apply F; now left). assert (y = m) by (apply F; right; now left).
        subst. inversion ND as [|? ? N _]. apply N. now left.
    Qed.
    Lemma methods_two (d : dict O) m m' : In m METHOD_KEYS -> In m' METHOD_KEYS -> m <> m' ->
      lookup d m <> None -> lookup d m' <> None -> exists x y l, filter (has d) mk = x :: y :: l.
    Proof.
      intros Hm Hm' N Hd Hd'.
      assert (I : In m (filter (has d) mk)).
      { apply filter_In. split; [now apply mk_in|]. apply has_lookup. destruct (lookup d m); [eauto|congruence]. }
      assert (I' : In m' (filter (has d) mk)).
      { apply filter_In. split; [now apply mk_in|]. apply has_lookup. destruct (lookup d m'); [eauto|congruence]. }
      destruct (filter (has d) mk) as [|x [|y l]]; eauto.
      - destruct I.
      - exfalso. destruct I as [<-|[]], I' as [<-|[]]. now apply N.
    Qed.

    Lemma resolve_method (d : dict O) m : In m METHOD_KEYS ->
      (forall m', In m' METHOD_KEYS -> m' <> m -> lookup d m' = None) ->
      (forall c, lookup d m = Some (VDict c) -> resolve_solver_options mk lk nk (Some d) = Ok (m, c)) /\
      (forall v, lookup d m = Some v -> (forall c, v <> VDict c) -> resolve_solver_options mk lk nk (Some d) = Err ValueErr).
    Proof.
      intros Hm Ho. split.
      - intros c Hc. unfold resolve_solver_options. rewrite (methods_one d m) by (auto; congruence). now rewrite Hc.
      - intros v Hv N. unfold resolve_solver_options. rewrite (methods_one d m) by (auto; congruence). rewrite Hv.
        destruct v; try reflexivity. now destruct (N d0).
    Qed.
    Lemma resolve_two (d : dict O) m m' : In m METHOD_KEYS -> In m' METHOD_KEYS -> m <> m' ->
      lookup d m <> None -> lookup d m' <> None -> resolve_solver_options mk lk nk (Some d) = Err ValueErr.
    Proof.
      intros. unfold resolve_solver_options. destruct (methods_two d m m') as (x & y & l & ->); auto.
    Qed.
    Lemma resolve_none : resolve_solver_options mk lk nk None = resolve_solver_options mk lk nk (Some (@nil (string * pyval O))).
    Proof. reflexivity. Qed.
  End Orders.

  (** Dispatch *)
  Lemma with_default_some (d : dict O) k : In k LINEAR_OPTION_KEYS -> lookup d k <> None -> with_default d = d.
  Proof.
    intros Hk Hd. unfold with_default. replace (existsb (has d) LINEAR_OPTION_KEYS) with true; [reflexivity|].
    symmetry. apply existsb_exists. exists k. split; [exact Hk|]. unfold has. destruct (lookup d k); congruence.
  Qed.
  Lemma with_default_none (d : dict O) : (forall k, In k LINEAR_OPTION_KEYS -> lookup d k = None) ->
    with_default d = dset d "jax_solver" (VDict []).
  Proof.
    intros H. unfold with_default. replace (existsb (has d) LINEAR_OPTION_KEYS) with false; [reflexivity|].
    symmetry. apply Bool.not_true_iff_false. intros E. apply existsb_exists in E as (k & Hk & Hh).
    unfold has in Hh. now rewrite (H k Hk) in Hh.
  Qed.
  Lemma default_has (d : dict O) : exists k, In k LINEAR_OPTION_KEYS /\ lookup (with_default d) k <> None.
  Proof.
    unfold with_default. destruct (existsb (has d) LINEAR_OPTION_KEYS) eqn:E.
    - apply existsb_exists in E as (k & Hk & Hh). exists k. split; [exact Hk|]. unfold has in Hh. destruct (lookup d k); congruence.
    - exists "jax_solver". split; [now left|]. rewrite lookup_dset. cbn. discriminate.
  Qed.
  Lemma with_default_idem (d : dict O) : with_default (with_default d) = with_default d.
  Proof. destruct (default_has d) as (k & Hk & Hh). eapply with_default_some; eassumption. Qed.
  Lemma dispatch_stable (d : dict O) : linear_dispatch (fst (linear_dispatch d)) = linear_dispatch d.
  Proof. unfold linear_dispatch. cbn [fst]. now rewrite with_default_idem. Qed.
  (** the dispatch only looks at the five keys, except that custom solvers see the whole dict *)
  Lemma with_default_ext (d d' : dict O) : (forall k, In k LINEAR_OPTION_KEYS -> lookup d k = lookup d' k) ->
    forall k, In k LINEAR_OPTION_KEYS -> lookup (with_default d) k = lookup (with_default d') k.
  Proof.
    intros H k Hk. unfold with_default.
    assert (E : existsb (has d) LINEAR_OPTION_KEYS = existsb (has d') LINEAR_OPTION_KEYS).
    { assert (G : forall ks, (forall k, In k ks -> In k LINEAR_OPTION_KEYS) -> existsb (has d) ks = existsb (has d') ks).
      { induction ks as [|k0 ks IH]; intros S; [reflexivity|]. cbn. unfold has at 1 3. rewrite (H k0) by (apply S; now left).
        rewrite IH; [reflexivity|]. intros; apply S; now right. }
      apply G. auto. }
    rewrite E. destruct (existsb (has d') LINEAR_OPTION_KEYS); [now apply H|].
    rewrite !lookup_dset. destruct (k =? "jax_solver"); [reflexivity|now apply H].
  Qed.
End Facts.
