(** Flat and nested option dicts lead to the same solve. *)
From Coq Require Import String List Arith Lia Bool Reals Permutation.
From Verif Require Import Num Arr Fe Problem SolverBc XNum PyDict Options OptionsFacts LinSolve Newton SpecSolver ConfigFacts.
Import ListNotations.
Local Open Scope string_scope.

Section Resolve.
  Context {O V : Type}.
  Variable ravel_obj : O -> list Xops.
  Variable B : backends O.
  Variable jvp : (list Xops -> list Xops) -> list Xops -> list Xops -> list Xops.
  Variable p : problem Xops V.
  Variable pts : list (list (list Xops)).
  Variable P_mat : option pmat.
  Hypothesis custom_ext : custom_reads_contents B.

  Lemma with_default_ext_all (d d' : dict O) : (forall k, lookup d k = lookup d' k) ->
    forall k, lookup (with_default d) k = lookup (with_default d') k.
  Proof.
    intros H k. unfold with_default.
    assert (E : existsb (has d) LINEAR_OPTION_KEYS = existsb (has d') LINEAR_OPTION_KEYS).
    { induction LINEAR_OPTION_KEYS as [|k0 ks IH]; [reflexivity|]. cbn. rewrite IH. unfold has. now rewrite H. }
    rewrite E. destruct (existsb (has d') LINEAR_OPTION_KEYS); [apply H|]. rewrite !lookup_dset. now rewrite H.
  Qed.

  Lemma nested_same (flat c c' : dict O) fuel : nested_form flat c -> nested_form flat c' ->
    same_outcome same_solution (solve_newton ravel_obj B jvp p pts P_mat fuel c) (solve_newton ravel_obj B jvp p pts P_mat fuel c').
  Proof.
    intros [H1 H2] [H1' H2']. apply solve_sim; [exact custom_ext| |].
    - split; [rewrite H1, H1' by (cbn; tauto); reflexivity|]. unfold linear_options_of.
      destruct (existsb (has flat) LINEAR_OPTION_KEYS) eqn:E.
      + destruct H2 as (l & -> & L1 & L2), H2' as (l' & -> & L1' & L2'). intros k. apply with_default_ext_all. intros k'.
        destruct (in_dec string_dec k' LINEAR_OPTION_KEYS) as [I|N].
        * now rewrite L1, L1'.
        * now rewrite L2, L2'.
      + destruct H2 as [->| ->], H2' as [->| ->]; intros k; reflexivity.
    - intros k Hk. now rewrite H1, H1'.
  Qed.

  Section Orders.
    Variables mk lk nk : list string.
    Hypothesis Pm : Permutation mk METHOD_KEYS.
    Hypothesis Pl : Permutation lk LINEAR_OPTION_KEYS.
    Hypothesis Pn : Permutation nk NEWTON_OPTION_KEYS.

    Lemma flat_resolves (d : dict O) : (forall m, In m METHOD_KEYS -> lookup d m = None) ->
      exists cfg, resolve_solver_options mk lk nk (Some d) = Ok ("newton", cfg) /\ nested_form d cfg /\
        forall k, ~ In k NEWTON_OPTION_KEYS -> k <> "linear" -> lookup cfg k = None.
    Proof.
      intros H. destruct (resolve_flat mk lk nk Pm Pl Pn d H) as (cfg & E & H1 & H2 & H3 & H4).
      exists cfg. split; [exact E|]. split; [|exact H2]. split; [exact H1|].
      destruct (existsb (has d) LINEAR_OPTION_KEYS) eqn:Ex.
      - apply existsb_exists in Ex as (k & Hk & Hh). apply H4. exists k. split; [exact Hk|]. unfold has in Hh.
        destruct (lookup d k); congruence.
      - left. apply H3. intros k Hk. apply has_false. apply not_true_iff_false. intros Hh.
        apply not_true_iff_false in Ex. apply Ex. apply existsb_exists. eauto.
    Qed.
    Lemma nested_form_ext (d d' c : dict O) :
      (forall k, In k NEWTON_OPTION_KEYS \/ In k LINEAR_OPTION_KEYS -> lookup d k = lookup d' k) ->
      nested_form d c -> nested_form d' c.
    Proof.
      intros H [H1 H2]. split; [intros k Hk; rewrite H1 by exact Hk; auto|].
      assert (E : existsb (has d) LINEAR_OPTION_KEYS = existsb (has d') LINEAR_OPTION_KEYS).
      { assert (G : forall ks, (forall k, In k ks -> In k LINEAR_OPTION_KEYS) -> existsb (has d) ks = existsb (has d') ks).
        { induction ks as [|k0 ks IH]; intros S; [reflexivity|]. cbn. unfold has at 1 3. rewrite (H k0) by (right; apply S; now left).
          rewrite IH; [reflexivity|]. intros; apply S; now right. }
        apply G. auto. }
      rewrite E in H2. destruct (existsb (has d') LINEAR_OPTION_KEYS); [|exact H2].
      destruct H2 as (lin & L & A & Bq). exists lin. split; [exact L|]. split; [|exact Bq]. intros k Hk. rewrite A by exact Hk. auto.
    Qed.
    Lemma flat_is_nested (flat nested opts : dict O) fuel :
      (forall m, In m METHOD_KEYS -> lookup flat m = None) ->
      nested_form flat nested ->
      lookup opts "newton" = Some (VDict nested) -> lookup opts "arc_length" = None -> lookup opts "dynamic_relax" = None ->
      exists c c', resolve_solver_options mk lk nk (Some flat) = Ok ("newton", c) /\
        resolve_solver_options mk lk nk (Some opts) = Ok ("newton", c') /\
        same_outcome same_solution (solve_newton ravel_obj B jvp p pts P_mat fuel c) (solve_newton ravel_obj B jvp p pts P_mat fuel c').
    Proof.
      intros H N L1 L2 L3. destruct (flat_resolves flat H) as (c & E & Nc & _). exists c, nested. split; [exact E|]. split.
      - apply (resolve_method mk lk nk Pm opts "newton"); [cbn; tauto| |exact L1].
        intros m' [<-|[<-|[<-|[]]]] D; congruence.
      - eapply nested_same; eassumption.
    Qed.
    Lemma unrecognised_ignored (d d' : dict O) fuel :
      (forall m, In m METHOD_KEYS -> lookup d m = None) -> (forall m, In m METHOD_KEYS -> lookup d' m = None) ->
      (forall k, In k NEWTON_OPTION_KEYS \/ In k LINEAR_OPTION_KEYS -> lookup d k = lookup d' k) ->
      exists c c', resolve_solver_options mk lk nk (Some d) = Ok ("newton", c) /\
        resolve_solver_options mk lk nk (Some d') = Ok ("newton", c') /\
        same_outcome same_solution (solve_newton ravel_obj B jvp p pts P_mat fuel c) (solve_newton ravel_obj B jvp p pts P_mat fuel c').
    Proof.
      intros H H' E. destruct (flat_resolves d H) as (c & Ec & Nc & _). destruct (flat_resolves d' H') as (c' & Ec' & Nc' & _).
      exists c, c'. split; [exact Ec|]. split; [exact Ec'|]. eapply nested_same; [|exact Nc']. eapply nested_form_ext; eassumption.
    Qed.
  End Orders.
End Resolve.
