(** Newton depends on its option dict only through the recognised options. *)
From Coq Require Import String List Arith Lia Bool Reals Permutation.
From Verif Require Import Num Arr Fe Problem SolverBc XNum PyDict Options OptionsFacts LinSolve Newton SpecSolver.
Import ListNotations.
Local Open Scope string_scope.

Section Sim.
  Context {O V : Type}.
  Variable ravel_obj : O -> list Xops.
  Variable B : backends O.
  Variable jvp : (list Xops -> list Xops) -> list Xops -> list Xops -> list Xops.
  Variable p : problem Xops V.
  Variable pts : list (list (list Xops)).
  Variable P_mat : option pmat.
  (** a custom solver sees only the contents of the dict *)
  Hypothesis custom_ext : forall t f A b x0 (l l' : dict O), (forall k, lookup l k = lookup l' k) ->
    b_custom B t f A b x0 l = b_custom B t f A b x0 l'.

  Definition lin_sim (l l' : dict O) : Prop := forall k, lookup (with_default l) k = lookup (with_default l') k.

  Lemma choose_ext t A b x0 (l l' : dict O) : (forall k, lookup l k = lookup l' k) ->
    bind (choose l) (run_call B t A b x0) = bind (choose l') (run_call B t A b x0).
  Proof.
    intros H. unfold choose. rewrite !H.
    destruct (lookup l' "jax_solver"); [reflexivity|]. destruct (lookup l' "amgx_solver"); [reflexivity|].
    destruct (lookup l' "spsolve_solver"); [reflexivity|]. destruct (lookup l' "petsc_solver"); [reflexivity|].
    destruct (lookup l' "custom_solver"); [|reflexivity]. cbn [bind run_call]. now apply custom_ext.
  Qed.
  Lemma linear_solver_sim t A b x0 l l' : lin_sim l l' ->
    snd (linear_solver B t A b x0 l) = snd (linear_solver B t A b x0 l') /\
    lin_sim (fst (linear_solver B t A b x0 l)) (fst (linear_solver B t A b x0 l')).
  Proof.
    intros H. unfold linear_solver, linear_dispatch. cbv zeta. cbn [fst snd]. split; [now apply choose_ext|].
    intros k. rewrite !with_default_idem. apply H.
  Qed.

  Definition cfg_sim (c c' : dict O) : Prop :=
    lookup c "line_search_flag" = lookup c' "line_search_flag" /\
    match linear_options_of c, linear_options_of c' with
    | Ok l, Ok l' => lin_sim l l'
    | Err e, Err e' => e = e'
    | _, _ => False
    end.

  Lemma back_sim (c l lo : dict O) : linear_options_of c = Ok l -> lo = with_default l ->
    lookup (linear_options_back c lo) "line_search_flag" = lookup c "line_search_flag" /\
    exists l2, linear_options_of (linear_options_back c lo) = Ok l2 /\ with_default l2 = with_default l.
  Proof.
    unfold linear_options_of, linear_options_back, has. intros H ->. destruct (lookup c "linear") as [v|] eqn:E.
    - destruct v; try discriminate. injection H as <-. rewrite !lookup_dset. cbn [String.eqb Ascii.eqb Bool.eqb].
      split; [reflexivity|]. eexists. split; [reflexivity|]. apply with_default_idem.
    - injection H as <-. rewrite E. split; [reflexivity|]. eexists. split; reflexivity.
  Qed.

  Lemma step_sim t r A d (c c' : dict O) : cfg_sim c c' ->
    match newton_step B p pts P_mat t r A d c, newton_step B p pts P_mat t r A d c' with
    | Ok (x, c1), Ok (x', c1') => x = x' /\ cfg_sim c1 c1'
    | Err e, Err e' => e = e'
    | _, _ => False
    end.
  Proof.
    intros [Hf Hl]. unfold newton_step. cbv zeta.
    destruct (match P_mat with Some P => _ | None => _ end) as [x0|]; [|reflexivity]. cbn [bind].
    destruct (linear_options_of c) as [l|] eqn:El, (linear_options_of c') as [l'|] eqn:El'; try contradiction; [|now cbn].
    cbn [bind]. pose proof (linear_solver_sim t A (vneg r) (Some x0) l l' Hl) as [S1 S2].
    assert (F1 : fst (linear_solver B t A (vneg r) (Some x0) l) = with_default l) by reflexivity.
    assert (F2 : fst (linear_solver B t A (vneg r) (Some x0) l') = with_default l') by reflexivity.
    destruct (linear_solver B t A (vneg r) (Some x0) l) as [lo rr], (linear_solver B t A (vneg r) (Some x0) l') as [lo' rr'].
    cbn [fst snd] in *. subst rr'. destruct rr as [inc|]; [|reflexivity]. cbn [bind]. unfold get_default. rewrite Hf.
    destruct (if truthy _ then _ else _) as [x|]; [|reflexivity]. cbn [bind]. split; [reflexivity|].
    destruct (back_sim c l lo El F1) as (A1 & l2 & A2 & A3). destruct (back_sim c' l' lo' El' F2) as (B1 & l2' & B2 & B3).
    split; [now rewrite A1, B1|]. rewrite A2, B2. intros k. rewrite A3, B3. apply Hl.
  Qed.

  (** same states up to the option dict *)
  Definition st_sim (s s' : newton_state (O := O)) : Prop :=
    st_dofs s = st_dofs s' /\ st_res s = st_res s' /\ st_A s = st_A s' /\ st_iters s = st_iters s' /\
    cfg_sim (st_cfg s) (st_cfg s').
  Notation out_sim := same_outcome.

  Lemma loop_sim fuel : forall rel tol r0 s s', st_sim s s' ->
    out_sim st_sim (newton_loop B jvp p pts P_mat fuel rel tol r0 s) (newton_loop B jvp p pts P_mat fuel rel tol r0 s').
  Proof.
    induction fuel as [|fuel IH]; intros rel tol r0 s s' S; pose proof S as S0; destruct S0 as (E1 & E2 & E3 & E4 & E5); cbn [newton_loop];
      rewrite <- E2; destruct (keeps_going _ _ _ _); try exact I; try exact S.
    rewrite <- E1, <- E3, <- E4.
    pose proof (step_sim (st_iters s) (st_res s) (st_A s) (st_dofs s) _ _ E5) as SS.
    destruct (newton_step B p pts P_mat _ _ _ _ (st_cfg s)) as [[x c1]|], (newton_step B p pts P_mat _ _ _ _ (st_cfg s')) as [[x' c1']|];
      try contradiction; [|exact SS]. destruct SS as [<- SC].
    destruct (newton_update_helper jvp p pts P_mat x) as [[r A]|]; [|reflexivity].
    apply IH. repeat split; auto; apply SC.
  Qed.

  Lemma solve_sim fuel c c' : cfg_sim c c' ->
    (forall k, In k NEWTON_OPTION_KEYS -> lookup c k = lookup c' k) ->
    out_sim (fun o o' => out_sol o = out_sol o' /\ out_iters o = out_iters o')
      (solve_newton ravel_obj B jvp p pts P_mat fuel c) (solve_newton ravel_obj B jvp p pts P_mat fuel c').
  Proof.
    intros S H. unfold solve_newton, initial_dofs, num_option. rewrite !(H "initial_guess"), !(H "rel_tol"), !(H "tol") by (cbn; tauto).
    destruct (match lookup c' "initial_guess" with Some _ => _ | None => _ end) as [d|]; [|reflexivity].
    destruct (newton_update_helper jvp p pts P_mat d) as [[r A]|]; [|reflexivity].
    destruct (match lookup c' "rel_tol" with Some _ => _ | None => _ end) as [rel|]; [|reflexivity].
    destruct (match lookup c' "tol" with Some _ => _ | None => _ end) as [tol|]; [|reflexivity].
    pose proof (loop_sim fuel rel tol (xnorm r) (mkState d r A 0 c) (mkState d r A 0 c')) as L.
    destruct (newton_loop _ _ _ _ _ _ _ _ _ (mkState d r A 0 c)) as [[s|]|], (newton_loop _ _ _ _ _ _ _ _ _ (mkState d r A 0 c')) as [[s'|]|];
      cbn [out_sim] in L; try (exfalso; apply L; now (repeat split; auto; apply S)); try exact I.
    - assert (SS : st_sim s s') by (apply L; repeat split; auto; apply S). destruct SS as (E1 & E2 & E3 & E4 & E5).
      cbn [out_sim]. unfold newton_finish. rewrite <- E1, <- E2, <- E4. destruct (negb _); [reflexivity|]. destruct (negb _); [reflexivity|].
      destruct (match P_mat with Some _ => _ | None => _ end); [|reflexivity]. cbn [bind]. destruct (unflatten p _); [|reflexivity].
      cbn [bind]. cbn. auto.
    - cbn [out_sim]. apply L. repeat split; auto; apply S.
  Qed.
End Sim.
