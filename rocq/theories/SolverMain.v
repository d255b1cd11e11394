(** Facts about the top level of solver(). *)
From Coq Require Import String List Arith Lia Bool Reals ZArith Permutation.
From Verif Require Import Num Arr ArrFacts Fe Problem SpecAssembly SolverBc XNum PyDict Options OptionsFacts LinSolve Newton NewtonFacts
  ArcLength DynRelax Solver.
Import ListNotations.
Local Open Scope string_scope.

Section Main.
  Context {O V : Type}.
  Variable ravel_obj : O -> list Xops.
  Variable obj_of_sol : list (list (list Xops)) -> O.
  Variable B : backends O.
  Variable jvp : (list Xops -> list Xops) -> list Xops -> list Xops -> list Xops.
  Variable p : problem Xops V.
  Variable pts : list (list (list Xops)).
  Variable P_mat : option pmat.
  Variable callback : pyval O -> nat -> list Xops -> xr -> result unit.

  Lemma newton_shapes fuel cfg out : solve_newton ravel_obj B jvp p pts P_mat fuel cfg = Done (Ok out) -> sol_ok p (out_sol out).
  Proof.
    unfold solve_newton. destruct (initial_dofs _ _ _ _) as [d|]; [|discriminate].
    destruct (newton_update_helper _ _ _ _ _) as [[r A]|]; [|discriminate].
    destruct (num_option cfg "rel_tol" _) as [a|]; [|discriminate]. destruct (num_option cfg "tol" _) as [b|]; [|discriminate].
    destruct (newton_loop _ _ _ _ _ _ _ _ _ _) as [[st|]|]; try discriminate. intros H. injection H as H. unfold newton_finish in H.
    destruct (negb _); [discriminate|]. destruct (negb _); [discriminate|].
    destruct (match P_mat with Some _ => _ | _ => _ end) as [dofs|]; [|discriminate]. cbn [bind] in H.
    destruct (unflatten p dofs) as [s|] eqn:E; [|discriminate]. injection H as <-. cbn. apply unflatten_ok in E as [E1 ->].
    now apply sol_ok_unravel.
  Qed.
  Lemma finish_shapes fuel cfg c tr out : finish_arc_length ravel_obj obj_of_sol B jvp p pts P_mat fuel cfg c tr = Done (Ok out) ->
    sol_ok p (ao_sol out).
  Proof.
    unfold finish_arc_length. destruct (unflatten p _) as [s|] eqn:E; [|discriminate].
    destruct (xgeb _ _).
    - destruct (polish_options _ _ _) as [po|]; [|discriminate].
      destruct (solve_newton _ _ _ _ _ _ _ _) as [[o|]|] eqn:N; try discriminate. intros H. injection H as <-. cbn. exact (newton_shapes _ _ _ N).
    - intros H. injection H as <-. cbn. apply unflatten_ok in E as [E1 ->]. now apply sol_ok_unravel.
  Qed.
  Lemma arc_shapes fuel cfg out : solve_arc_length ravel_obj obj_of_sol B jvp p pts P_mat callback fuel cfg = Done (Ok out) ->
    sol_ok p (ao_sol out).
  Proof.
    unfold solve_arc_length. destruct (lookup cfg "control") as [v|]; [|discriminate]. destruct v as [| | | |c| |]; try discriminate.
    destruct (c =? "displacement").
    - unfold solve_arc_length_disp. destruct (num_option _ _ _); [|discriminate]. destruct (num_option _ _ _); [|discriminate].
      destruct (range_option _ _ _); [|discriminate]. destruct (continuation _ _ _ _ _ _) as [[tr|]|]; try discriminate. apply finish_shapes.
    - destruct (c =? "force"); [|discriminate]. unfold solve_arc_length_force. destruct (get_default _ _ _); try discriminate.
      do 4 (destruct (num_option _ _ _); [|discriminate]).
      destruct (range_option _ _ _); [|discriminate]. destruct (continuation _ _ _ _ _ _) as [[tr|]|]; try discriminate. apply finish_shapes.
  Qed.
  Lemma relax_shapes fuel cfg out : solve_dynamic_relax ravel_obj B jvp p pts P_mat fuel cfg = Done (Ok out) -> sol_ok p (do_sol out).
  Proof.
    unfold solve_dynamic_relax. destruct (match lookup cfg _ with None => _ | _ => _ end) as [g|]; [|discriminate].
    destruct (num_option _ _ _); [|discriminate]. destruct (num_option _ _ _); [|discriminate]. destruct (int_option _ _ _); [|discriminate].
    unfold dynamic_relax_solve. destruct (dr_initial _ _ _ _ _ _ _) as [d|]; [|discriminate]. destruct (dr_start _ _ _ _) as [st|]; [|discriminate].
    destruct (dr_loop _ _ _ _ _ _ _ _) as [[st'|]|]; try discriminate. intros H. injection H as H. unfold dr_finish in H.
    destruct (max_abs _) as [m|]; [|discriminate]. cbn [bind] in H. destruct (unflatten p _) as [s|] eqn:E; [|discriminate]. injection H as <-. cbn.
    apply unflatten_ok in E as [E1 ->]. now apply sol_ok_unravel.
  Qed.

  Variables mk lk nk : list string.
  Definition value_sol (r : solver_value) := match r with SolOnly s => s | SolInfo s _ => s end.
  Lemma solver_shapes fuel opts r : solver ravel_obj obj_of_sol B jvp p pts P_mat callback mk lk nk fuel opts = Done (Ok r) ->
    sol_ok p (value_sol r).
  Proof.
    unfold solver. destruct (resolve_solver_options _ _ _ _) as [[m cfg]|]; [|discriminate].
    destruct (m =? "arc_length").
    { destruct (solve_arc_length _ _ _ _ _ _ _ _ _ _) as [[o|]|] eqn:E; try discriminate. cbn [omap]. intros H. injection H as <-.
      apply arc_shapes in E. now destruct (truthy _). }
    destruct (m =? "dynamic_relax").
    { destruct (solve_dynamic_relax _ _ _ _ _ _ _ _) as [[o|]|] eqn:E; try discriminate. cbn [omap]. intros H. injection H as <-.
      exact (relax_shapes _ _ _ E). }
    destruct (solve_newton _ _ _ _ _ _ _ _) as [[o|]|] eqn:E; try discriminate. cbn [omap]. intros H. injection H as <-. exact (newton_shapes _ _ _ E).
  Qed.

  Hypothesis MK : Permutation mk METHOD_KEYS.
  Lemma resolved_method (opts : option (dict O)) m cfg : resolve_solver_options mk lk nk opts = Ok (m, cfg) ->
    m = "newton" \/ In m METHOD_KEYS /\ exists d, opts = Some d /\ lookup d m = Some (VDict cfg).
  Proof.
    unfold resolve_solver_options. cbv zeta. destruct (filter _ mk) as [|a [|b l]] eqn:E.
    - intros H. injection H as <- _. now left.
    - intros H. right. assert (I : In a (filter (has match opts with None => [] | Some d => d end) mk)) by (rewrite E; now left).
      apply filter_In in I as [I _]. destruct opts as [d|].
      + destruct (lookup d a) as [v|] eqn:L; [|discriminate]. destruct v; try discriminate. injection H as <- <-.
        split; [now apply (Permutation_in _ MK)|]. exists d. auto.
      + discriminate.
    - discriminate.
  Qed.
  Lemma pair_only_arc fuel opts s i :
    solver ravel_obj obj_of_sol B jvp p pts P_mat callback mk lk nk fuel opts = Done (Ok (SolInfo s i)) ->
    exists d cfg v, opts = Some d /\ lookup d "arc_length" = Some (VDict cfg) /\ lookup cfg "return_info" = Some v /\ truthy v = true.
  Proof.
    unfold solver. destruct (resolve_solver_options _ _ _ _) as [[m cfg]|] eqn:R; [|discriminate].
    destruct (m =? "arc_length") eqn:Em.
    - apply String.eqb_eq in Em as ->. destruct (solve_arc_length _ _ _ _ _ _ _ _ _ _) as [[o|]|]; try discriminate. cbn [omap]. intros H.
      apply resolved_method in R as [|(_ & d & -> & L)]; [discriminate|]. unfold get_default in H.
      destruct (lookup cfg "return_info") as [v|] eqn:Lv; [|discriminate]. destruct (truthy v) eqn:T; [|discriminate].
      exists d, cfg, v. auto.
    - destruct (m =? "dynamic_relax").
      + destruct (solve_dynamic_relax _ _ _ _ _ _ _ _) as [[o|]|]; discriminate.
      + destruct (solve_newton _ _ _ _ _ _ _ _) as [[o|]|]; discriminate.
  Qed.
  Lemma arc_pair fuel d cfg s : lookup d "arc_length" = Some (VDict cfg) ->
    solver ravel_obj obj_of_sol B jvp p pts P_mat callback mk lk nk fuel (Some d) = Done (Ok (SolOnly s)) ->
    lookup cfg "return_info" = None \/ exists v, lookup cfg "return_info" = Some v /\ truthy v = false.
  Proof.
    intros L. unfold solver, resolve_solver_options. cbv zeta.
    assert (I : In "arc_length" (filter (has d) mk)).
    { apply filter_In. split; [apply (Permutation_in _ (Permutation_sym MK)); cbn; auto|]. unfold has. now rewrite L. }
    destruct (filter (has d) mk) as [|a [|b l]]; [destruct I| |discriminate]. destruct I as [->|[]]. rewrite L.
    change ("arc_length" =? "arc_length") with true. cbv iota. destruct (solve_arc_length _ _ _ _ _ _ _ _ _ _) as [[o|]|]; try discriminate. cbn [omap]. unfold get_default.
    destruct (lookup cfg "return_info") as [v|]; [|now left]. destruct (truthy v) eqn:T; [discriminate|]. intros _. right. eauto.
  Qed.
End Main.
