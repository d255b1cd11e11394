(** The arc-length method: corrector loops and continuation, proofs. *)
From Coq Require Import String List Arith Lia Bool Reals Lra ZArith.
From Verif Require Import Num Arr ArrFacts Fe Problem SolverBc BcFacts XNum PyDict Options LinSolve Newton SpecNewton NewtonFacts
  ArcLength SpecArc ArcFacts.
Import ListNotations.
Local Open Scope R_scope.

Lemma update_on_arc psi Dl load u0 lam0 st ub ut st' n : update_facts psi Dl load u0 lam0 st ub ut st' n ->
  finite_on_arc psi Dl load u0 lam0 (ar_u st') (ar_lam st') /\
  ar_du st' = vsub (ar_u st') u0 /\ ar_dlam st' = xsub (ar_lam st') lam0.
Proof.
  intros [(psi' & d & q & u0' & l0 & x & l & b & t & s & s1 & s2 & -> & -> & -> & -> & -> & _ & _ & _ & _ & L1 & L2 & L3 & _ & A & Hs & -> & _)].
  split; [|split].
  - exists psi', d, q, u0', l0, (radd x (radd b (rscale s t))), (l + s). repeat (split; [reflexivity|]). now apply A.
  - cbn [ar_du ar_u]. symmetry. exact (map2_Fin Rminus xsub (fun a b => eq_refl) _ _).
  - reflexivity.
Qed.

(** of the points of the line that are on the arc, the chosen one is the best *)
Lemma update_choice psi Dl load u0 lam0 st ub ut st' n dx dl :
  update_facts psi Dl load u0 lam0 st ub ut st' n -> ar_du st = map Fin dx -> ar_dlam st = Fin dl ->
  exists psi' d q u0' l0 x l b t s,
    psi = Fin psi' /\ Dl = Fin d /\ load = map Fin q /\ u0 = map Fin u0' /\ lam0 = Fin l0 /\
    ar_u st = map Fin x /\ ar_lam st = Fin l /\ ub = map Fin b /\ ut = map Fin t /\
    let cand z := radd x (radd b (rscale z t)) in
    let prod z := arc_dot psi' q dx dl (rsub (cand z) u0') (l + z - l0) in
    let valid z := on_arc psi' d q u0' l0 (cand z) (l + z) in
    ar_u st' = map Fin (cand s) /\ ar_lam st' = Fin (l + s) /\ valid s /\
    ((forall z, valid z -> Rabs (prod z) < / 10 ^ 10) -> forall z, valid z -> l + z <= l + s) /\
    ((exists z, valid z /\ / 10 ^ 10 <= Rabs (prod z)) -> forall z, valid z -> prod z <= prod s).
Proof.
  intros [(psi' & d & q & u0' & l0 & x & l & b & t & s & s1 & s2 & E1 & E2 & E3 & E4 & E5 & E6 & E7 & E8 & E9 & L1 & L2 & L3 & _ & A & Hs & E10 & C)] Hdx Hdl.
  exists psi', d, q, u0', l0, x, l, b, t, s. repeat (split; [assumption|]). intros cand prod valid.
  rewrite E10. split; [reflexivity|]. split; [reflexivity|]. split; [now apply A|].
  specialize (C dx dl Hdx Hdl). cbv zeta in C.
  assert (V1 : valid s1) by (apply A; auto). assert (V2 : valid s2) by (apply A; auto).
  split.
  - intros Small z Hz. apply A in Hz. destruct C as [(_ & _ & ? & ?)|(N & _)].
    + destruct Hz as [->| ->]; lra.
    + exfalso. apply N. split; apply Small; assumption.
  - intros (z0 & V0 & B0) z Hz. apply A in Hz. destruct C as [(S1 & S2 & _)|(_ & ? & ?)].
    + exfalso. change (Rabs (prod s1) < / 10 ^ 10) in S1. change (Rabs (prod s2) < / 10 ^ 10) in S2.
      apply A in V0 as [->| ->]; lra.
    + destruct Hz as [->| ->]; assumption.
Qed.

(** ** Loops *)
Lemma loop_last body fuel : forall r st st', xgtb r (Fin (/ 10 ^ 6)) = true ->
  arc_loop body fuel r st = Done (Ok st') ->
  exists k st1 r', iterations body k st st1 /\ body st1 = Ok (r', st') /\ xgtb r' (Fin (/ 10 ^ 6)) = false.
Proof.
  induction fuel as [|fuel IH]; intros r st st' Hr H; cbn [arc_loop] in H; rewrite Hr in H; [discriminate|].
  destruct (body st) as [[r1 st1]|] eqn:E; [|discriminate].
  destruct (xgtb r1 (Fin (/ 10 ^ 6))) eqn:G.
  - apply IH in H; [|exact G]. destruct H as (k & st2 & r2 & H1 & H2 & H3). exists (S k), st2, r2.
    split; [econstructor; eassumption|]. auto.
  - destruct fuel; cbn [arc_loop] in H; rewrite G in H; injection H as <-; exists 0%nat, st, r1; split; [constructor| |constructor|]; auto.
Qed.
Lemma tol_lt_1 : xgtb (Fin 1) (Fin (/ 10 ^ 6)) = true.
Proof.
  unfold xgtb. cbn [xltb]. apply Rltb_true. rewrite <- Rinv_1 at 1. apply Rinv_lt_contravar; [|lra]. lra.
Qed.
Lemma iterations_last body k st st' : iterations body (S k) st st' -> exists st1 r, iterations body k st st1 /\ body st1 = Ok (r, st').
Proof.
  revert st. induction k as [|k IH]; intros st H; inversion H as [|k' s r s1 s2 E G I]; subst.
  - inversion I; subst. exists st, r. split; [constructor|exact E].
  - apply IH in I as (s3 & r3 & I & E3). exists s3, r3. split; [econstructor; eassumption|exact E3].
Qed.

Section Main.
  Context {O V : Type}.
  Variable ravel_obj : O -> list Xops.
  Variable obj_of_sol : list (list (list Xops)) -> O.
  Variable B : backends O.
  Variable jvp : (list Xops -> list Xops) -> list Xops -> list Xops -> list Xops.
  Variable p : problem Xops V.
  Variable pts : list (list (list Xops)).
  Variable P_mat : option pmat.
  Variable callback : pyval O -> nat -> list Xops -> xr -> result unit.

  Lemma disp_body_inv psi Dl u0 lam0 st r st' : disp_body B jvp p pts P_mat psi Dl u0 lam0 st = Ok (r, st') ->
    exists res A ub ut, arc_residual jvp p pts P_mat (ar_lam st) (ar_u st) = Ok (res, A) /\ r = xnorm res /\
      b_spsolve B (ar_solves st) A (vneg res) = Ok ub /\
      b_spsolve B (S (ar_solves st)) A (assign_bc (map (fun _ => zero) u0) p) = Ok ut /\
      update_facts psi Dl (assign_bc (map (fun _ => zero) u0) p) u0 lam0 st ub ut st' (S (S (ar_solves st))).
  Proof.
    unfold disp_body. intros H.
    destruct (arc_residual _ _ _ _ _ _) as [[res A]|] eqn:Er; [|discriminate]. cbn [bind] in H.
    unfold scipy_spsolve in H.
    destruct (b_spsolve B (ar_solves st) A _) as [ub|] eqn:Eb; [|discriminate]. cbn [bind] in H.
    destruct (b_spsolve B (S _) A _) as [ut|] eqn:Et; [|discriminate]. cbn [bind] in H.
    destruct (arc_update _ _ _ _ _ _ _ _ _) as [st1|] eqn:Eu; [|discriminate]. cbn [bind] in H. injection H as <- <-.
    apply update_ok in Eu. exists res, A, ub, ut. auto.
  Qed.
  Lemma force_body_inv q psi Dl u0 lam0 st r st' : force_body B jvp p pts P_mat q psi Dl u0 lam0 st = Ok (r, st') ->
    exists res tot A ub ut, arc_residual jvp p pts P_mat (Fin 1) (ar_u st) = Ok (res, A) /\
      add_vec res (vscale (xsub (Fin 1) (ar_lam st) : Xops) (assign_zeros_bc q p)) = Ok tot /\ r = xnorm tot /\
      b_spsolve B (ar_solves st) A (vneg tot) = Ok ub /\
      b_spsolve B (S (ar_solves st)) A (assign_zeros_bc q p) = Ok ut /\
      update_facts psi Dl (assign_zeros_bc q p) u0 lam0 st ub ut st' (S (S (ar_solves st))).
  Proof.
    unfold force_body. intros H.
    destruct (arc_residual _ _ _ _ _ _) as [[res A]|] eqn:Er; [|discriminate]. cbn [bind] in H.
    destruct (add_vec res _) as [tot|] eqn:Et0; [|discriminate]. cbn [bind] in H.
    unfold scipy_spsolve in H.
    destruct (b_spsolve B (ar_solves st) A _) as [ub|] eqn:Eb; [|discriminate]. cbn [bind] in H.
    destruct (b_spsolve B (S _) A _) as [ut|] eqn:Et; [|discriminate]. cbn [bind] in H.
    destruct (arc_update _ _ _ _ _ _ _ _ _) as [st1|] eqn:Eu; [|discriminate]. cbn [bind] in H. injection H as <- <-.
    apply update_ok in Eu. exists res, tot, A, ub, ut. auto 10.
  Qed.

  (** exact linear solves give the linearised equilibrium *)
  Lemma linearised A rhs load psi Dl u0 lam0 st ub ut st' n :
    update_facts psi Dl load u0 lam0 st ub ut st' n -> solves A (vneg rhs) ub -> solves A load ut ->
    exists dl, ar_lam st' = xadd (ar_lam st) dl /\ dl = xsub (ar_lam st') (ar_lam st) /\
      solves A (vadd (vneg rhs) (vscale (dl : Xops) load)) (vsub (ar_u st') (ar_u st)).
  Proof.
    intros [(psi' & d & q & u0' & l0 & x & l & b & t & s & s1 & s2 & _ & _ & Eq & _ & _ & Ex & El & Eb & Et & L1 & L2 & L3 & _ & _ & _ & -> & _)]
      (a & r' & b' & Ha & Hr & Hb & Lr & Lb & S1) (a' & q' & t' & Ha' & Hq & Ht & Lq & Lt & S2).
    rewrite Ex, El. cbn [ar_lam ar_u]. exists (Fin s). split; [reflexivity|]. split; [cbn; f_equal; lra|].
    assert (b' = b) as -> by (apply map_Fin_inj; congruence). assert (t' = t) as -> by (apply map_Fin_inj; congruence).
    assert (q' = q) as -> by (apply map_Fin_inj; congruence).
    exists a, (radd r' (rscale s q)), (rsub (radd x (radd b (rscale s t))) x).
    split; [exact Ha|]. split.
    { rewrite Hr, Hq. rewrite (vscale_Fin s q). exact (map2_Fin Rplus xadd (fun a b => eq_refl) _ _). }
    split; [exact (map2_Fin Rminus xsub (fun a b => eq_refl) _ _)|].
    assert (Lbt : length (radd b (rscale s t)) = length b) by (rewrite radd_len; rewrite ?rscale_len; congruence).
    split; [rewrite radd_len; rewrite ?rscale_len; congruence|].
    split; [rewrite rsub_len; rewrite radd_len; congruence|].
    intros i Hi.
    assert (En : forall j, (j < m_cols A)%nat -> nth j (rsub (radd x (radd b (rscale s t))) x) 0 = nth j b 0 + s * nth j t 0).
    { intros j Hj. unfold rsub, radd, rscale.
      rewrite (nth_map2 _ _ _ _ 0 0) by (rewrite ?length_map2, ?map_length; lia).
      rewrite (nth_map2 _ _ _ _ 0 0) by (rewrite ?length_map2, ?map_length; lia).
      rewrite (nth_map2 _ _ _ _ 0 0) by (rewrite ?length_map2, ?map_length; lia).
      rewrite (nth_map_in _ _ _ 0) by lia. ring. }
    assert (Es : nth i (radd r' (rscale s q)) 0 = nth i r' 0 + s * nth i q 0).
    { unfold radd, rscale. rewrite (nth_map2 _ _ _ _ 0 0) by (rewrite ?map_length; lia).
      rewrite (nth_map_in _ _ _ 0) by lia. reflexivity. }
    rewrite Es, <- (S1 i Hi), <- (S2 i Hi).
    assert (Aa : forall j, (j < m_cols A)%nat -> a' i j = a i j).
    { intros j Hj. pose proof (Ha i j Hi Hj) as E1. pose proof (Ha' i j Hi Hj) as E2. rewrite E1 in E2. now injection E2. }
    assert (G : forall js, (forall j, In j js -> (j < m_cols A)%nat) ->
      fold_right Rplus 0 (map (fun j => a i j * nth j (rsub (radd x (radd b (rscale s t))) x) 0) js) =
      fold_right Rplus 0 (map (fun j => a i j * nth j b 0) js) + s * fold_right Rplus 0 (map (fun j => a' i j * nth j t 0) js)).
    { induction js as [|j js IH]; intros Hin; cbn [map fold_right]; [ring|].
      rewrite IH by (intros; apply Hin; now right). rewrite En, Aa by (apply Hin; now left). ring. }
    apply G. intros j Hj. apply in_seq in Hj. lia.
  Qed.

  (** *** Continuation *)
  Lemma continuation_inv (advance : nat -> arc_state -> outcome arc_state) cb n : forall step tr tr',
    continuation callback advance cb n step tr = Done (Ok tr') ->
    exists hs sts, tr_history tr' = (tr_history tr ++ hs)%list /\
      tr_calls tr' = (tr_calls tr ++ match cb with VNone => [] | _ => hs end)%list /\
      (List.length hs <= n)%nat /\ map r_step hs = seq step (List.length hs) /\
      List.length sts = S (List.length hs) /\ nth 0 sts (tr_state tr) = tr_state tr /\ last sts (tr_state tr) = tr_state tr' /\
      (forall i, (i < List.length hs)%nat ->
         advance (step + i)%nat (nth i sts (tr_state tr)) = Done (Ok (nth (S i) sts (tr_state tr))) /\
         nth i hs (mkRecord 0 NaN []) = mkRecord (step + i) (ar_lam (nth (S i) sts (tr_state tr))) (ar_u (nth (S i) sts (tr_state tr)))) /\
      (forall i, (S i < List.length hs)%nat -> xgeb (ar_lam (nth (S i) sts (tr_state tr))) (Fin 1) = false) /\
      ((List.length hs < n)%nat -> hs <> [] /\ xgeb (ar_lam (tr_state tr')) (Fin 1) = true).
  Proof.
    induction n as [|n IH]; intros step tr tr' H; cbn [continuation] in H.
    - injection H as <-. exists [], [tr_state tr]. rewrite app_nil_r. split; [reflexivity|].
      split; [destruct cb; now rewrite app_nil_r|]. cbn [List.length]. do 5 (split; [reflexivity || lia|]).
      split; [intros i Hi; lia|]. split; [intros i Hi; lia|]. lia.
    - destruct (advance step (tr_state tr)) as [[st|]|] eqn:Ea; try discriminate.
      destruct (match cb with VNone => Ok tt | _ => callback cb step (ar_u st) (ar_lam st) end) as [[]|] eqn:Ec; [|discriminate].
      set (rc := mkRecord step (ar_lam st) (ar_u st)) in *.
      set (tr1 := mkTrace st (tr_history tr ++ [rc]) (match cb with VNone => tr_calls tr | _ => (tr_calls tr ++ [rc])%list end)) in *.
      assert (Enil : (match cb with VNone => tr_calls tr | _ => (tr_calls tr ++ [rc])%list end =
                      tr_calls tr ++ match cb with VNone => [] | _ => [rc] end)%list) by (destruct cb; now rewrite ?app_nil_r).
      destruct (xgeb (ar_lam st) (Fin 1)) eqn:G.
      + injection H as <-. exists [rc], [tr_state tr; st]. cbn [tr_history tr_calls tr_state tr1]. split; [reflexivity|].
        split; [exact Enil|]. cbn [List.length map seq]. do 5 (split; [reflexivity || lia|]).
        split.
        { intros i Hi. assert (i = 0%nat) as -> by lia. cbn [nth]. rewrite Nat.add_0_r. auto. }
        split; [intros i Hi; lia|]. intros _. split; [discriminate|exact G].
      + apply IH in H as (hs & sts & H1 & H2 & H3 & H4 & H5 & H6 & H7 & H8 & H9 & H10).
        cbn [tr_state tr1] in *. exists (rc :: hs), (tr_state tr :: sts).
        assert (Hd : forall i, (i < List.length sts)%nat -> nth i sts (tr_state tr) = nth i sts st) by (intros; now apply nth_indep).
        split; [rewrite H1; unfold tr1; cbn [tr_history]; now rewrite <- app_assoc|].
        split; [rewrite H2; unfold tr1; cbn [tr_calls]; rewrite Enil, <- app_assoc; now destruct cb|].
        cbn [List.length map seq]. split; [lia|]. split; [rewrite H4; reflexivity|]. split; [lia|]. split; [reflexivity|].
        split.
        { destruct sts as [|s0 sts]; [cbn in H5; lia|]. cbn [last]. change (last (s0 :: sts) (tr_state tr) = tr_state tr').
          rewrite <- H7. clear. generalize (tr_state tr) st. revert s0. induction sts as [|s1 sts IH]; intros s0 a b; [reflexivity|].
          exact (IH s1 a b). }
        assert (S0 : nth 0 sts (tr_state tr) = st) by (rewrite Hd by lia; exact H6).
        split; [|split].
        * intros [|i] Hi.
          -- cbn [nth]. rewrite Nat.add_0_r, S0. auto.
          -- cbn [nth]. destruct (H8 i ltac:(lia)) as [H81 H82]. rewrite <- plus_n_Sm. rewrite !Hd by lia. auto.
        * intros [|i] Hi; cbn [nth]; [now rewrite S0|]. rewrite Hd by lia. apply H9. lia.
        * intros Hlt. split; [discriminate|]. apply H10. lia.
  Qed.

  Lemma last_nth_len {A} (l : list A) d : last l d = nth (List.length l - 1) l d.
  Proof.
    induction l as [|a l IH]; [reflexivity|]. destruct l as [|b l]; [reflexivity|].
    change (last (b :: l) d = nth (List.length l) (b :: l) d). rewrite IH. cbn [List.length]. now rewrite Nat.sub_succ, Nat.sub_0_r.
  Qed.

  (** A continuation from zero whose correctors end on arcs has a good history. *)
  Lemma continuation_good advance cb N psi radius load tr' :
    (forall i st st', advance i st = Done (Ok st') -> length (ar_u st) = num_total_dofs_all_vars p ->
       finite_on_arc psi (radius i) load (ar_u st) (ar_lam st) (ar_u st') (ar_lam st')) ->
    continuation callback advance cb N 0 (arc_start p) = Done (Ok tr') ->
    let h := tr_history tr' in
    good_history (num_total_dofs_all_vars p) N psi radius load h /\
    tr_calls tr' = match cb with VNone => [] | _ => h end /\
    point_before (num_total_dofs_all_vars p) h (List.length h) = (ar_u (tr_state tr'), ar_lam (tr_state tr')) /\
    List.length (ar_u (tr_state tr')) = num_total_dofs_all_vars p.
  Proof.
    intros Arc H h. apply continuation_inv in H as (hs & sts & H1 & H2 & H3 & H4 & H5 & H6 & H7 & H8 & H9 & H10).
    cbn [arc_start tr_history tr_calls tr_state app] in *. subst h. rewrite H1 in *. clear H1.
    set (s0 := mkArc (zeros (num_total_dofs_all_vars p)) (Fin 0) (zeros (num_total_dofs_all_vars p)) (Fin 0) 0) in *.
    assert (PB : forall i, (i <= List.length hs)%nat -> point_before (num_total_dofs_all_vars p) hs i = (ar_u (nth i sts s0), ar_lam (nth i sts s0))).
    { intros [|i] Hi; cbn [point_before].
      - rewrite H6. reflexivity.
      - destruct (H8 i ltac:(lia)) as [_ ->]. reflexivity. }
    assert (LL : forall i, (i <= List.length hs)%nat -> length (ar_u (nth i sts s0)) = num_total_dofs_all_vars p).
    { induction i as [|i IH]; intros Hi.
      - rewrite H6. unfold s0. cbn [ar_u]. apply repeat_length.
      - destruct (H8 i ltac:(lia)) as [E _]. apply Arc in E; [|apply IH; lia].
        destruct E as (? & ? & ? & u0' & ? & u' & ? & _ & _ & _ & E0 & _ & E1 & _ & (L & _)).
        rewrite <- (IH ltac:(lia)), E0, E1, !map_length. exact L. }
    assert (Lst : nth (List.length hs) sts s0 = tr_state tr').
    { rewrite last_nth_len in H7. rewrite H5, Nat.sub_succ, Nat.sub_0_r in H7. exact H7. }
    split; [|split; [|split]].
    - constructor; auto.
      + intros i Hi. destruct (H8 i ltac:(lia)) as [_ ->]. cbn [r_lam]. apply H9. exact Hi.
      + intros Hlt. rewrite PB by lia. cbn [snd]. rewrite Lst. apply H10. exact Hlt.
      + intros i Hi before after. unfold before, after. rewrite !PB by lia. cbn [fst snd].
        destruct (H8 i Hi) as [E _]. cbn [plus] in E. apply (Arc i); [exact E|]. apply LL. lia.
    - exact H2.
    - rewrite PB by lia. now rewrite Lst.
    - rewrite <- Lst. apply LL. lia.
  Qed.

  Lemma num_option_ok (cfg : dict O) k d x : num_option cfg k d = Ok x -> number_option cfg k d x.
  Proof.
    unfold num_option, number_option. destruct (lookup cfg k) as [v|]; [|now injection 1].
    destruct v; try discriminate; injection 1 as <-; eauto.
  Qed.
  Lemma range_option_ok (cfg : dict O) k d n : range_option cfg k d = Ok n -> steps_option cfg k d n.
  Proof.
    unfold range_option, steps_option. destruct (lookup cfg k) as [v|]; [|now injection 1].
    destruct v; try discriminate; injection 1 as <-; eauto.
  Qed.

  Lemma disp_arc fuel Dl psi st st' : length (ar_u st) = num_total_dofs_all_vars p ->
    arc_length_solver_disp_driven B jvp p pts P_mat fuel Dl psi st = Done (Ok st') ->
    finite_on_arc psi Dl (assign_bc (zeros (num_total_dofs_all_vars p)) p) (ar_u st) (ar_lam st) (ar_u st') (ar_lam st').
  Proof.
    intros L H. apply loop_last in H; [|exact tol_lt_1]. destruct H as (k & st1 & r & _ & H & _).
    apply disp_body_inv in H as (res & A & ub & ut & _ & _ & _ & _ & U). apply update_on_arc in U as [U _].
    assert (E : map (fun _ : Xops => @zero Xops) (ar_u st) = zeros (num_total_dofs_all_vars p)).
    { unfold zeros. rewrite <- L. clear. generalize (ar_u st). induction l as [|a l IH]; [reflexivity|]. cbn [map List.length repeat]. now rewrite IH. }
    rewrite E in U. exact U.
  Qed.
  Lemma force_arc fuel q Dl psi st st' :
    arc_length_solver_force_driven B jvp p pts P_mat fuel q Dl psi st = Done (Ok st') ->
    finite_on_arc psi Dl (assign_zeros_bc q p) (ar_u st) (ar_lam st) (ar_u st') (ar_lam st').
  Proof.
    unfold arc_length_solver_force_driven. destruct (_ =? _)%nat; [|discriminate].
    intros H. apply loop_last in H; [|exact tol_lt_1]. destruct H as (k & st1 & r & _ & H & _).
    apply force_body_inv in H as (res & tot & A & ub & ut & _ & _ & _ & _ & _ & U). now apply update_on_arc in U as [U _].
  Qed.

  Lemma lookup_dset (d : dict O) k v j : lookup (dset d k v) j = if (j =? k)%string then Some v else lookup d j.
  Proof.
    induction d as [|[k' v'] d IH]; cbn [dset lookup]; [reflexivity|].
    destruct (String.eqb_spec k k') as [<-|N]; cbn [lookup].
    - destruct (j =? k)%string; reflexivity.
    - rewrite IH. destruct (String.eqb_spec j k') as [->|]; [|reflexivity].
      destruct (String.eqb_spec k' k) as [->|]; [contradiction|reflexivity].
  Qed.
  Lemma polish_ok (cfg : dict O) sol opts : polish_options obj_of_sol cfg sol = Ok opts -> polish_for cfg (obj_of_sol sol) opts.
  Proof.
    unfold polish_options, get_default, polish_for. intros H.
    assert (D : exists d, (lookup cfg "newton" = None /\ d = [] \/ lookup cfg "newton" = Some (VDict d)) /\
      opts = match lookup cfg "linear" with
            | Some l => if truthy l then dset (dset d "initial_guess" (VObj (obj_of_sol sol))) "linear" l else dset d "initial_guess" (VObj (obj_of_sol sol))
            | None => dset d "initial_guess" (VObj (obj_of_sol sol))
            end).
    { destruct (lookup cfg "newton") as [v|]; [destruct v as [| | | | | |d]; try discriminate; exists d|exists []]; (split; [now auto|]); now injection H. }
    destruct D as (d & Hd & ->). exists d. split; [exact Hd|]. clear.
    destruct (lookup cfg "linear") as [l|]; [destruct (truthy l)|];
      (split; [now rewrite !lookup_dset|]); (split; [now rewrite !lookup_dset|]);
        intros k N1 N2; rewrite !lookup_dset; now rewrite (proj2 (String.eqb_neq _ _) N1), ?(proj2 (String.eqb_neq _ _) N2).
  Qed.

  Notation finish := (finish_arc_length ravel_obj obj_of_sol B jvp p pts P_mat).
  Lemma finish_ok fuel cfg control tr out :
    let h := tr_history tr in
    point_before (num_total_dofs_all_vars p) h (List.length h) = (ar_u (tr_state tr), ar_lam (tr_state tr)) ->
    finish fuel cfg control tr = Done (Ok out) ->
    i_history (ao_info out) = h /\ ao_calls out = tr_calls tr /\ i_control (ao_info out) = control /\
    ends_with obj_of_sol p (solve_newton ravel_obj B jvp p pts P_mat fuel) cfg out.
  Proof.
    intros h PB H. unfold finish_arc_length in H.
    destruct (unflatten p (ar_u (tr_state tr))) as [sol|] eqn:Es; [|discriminate].
    apply unflatten_ok in Es as [_ ->]. unfold ends_with.
    destruct (xgeb (ar_lam (tr_state tr)) (Fin 1)) eqn:G.
    - destruct (polish_options obj_of_sol cfg _) as [opts|] eqn:Eo; [|discriminate].
      destruct (solve_newton _ _ _ _ _ _ fuel opts) as [[pol|]|] eqn:En; try discriminate. injection H as <-.
      cbn [ao_info ao_calls ao_sol i_history i_control i_lam i_polished]. fold h. rewrite PB. cbn [fst snd].
      repeat (split; [reflexivity || assumption|]). split; [congruence|]. split; [discriminate|].
      intros _. exists opts, pol. apply polish_ok in Eo. auto.
    - injection H as <-. cbn [ao_info ao_calls ao_sol i_history i_control i_lam i_polished]. fold h. rewrite PB. cbn [fst snd].
      repeat (split; [reflexivity || assumption|]). split; [congruence|]. split; [reflexivity|]. discriminate.
  Qed.

  Notation arc_solve := (solve_arc_length ravel_obj obj_of_sol B jvp p pts P_mat callback).
  Lemma disp_run fuel cfg out : lookup cfg "control" = Some (VStr "displacement") -> arc_solve fuel cfg = Done (Ok out) ->
    exists psi Dl N, number_option cfg "psi" (Fin 1) psi /\ number_option cfg "Delta_l" (Fin (/ 10)) Dl /\
      steps_option cfg "max_continuation_steps" 600 N /\
      good_history (num_total_dofs_all_vars p) N psi (fun _ => Dl) (assign_bc (repeat (Fin 0) (num_total_dofs_all_vars p)) p)
        (i_history (ao_info out)) /\
      ao_calls out = (match lookup cfg "step_callback" with None | Some VNone => [] | _ => i_history (ao_info out) end) /\
      i_control (ao_info out) = "displacement"%string /\
      ends_with obj_of_sol p (solve_newton ravel_obj B jvp p pts P_mat fuel) cfg out.
  Proof.
    unfold solve_arc_length. intros ->. cbn [String.eqb Ascii.eqb Bool.eqb]. unfold solve_arc_length_disp.
    destruct (num_option cfg "psi" _) as [psi|] eqn:E1; [|discriminate].
    destruct (num_option cfg "Delta_l" _) as [Dl|] eqn:E2; [|discriminate].
    destruct (range_option cfg _ _) as [N|] eqn:E3; [|discriminate].
    destruct (continuation _ _ _ _ _ _) as [[tr|]|] eqn:Ec; try discriminate. intros H.
    apply (continuation_good _ _ _ psi (fun _ => Dl) (assign_bc (zeros (num_total_dofs_all_vars p)) p)) in Ec;
      [|intros i st st' Ha L; eapply disp_arc; eassumption].
    cbv zeta in Ec. destruct Ec as (G & C & PB & _). apply finish_ok in H; [|exact PB]. destruct H as (H1 & H2 & H3 & H4).
    exists psi, Dl, N. rewrite H1, H2, C. do 4 (split; [eauto using num_option_ok, range_option_ok|]). split; [|auto].
    unfold get_default. destruct (lookup cfg "step_callback") as [[]|]; reflexivity.
  Qed.
  Lemma force_run fuel cfg out : lookup cfg "control" = Some (VStr "force") -> arc_solve fuel cfg = Done (Ok out) ->
    exists q psi Dl late sw N, lookup cfg "q_vec_aux" = Some (VObj q) /\
      number_option cfg "psi" (Fin (/ 2)) psi /\ number_option cfg "Delta_l" (Fin (/ 10)) Dl /\
      number_option cfg "Delta_l_late" (Fin 1) late /\ number_option cfg "Delta_l_switch_step" (Fin 200) sw /\
      steps_option cfg "max_continuation_steps" 500 N /\
      good_history (num_total_dofs_all_vars p) N psi (fun i => if xltb (Fin (INR i)) sw then Dl else late)
        (assign_zeros_bc (ravel_obj q) p) (i_history (ao_info out)) /\
      ao_calls out = (match lookup cfg "step_callback" with None | Some VNone => [] | _ => i_history (ao_info out) end) /\
      i_control (ao_info out) = "force"%string /\
      ends_with obj_of_sol p (solve_newton ravel_obj B jvp p pts P_mat fuel) cfg out.
  Proof.
    unfold solve_arc_length. intros ->. cbn [String.eqb Ascii.eqb Bool.eqb]. unfold solve_arc_length_force, get_default at 1.
    destruct (lookup cfg "q_vec_aux") as [v|]; [|discriminate]. destruct v as [| | | | |q|]; try discriminate.
    destruct (num_option cfg "psi" _) as [psi|] eqn:E1; [|discriminate].
    destruct (num_option cfg "Delta_l" _) as [Dl|] eqn:E2; [|discriminate].
    destruct (num_option cfg "Delta_l_late" _) as [late|] eqn:E4; [|discriminate].
    destruct (num_option cfg "Delta_l_switch_step" _) as [sw|] eqn:E5; [|discriminate].
    destruct (range_option cfg _ _) as [N|] eqn:E3; [|discriminate].
    destruct (continuation _ _ _ _ _ _) as [[tr|]|] eqn:Ec; try discriminate. intros H.
    apply (continuation_good _ _ _ psi (fun i => if xltb (Fin (INR i)) sw then Dl else late) (assign_zeros_bc (ravel_obj q) p)) in Ec;
      [|intros i st st' Ha _; eapply force_arc; eassumption].
    cbv zeta in Ec. destruct Ec as (G & C & PB & _). apply finish_ok in H; [|exact PB]. destruct H as (H1 & H2 & H3 & H4).
    exists q, psi, Dl, late, sw, N. rewrite H1, H2, C. do 7 (split; [eauto using num_option_ok, range_option_ok|]). split; [|auto].
    unfold get_default. destruct (lookup cfg "step_callback") as [[]|]; reflexivity.
  Qed.
  Lemma control_errors fuel cfg :
    (forall c, lookup cfg "control" = Some (VStr c) -> c <> "displacement"%string /\ c <> "force"%string) ->
    arc_solve fuel cfg = Done (Err ValueErr).
  Proof.
    intros H. unfold solve_arc_length. destruct (lookup cfg "control") as [v|]; [|reflexivity].
    destruct v as [| | | |c| |]; try reflexivity. destruct (H c eq_refl) as [N1 N2].
    now rewrite (proj2 (String.eqb_neq _ _) N1), (proj2 (String.eqb_neq _ _) N2).
  Qed.
  Lemma force_needs_q fuel cfg : lookup cfg "control" = Some (VStr "force") ->
    (lookup cfg "q_vec_aux" = None \/ lookup cfg "q_vec_aux" = Some VNone) -> arc_solve fuel cfg = Done (Err ValueErr).
  Proof.
    intros Hc Hq. unfold solve_arc_length. rewrite Hc. cbn [String.eqb Ascii.eqb Bool.eqb]. unfold solve_arc_length_force, get_default.
    now destruct Hq as [-> | ->].
  Qed.

  (** a polished run ends in a converged solution at full load *)
  Lemma polished_converged fuel cfg out t rt :
    P_mat = None -> (forall s, ravel_obj (obj_of_sol s) = ravel s) ->
    ends_with obj_of_sol p (solve_newton ravel_obj B jvp p pts P_mat fuel) cfg out ->
    xgeb (i_lam (ao_info out)) (Fin 1) = true ->
    (forall d, lookup cfg "newton" = Some (VDict d) -> option_value d "tol" (/ 10 ^ 6) t /\ option_value d "rel_tol" (/ 10 ^ 8) rt) ->
    (lookup cfg "newton" = None -> t = / 10 ^ 6 /\ rt = / 10 ^ 8) ->
    exists r0v r0 u rv r,
      newton_residual p pts None (ravel (unravel (sol_shapes p) (fst (point_before (num_total_dofs_all_vars p)
         (i_history (ao_info out)) (List.length (i_history (ao_info out))))))) r0v /\ xnorm r0v = Fin r0 /\
      newton_residual p pts None u rv /\ xnorm rv = Fin r /\
      length u = num_total_dofs_all_vars p /\ ao_sol out = unravel (sol_shapes p) u /\ (r <= t \/ r <= rt * r0).
  Proof.
    intros HP HR (_ & Hp & _ & E) G Ht0 Ht1. rewrite G in Hp. specialize (E Hp) as (opts & pol & (d & Hd & I & _ & K) & Hn & ->).
    assert (T : option_value opts "tol" (/ 10 ^ 6) t /\ option_value opts "rel_tol" (/ 10 ^ 8) rt).
    { unfold option_value. rewrite !K by discriminate. destruct Hd as [[Hd ->]|Hd].
      - cbn [lookup]. now apply Ht1.
      - apply (Ht0 d Hd). }
    destruct T as [T1 T2].
    destruct (newton_contract ravel_obj B jvp p pts P_mat fuel opts pol t rt T1 T2 Hn)
      as (d0 & r0v & r0 & d1 & rv & r & u & S & N0 & X0 & N1 & X1 & F & L & Es & _ & C).
    rewrite HP in *. unfold full_dofs in F. subst u. unfold starts_from in S. rewrite I in S. destruct S as (o & Eo & ->).
    injection Eo as <-. rewrite HR in N0. exists r0v, r0, d1, rv, r. auto 10.
  Qed.
End Main.
