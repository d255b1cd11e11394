(** The dynamic relaxation properties. *)
From Coq Require Import String List Arith Lia Bool Reals Lra ZArith.
From Verif Require Import Num Arr ArrFacts Fe Problem SpecAssembly AssemblyFacts ProblemFacts SolverBc SpecBc BcFacts AgreeFacts XNum PyDict
  Options LinSolve Newton SpecNewton NewtonFacts SolverFacts ArcLength SpecArc ArcFacts ArcMain DynRelax SpecRelax RelaxFacts.
Import ListNotations.
Local Open Scope R_scope.

Section Main.
  Context {O V : Type}.
  Variable ravel_obj : O -> list Xops.
  Variable B : backends O.
  Variable jvp : (list Xops -> list Xops) -> list Xops -> list Xops -> list Xops.
  Variable p : problem Xops V.
  Variable pts : list (list (list Xops)).
  Variable P : option pmat.
  Variable kf : nat -> face_in Xops V -> list Xops.
  Hypothesis WF : wf_problem p.
  Hypothesis NC : (0 < p_num_cells p)%nat.
  Hypothesis IVS : ivs_ok p.
  Hypothesis KER : kernels_ok p kf.
  Hypothesis BC : bcs_ok p.
  Hypothesis RNG : forall f, In f (fes p) -> bc_in_range f.
  Notation N := (num_total_dofs_all_vars p).

  Lemma iterates_keep u0 st0 nKMat nPrint n st : dr_start jvp p pts u0 = Ok st0 ->
    relaxes jvp p pts nKMat nPrint n st0 st ->
    dr_nIters st = n /\ length (dr_q st) = N /\ (all_nan (dr_q st) \/ keeps_constrained p u0 (dr_q st)).
  Proof.
    intros H0 Hr. destruct (start_inv jvp p pts kf WF NC IVS KER BC RNG u0 st0 H0) as (I & _ & E).
    destruct (relaxes_inv jvp p pts kf WF NC IVS KER BC RNG nKMat nPrint u0 n st0 st Hr I) as [[I1 I2 I3 I4 I5 I6 I7] En].
    rewrite E, Nat.add_0_r in En. auto.
  Qed.

  Lemma solve_relax_inv fuel tol nKMat nPrint guess linear out :
    dynamic_relax_solve B jvp p pts P fuel tol nKMat nPrint guess linear = Done (Ok out) ->
    exists u0 st0 st n res, dr_initial B jvp p pts P linear guess = Ok u0 /\ dr_start jvp p pts u0 = Ok st0 /\
      relaxes jvp p pts nKMat nPrint n st0 st /\ do_iters out = n /\ (n <= fuel)%nat /\
      (n = 0%nat -> dr_q st = u0) /\
      length (dr_q st) = N /\ do_sol out = unravel (sol_shapes p) (dr_q st) /\
      (all_nan (dr_q st) \/ keeps_constrained p u0 (dr_q st)) /\
      residual_at p pts (dr_q st) res /\
      (do_finished out = true <-> forall g, (g < N)%nat -> ~ constrained_dof p g -> nth g res (Fin 0) <> NaN) /\
      (forall t, tol = Fin t -> do_finished out = true ->
         forall g, (g < N)%nat -> ~ constrained_dof p g -> exists a, nth g res (Fin 0) = Fin a /\ Rabs a <= t).
  Proof.
    unfold dynamic_relax_solve. destruct (dr_initial B jvp p pts P linear guess) as [u0|] eqn:E0; [|discriminate].
    destruct (dr_start jvp p pts u0) as [st0|] eqn:E1; [|discriminate].
    destruct (dr_loop jvp p pts fuel tol nKMat nPrint st0) as [[st|]|] eqn:E2; try discriminate. intros H. injection H as H.
    destruct (loop_relaxes jvp p pts fuel tol nKMat nPrint st0 st E2) as (Hx & n & Hr & Hn & _).
    destruct (start_inv jvp p pts kf WF NC IVS KER BC RNG u0 st0 E1) as (I & Eq & Ei).
    destruct (relaxes_inv jvp p pts kf WF NC IVS KER BC RNG nKMat nPrint u0 n st0 st Hr I) as [[I1 I2 I3 I4 I5 I6 I7] En].
    unfold dr_finish in H. destruct (max_abs (dr_R st)) as [m|] eqn:Em; [|discriminate]. cbn [bind] in H.
    injection I7 as I7. unfold unflatten in H. rewrite (proj2 (Nat.eqb_eq _ _) I1) in H. cbn [bind] in H. injection H as <-.
    destruct (assembleVec_ok p pts kf WF NC IVS KER BC _ _ I6) as (Lu & LR & res & Hres & H0 & H1).
    exists u0, st0, st, n, res. cbn [do_iters do_sol do_finished]. split; [reflexivity|]. split; [exact E1|]. split; [exact Hr|].
    split; [lia|]. split; [exact Hn|]. split.
    { intros ->. inversion Hr. now subst. }
    split; [exact I1|]. split; [reflexivity|]. split; [exact I5|]. split; [exact Hres|].
    assert (NN : isnan m = true <-> exists g, (g < N)%nat /\ ~ constrained_dof p g /\ nth g res (Fin 0) = NaN).
    { rewrite (max_abs_nan _ _ Em). split.
      - intros (x & Hx' & ->). apply (In_nth _ _ (Fin 0)) in Hx' as (g & Hg & Eg).
        assert (Hg' : (g < N)%nat) by (rewrite <- LR; exact Hg).
        assert (F : ~ constrained_dof p g) by (intros C; pose proof (eq_trans (eq_sym Eg) (H0 g C)); discriminate).
        exists g. split; [exact Hg'|]. split; [exact F|]. rewrite <- (H1 g Hg' F). exact Eg.
      - intros (g & Hg & F & E). exists NaN. split; [|reflexivity]. rewrite <- E, <- (H1 g Hg F). apply nth_In. rewrite LR. exact Hg. }
    split.
    - destruct (isnan m); cbn [negb]; split; try discriminate; try reflexivity.
      + intros A. exfalso. destruct (proj1 NN eq_refl) as (g & Hg & F & E). exact (A g Hg F E).
      + intros _ g Hg F E. discriminate (proj2 NN (ex_intro _ g (conj Hg (conj F E)))).
    - intros t -> Hf g Hg F. rewrite <- (H1 g Hg F). rewrite <- I7 in Hx.
      destruct (max_abs_le _ _ _ Em Hx) as [Bad|Good].
      + apply (max_abs_nan _ _ Em) in Bad. rewrite Bad in Hf. discriminate.
      + rewrite Forall_forall in Good. apply Good. apply nth_In. rewrite LR. exact Hg.
  Qed.

  (** the values of a kept constraint *)
  Lemma kept_values u0 u : length u = N ->
    (forall v n j b, valid_dof (global_shapes p) v n j -> prescribed (fe_of p v) n j = Some b ->
       nth (dof_number (global_shapes p) v n j) u0 zero = b) ->
    keeps_constrained p u0 u ->
    forall v n j b, valid_dof (global_shapes p) v n j -> prescribed (fe_of p v) n j = Some b ->
      get2 (Fin 0) (nth v (unravel (sol_shapes p) u) []) n j = b.
  Proof.
    intros Lu H0 HK v n j b Hv Hb. refine (eq_trans (get2_unravel (Fin 0 : Xops) (sol_shapes p) u v n j Lu Hv) _).
    refine (eq_trans (HK _ _) (H0 v n j b Hv Hb)). exists v, n, j. split; [exact Hv|]. split; [|reflexivity].
    apply prescribed_constrained. eauto.
  Qed.
  Lemma nan_values u : length u = N -> all_nan u -> forall v n j, valid_dof (global_shapes p) v n j ->
    get2 (Fin 0) (nth v (unravel (sol_shapes p) u) []) n j = NaN.
  Proof.
    intros Lu HA v n j Hv. refine (eq_trans (get2_unravel (Fin 0 : Xops) (sol_shapes p) u v n j Lu Hv) _).
    apply nth_all_nan; [exact HA|]. rewrite Lu. pose proof (dof_number_lt _ _ _ _ Hv) as H. rewrite all_dofs_total in H. exact H.
  Qed.

  Lemma initial_guess_values linear g u0 : dr_initial B jvp p pts P linear (Some g) = Ok u0 -> length g = N /\ u0 = assign_bc g p.
  Proof.
    unfold dr_initial. destruct (dr_update_helper _ _ _ _ _) as [rA|]; [|discriminate]. cbn [bind].
    destruct (newton_step _ _ _ _ _ _ _ _ _) as [d|]; [|discriminate]. cbn [bind]. unfold unflatten.
    destruct (Nat.eqb_spec (length g) N) as [Lg|]; [|discriminate]. cbn [bind]. injection 1 as <-. now split.
  Qed.
  Lemma guess_bc linear g u0 : dr_initial B jvp p pts P linear (Some g) = Ok u0 ->
    forall v n j b, valid_dof (global_shapes p) v n j -> prescribed (fe_of p v) n j = Some b ->
       nth (dof_number (global_shapes p) v n j) u0 zero = b.
  Proof.
    intros H v n j b Hv Hb. apply initial_guess_values in H as [Lg ->].
    assert (Lg' : length g = all_dofs (global_shapes p)) by (rewrite all_dofs_total; exact Lg).
    destruct (assign_bc_spec p BC g Lg') as [_ G]. specialize (G v n j Hv). now rewrite Hb in G.
  Qed.

  (** without a guess, after an exact linear solve *)
  Lemma nth_vneg_x (x : list Xops) g : (g < length x)%nat -> nth g (vneg x) (Fin 0) = xopp (nth g x (Fin 0)).
  Proof. intros H. unfold vneg. rewrite (nth_map_in _ _ _ (Fin 0)) by exact H. reflexivity. Qed.

  Lemma exact_start linear u0 : P = None ->
    (forall t A b x0 lo x, snd (linear_solver B t A b x0 lo) = Ok x -> solves A b x) ->
    (forall v n j b, valid_dof (global_shapes p) v n j -> prescribed (fe_of p v) n j = Some b -> isfinite b = true) ->
    dr_initial B jvp p pts P linear None = Ok u0 ->
    forall v n j b, valid_dof (global_shapes p) v n j -> prescribed (fe_of p v) n j = Some b ->
       nth (dof_number (global_shapes p) v n j) u0 zero = b.
  Proof.
    intros -> HS HF H v n j b Hv Hb. set (g := dof_number (global_shapes p) v n j).
    assert (Hg : (g < N)%nat) by (pose proof (dof_number_lt _ _ _ _ Hv) as L; rewrite all_dofs_total in L; exact L).
    unfold dr_initial, dr_update_helper, arc_residual in H. set (z := zeros N) in H. set (lo := if truthy linear then _ else _) in H.
    assert (Lz : length z = N) by apply repeat_length.
    unfold unflatten in H. rewrite (proj2 (Nat.eqb_eq _ _) Lz) in H. cbn [bind] in H.
    destruct (newton_update jvp xsqrt p pts (unravel (sol_shapes p) z)) as [rV|] eqn:En; [|discriminate]. cbn [bind fst snd] in H.
    set (r := apply_bc_vec _ _ _ _) in H.
    destruct (newton_step _ _ _ _ _ _ _ _ _) as [d|] eqn:Es; [|discriminate]. cbn [bind] in H. injection H as <-.
    unfold newton_step in Es. cbv zeta in Es.
    destruct (sub_vec _ _) as [x0|]; [|discriminate]. cbn [bind] in Es.
    destruct (linear_options_of _) as [lin|]; [|discriminate]. cbn [bind] in Es.
    pose proof (HS 0%nat (get_A p None (snd rV)) (vneg r) (Some x0) lin) as HS'.
    destruct (linear_solver B 0 (get_A p None (snd rV)) (vneg r) (Some x0) lin) as [lo' rr]. cbn [snd] in HS'.
    destruct rr as [inc|]; [|discriminate]. cbn [bind] in Es. specialize (HS' inc eq_refl).
    replace (truthy (get_default [("linear"%string, lo)] "line_search_flag" (VBool false))) with false in Es by reflexivity. cbn [bind] in Es.
    unfold add_vec in Es. destruct (Nat.eqb_spec (length z) (length inc)) as [Li|]; [|discriminate]. cbn [bind] in Es. injection Es as <-. cbn [fst].
    (* the residual *)
    assert (Er : exists rr, compute_residual xsqrt p pts (unravel (sol_shapes p) z) = Ok rr /\ fst rV = rr).
    { exists (fst rV). split; [|reflexivity]. rewrite (newton_agrees jvp), En. reflexivity. }
    destruct Er as (rl & Er & Erl).
    pose proof (residual_length xsqrt p pts _ kf WF NC (sol_ok_unravel p z Lz) IVS KER rl Er) as Lr.
    assert (Lz' : length z = all_dofs (global_shapes p)) by (rewrite all_dofs_total; exact Lz).
    destruct (apply_bc_vec_spec p BC (ravel rl) z one Lr Lz') as [Lrv G]. specialize (G v n j Hv). rewrite Hb in G. rewrite <- Erl in G, Lrv.
    fold g in G.
    destruct HS' as (a & b' & x' & Ha & Hb' & Hx' & Lb' & Lx' & Hsol). cbn [m_rows m_cols m_at get_A] in *.
    pose proof (HF v n j b Hv Hb) as Fb. apply isfinite_ex in Fb as [bv ->].
    assert (Zg : nth g z (Fin 0) = Fin 0) by (unfold z, zeros; apply nth_repeat).
    assert (Rg : nth g r (Fin 0) = Fin (0 + - bv * 1)).
    { refine (eq_trans G _). exact (f_equal (fun q => xadd q (xmul (xopp (Fin bv)) (Fin 1))) Zg). }
    assert (Lrr : length r = N) by (exact (eq_trans Lrv (all_dofs_total _))).
    assert (Bg : nth g b' 0 = bv).
    { assert (E : nth g (vneg r) (Fin 0) = Fin bv).
      { rewrite nth_vneg_x by (rewrite Lrr; exact Hg). rewrite Rg. cbn [xopp]. f_equal. lra. }
      rewrite Hb' in E. change (@nth xr g (map Fin b') (Fin 0) = Fin bv) in E. rewrite map_nth in E. now injection E. }
    assert (Xg : nth g x' 0 = bv).
    { rewrite <- Bg. rewrite <- (Hsol g Hg). 
      assert (Ea : forall h, (h < N)%nat -> a g h = if (g =? h)%nat then 1 else 0).
      { intros h Hh. pose proof (Ha g h Hg Hh) as E. assert (C : constrained (fe_of p v) n j) by (apply prescribed_constrained; eauto).
        pose proof (eq_trans (eq_sym (proj1 (tangent_spec p BC RNG (snd rV) v n j h Hv) C)) E) as E'. fold g in E'.
        destruct (g =? h)%nat; now injection E'. }
      transitivity (fold_right Rplus 0 (map (fun h => if (g =? h)%nat then nth g x' 0 else 0) (seq 0 N))).
      - assert (KK : forall w m s, fold_right Rplus 0 (map (fun h => if (g =? h)%nat then w else 0) (seq s m)) =
                   if (s <=? g)%nat && (g <? s + m)%nat then w else 0).
        { intros w m. induction m as [|m IH]; intros s; cbn [seq map fold_right].
          - rewrite Nat.add_0_r. destruct (Nat.leb_spec s g), (Nat.ltb_spec g s); try lia; reflexivity.
          - rewrite IH. destruct (Nat.eqb_spec g s), (Nat.leb_spec (S s) g), (Nat.ltb_spec g (S s + m)), (Nat.leb_spec s g), (Nat.ltb_spec g (s + S m)); try lia; cbn; lra. }
        rewrite KK. destruct (Nat.leb_spec 0 g), (Nat.ltb_spec g (0 + N)); try lia. reflexivity.
      - f_equal. apply map_ext_in. intros h Hh. apply in_seq in Hh. rewrite Ea by lia. destruct (Nat.eqb_spec g h) as [->|]; lra. }
    assert (Lx : length inc = N) by congruence.
    refine (eq_trans (nth_map2 (@add Xops) z inc g (Fin 0) (Fin 0) zero _ _) _); [rewrite Lz; exact Hg|rewrite Lx; exact Hg|].
    assert (Ig : nth g inc (Fin 0) = Fin bv).
    { rewrite Hx'. change (@nth xr g (map Fin x') (Fin 0) = Fin bv). rewrite map_nth. now f_equal. }
    transitivity (xadd (Fin 0) (Fin bv)); [exact (f_equal2 xadd Zg Ig)|]. cbn [xadd]. f_equal. lra.
  Qed.

  (** the tangent rows at the start *)
  Lemma sum_abs_nonneg (l : list Xops) s : sumK (map (fun a : xr => xabs a) l) = Fin s -> 0 <= s.
  Proof.
    revert s. induction l as [|x l IH]; intros s H.
    - injection H as <-. lra.
    - change (xadd (xabs x) (sumK (map (fun a : xr => xabs a) l)) = Fin s) in H. apply xadd_fin in H as (a & b & Ha & Hb & ->).
      apply IH in Hb. destruct x as [x| | |]; try discriminate. injection Ha as <-. pose proof (Rabs_pos x). lra.
  Qed.
  Lemma start_rows u st : dr_start jvp p pts u = Ok st ->
    num_total_dofs (fe0 p) = N /\ exists r W, newton_update jvp xsqrt p pts (unravel (sol_shapes p) u) = Ok (r, W) /\
    forall g, (g < N)%nat -> exists s, 0 < s /\ sum_n (K := Xops) N (fun h => xabs (tangent p W g h)) = Fin s.
  Proof.
    unfold dr_start. destruct (assembleVec p pts u) as [R|] eqn:ER; [|discriminate]. cbn [bind].
    destruct (assembleCSR jvp p pts u) as [A|] eqn:EA; [|discriminate]. cbn [bind].
    destruct (masses (length u) A) as [M|] eqn:EM; [|discriminate]. cbn [bind]. cbv zeta.
    destruct (forallb isfinite M) eqn:FM; cbn [negb]; [|discriminate]. destruct (forallb isfinite u); cbn [negb]; [|discriminate].
    destruct (forallb isfinite (map2 (fun r m : xr => xdiv (xmul (xdiv (xopp dr_h) (Fin 2)) r) m) R M)) eqn:FV; cbn [negb]; [|discriminate]. intros _.
    destruct (assembleVec_ok p pts kf WF NC IVS KER BC u R ER) as (Lu & LR & _).
    unfold assembleCSR in EA. unfold unflatten in EA. rewrite (proj2 (Nat.eqb_eq _ _) Lu) in EA. cbn [bind] in EA.
    destruct (newton_update jvp xsqrt p pts (unravel (sol_shapes p) u)) as [[r W]|] eqn:En; [|discriminate]. cbn [bind snd] in EA.
    destruct (negb _); [discriminate|]. destruct (negb _); [discriminate|]. injection EA as <-.
    unfold masses in EM. cbn [m_rows m_cols m_at] in EM. destruct (Nat.eqb_spec (num_total_dofs (fe0 p)) (length u)) as [E|]; [|discriminate].
    rewrite Lu in E. split; [exact E|]. rewrite E in EM. injection EM as <-. exists r, W. split; [reflexivity|]. intros g Hg.
    set (row := sum_n (K := Xops) N (fun h => xabs (tangent p W g h))). set (M := map _ _) in FM, FV.
    assert (LM : length M = N) by (unfold M; now rewrite map_length, seq_length).
    assert (Mg : nth g M (Fin 0) = xmul dr_factor row).
    { unfold M. rewrite (nth_map_in _ _ _ 0%nat) by (now rewrite seq_length). now rewrite seq_nth. }
    rewrite forallb_forall in FM, FV.
    assert (F1 : isfinite (xmul dr_factor row) = true) by (rewrite <- Mg; apply FM, nth_In; rewrite LM; exact Hg).
    apply isfinite_ex in F1 as [m Hm]. pose proof Hm as Hm'. apply xmul_fin in Hm as (f & s & Ef & Es & ->). exists s. split; [|exact Es].
    rewrite factor_val in Ef. injection Ef as <-.
    assert (S0 : 0 <= s).
    { apply (sum_abs_nonneg (map (fun h => tangent p W g h) (seq 0 N))). rewrite map_map. exact Es. }
    destruct (Req_dec s 0) as [->|]; [exfalso|lra].
    assert (F2 : isfinite (nth g (map2 (fun r m : xr => xdiv (xmul (xdiv (xopp dr_h) (Fin 2)) r) m) R M) (Fin 0)) = true).
    { apply FV, nth_In. rewrite map2_len; [len_lia|exact (eq_trans LR (eq_sym LM))]. }
    change (car Xops) with xr in *. rewrite (nth_map2 _ _ _ _ (Fin 0) (Fin 0)) in F2 by lia. rewrite Mg, Hm' in F2.
    replace (121 / 400 * 0) with 0 in F2 by lra.
    destruct (xmul (xdiv (xopp dr_h) (Fin 2)) (nth g R (Fin 0))) as [x| | |]; cbn [xdiv] in F2; try discriminate.
    - destruct (Req_EM_T 0 0); [|lra]. apply isfinite_ex in F2 as [y Hy]. exact (inf_sign_not_fin _ _ Hy).
    - destruct (Req_EM_T 0 0); [discriminate|lra].
    - destruct (Req_EM_T 0 0); [discriminate|lra].
  Qed.

  (** velocities *)
  Lemma velocities u0 st0 nKMat nPrint n st st' : dr_start jvp p pts u0 = Ok st0 ->
    relaxes jvp p pts nKMat nPrint n st0 st -> dr_body jvp p pts nKMat nPrint st = Ok st' ->
    all_nan (dr_qdot st') \/
    exists m k, Rabs m < 1 /\ 0 < k < 1 /\
      forall g v r w, (g < N)%nat -> nth g (dr_qdot st) (Fin 0) = Fin v -> nth g (dr_R st') (Fin 0) = Fin r ->
        nth g (dr_M st') (Fin 0) = Fin w -> w <> 0 ->
        nth g (dr_qdot st') (Fin 0) = Fin (m * v - k * r / w).
  Proof.
    intros H0 Hr Hb. destruct (start_inv jvp p pts kf WF NC IVS KER BC RNG u0 st0 H0) as (I & _ & E).
    destruct (relaxes_inv jvp p pts kf WF NC IVS KER BC RNG nKMat nPrint u0 n st0 st Hr I) as [I' _].
    destruct (body_next jvp p pts nKMat nPrint st st' Hb) as [c Hc].
    pose proof (next_inv jvp p pts kf WF NC IVS KER BC RNG nKMat u0 st st' c I' Hc) as I2.
    destruct (assembleVec_ok p pts kf WF NC IVS KER BC _ _ (di_R _ _ _ _ I2)) as (_ & LR & _).
    assert (Nv : forall g, (g < N)%nat -> nth g (dr_qdot st') (Fin 0) =
              dr_velocity c (nth g (dr_qdot st) (Fin 0)) (nth g (dr_R st') (Fin 0)) (nth g (dr_M st') (Fin 0))).
    { intros g Hg. pose proof (di_qdot _ _ _ _ I'). pose proof (proj1 (di_M _ _ _ _ I2)).
      rewrite (dn_qdot _ _ _ _ _ _ _ Hc). rewrite (nth_map2 _ _ _ _ (Fin 0) (Fin 0, Fin 0)) by (rewrite ?combine_length; len_lia).
      change (car Xops) with xr in *. rewrite combine_nth by lia. reflexivity. }
    destruct (dn_c _ _ _ _ _ _ _ Hc) as [->|(d & -> & Hd)].
    - left. apply all_nan_nth. intros g Hg. rewrite (di_qdot _ _ _ _ I2) in Hg. rewrite Nv by exact Hg. apply velocity_nan_c.
    - right. exists ((2 - d) / (2 + d)), (2 / (2 + d)). destruct (multiplier_bound d Hd) as [B1 B2]. split; [exact B1|]. split; [exact B2|].
      intros g v r w Hg Hv Hr' Hw Hw0. rewrite Nv by exact Hg. change (car Xops) with xr in *. rewrite Hv, Hr', Hw. apply velocity_fin; assumption.
  Qed.
End Main.

Section Options.
  Context {O V : Type}.
  Variable ravel_obj : O -> list Xops.
  Variable B : backends O.
  Variable jvp : (list Xops -> list Xops) -> list Xops -> list Xops -> list Xops.
  Variable p : problem Xops V.
  Variable pts : list (list (list Xops)).
  Variable P : option pmat.

  Lemma num_number (cfg : dict O) k d x : num_option cfg k d = Ok x -> number_option cfg k d x.
  Proof.
    unfold num_option, number_option. destruct (lookup cfg k) as [[| |y|z| | |]|]; try discriminate; injection 1 as <-; eauto.
  Qed.
  Lemma solve_options fuel cfg out : solve_dynamic_relax ravel_obj B jvp p pts P fuel cfg = Done (Ok out) ->
    exists tol nKMat nPrint guess, number_option cfg "tol" (Fin (/ 10 ^ 6)) tol /\
      (match lookup cfg "initial_guess" with None => guess = None | Some v => exists o, v = VObj o /\ guess = Some (ravel_obj o) end) /\
      dynamic_relax_solve B jvp p pts P fuel tol nKMat nPrint guess (get_default cfg "linear" (VDict [])) = Done (Ok out).
  Proof.
    unfold solve_dynamic_relax. intros H.
    destruct (match lookup cfg "initial_guess" with None => _ | _ => _ end) as [g|] eqn:Eg; [|discriminate].
    destruct (num_option cfg "tol" _) as [tol|] eqn:Et; [|discriminate].
    destruct (num_option cfg "nKMat" _) as [nK|]; [|discriminate].
    destruct (int_option cfg "nPrint" _) as [nP|]; [|discriminate].
    exists tol, nK, nP, g. split; [now apply num_number|]. split; [|exact H].
    destruct (lookup cfg "initial_guess") as [v|]; [|now injection Eg as <-].
    destruct v; try discriminate. injection Eg as <-. eauto.
  Qed.
End Options.
