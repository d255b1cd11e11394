(** The Newton loop: proofs. *)
From Coq Require Import String List Arith Lia Bool Reals Lra.
From Verif Require Import Num Arr ArrFacts Fe Problem BatchFacts SpecAssembly AssemblyFacts ProblemFacts ResidualFacts
  AgreeFacts SolverBc SpecBc BcFacts XNum PyDict Options OptionsFacts LinSolve Newton SpecNewton.
Import ListNotations.

(** residual arrays have the shapes of the solution, over any operations *)
Section Shapes.
  Context {K : ops} {V : Type}.
  Variable sqrtK : K -> K.
  Variable p : problem K V.
  Variables pts sol : list (list (list K)).
  Variable kf : nat -> face_in K V -> list K.
  Hypothesis WF : wf_problem p.
  Hypothesis NC : 0 < p_num_cells p.
  Hypothesis SOL : sol_ok p sol.
  Hypothesis IVS : ivs_ok p.
  Hypothesis KER : kernels_ok p kf.

  Lemma residual_shapes : has_shapes (global_shapes p)
    (compute_residual_vars_helper p (weak_cells p pts sol) (weak_faces sqrtK p pts sol kf)).
  Proof.
    set (R := compute_residual_vars_helper p (weak_cells p pts sol) (weak_faces sqrtK p pts sol kf)).
    assert (Hl : length R = length (fes p)).
    { unfold R, compute_residual_vars_helper. now rewrite map_length, seq_length. }
    unfold has_shapes.
    rewrite <- (map_seq_nth (0,0)%nat (global_shapes p)), <- (map_seq_nth [] R).
    rewrite Hl, length_global_shapes.
    assert (forall l, (forall v, In v l -> v < length (fes p)) ->
       Forall2 (fun s x => has_shape2 (fst s) (snd s) x) (map (fun v => nth v (global_shapes p) (0,0)%nat) l)
         (map (fun v => nth v R []) l)) as HH.
    { induction l as [|v l IH]; intros Hin; cbn; constructor.
      - assert (Hv : v < length (fes p)) by (apply Hin; now left).
        rewrite global_shapes_nth by auto. cbn [fst snd].
        unfold R, compute_residual_vars_helper.
        rewrite (nth_map_in _ _ _ 0) by (now rewrite seq_length). rewrite seq_nth by auto. cbn [plus].
        assert (Hd : v < length (dof_shapes p)) by (unfold dof_shapes; now rewrite map_length).
        assert (Hs : snd (nth v (dof_shapes p) (0, 0)) = vec (fe_of p v)).
        { unfold dof_shapes. rewrite (nth_map_in _ _ _ (fe0 p)) by auto. reflexivity. }
        assert (Z : has_shape2 (length (points (fe_of p v))) (vec (fe_of p v))
            (scatter_var v (dof_shapes p) (zeros2 zero (num_total_nodes (fe_of p v)) (vec (fe_of p v)))
               (cells (fe_of p v)) (weak_cells p pts sol))).
        { apply scatter_var_shape; auto using zeros2_shape. eapply weak_cells_ok; eassumption. }
        revert Z. fold (fe_of p v).
        generalize (scatter_var v (dof_shapes p) (zeros2 zero (num_total_nodes (fe_of p v)) (vec (fe_of p v)))
               (cells (fe_of p v)) (weak_cells p pts sol)).
        assert (FW : forall bw, In bw (combine (boundary_inds_list p) (weak_faces sqrtK p pts sol kf)) ->
                  Forall (fun w => length w = total_size (dof_shapes p)) (snd bw)).
        { intros bw Hb. rewrite (surjective_pairing bw) in Hb. apply in_combine_r in Hb. unfold weak_faces in Hb. apply in_map_iff in Hb as (s & <- & Hs').
          apply in_seq in Hs'. apply Forall_forall. intros w Hw. apply in_map_iff in Hw as (i & <- & Hi). apply in_seq in Hi.
          rewrite (weak_face_len sqrtK p pts sol kf WF SOL KER) by lia. now rewrite all_dofs_total. }
        revert FW. generalize (combine (boundary_inds_list p) (weak_faces sqrtK p pts sol kf)).
        intros bws; induction bws as [|bw bws IHb]; intros FW res Z; cbn [fold_left]; [exact Z|].
        apply IHb; [intros; apply FW; now right|]. apply scatter_var_shape; auto. apply FW. now left.
      - apply IH. intros w Hw. apply Hin. now right. }
    apply HH. intros v Hv. apply in_seq in Hv. lia.
  Qed.
  Lemma residual_length res : compute_residual sqrtK p pts sol = Ok res -> length (ravel res) = all_dofs (global_shapes p).
  Proof.
    rewrite (compute_residual_ok sqrtK p pts sol kf WF NC SOL IVS KER). injection 1 as <-.
    rewrite all_dofs_total. apply ravel_length, residual_shapes.
  Qed.
End Shapes.

Lemma mat_mul_vec_ok {K : ops} (A : mat K) x y : mat_mul_vec A x = Ok y ->
  length x = m_cols A /\ length y = m_rows A /\
  forall i, i < m_rows A -> nth i y zero = sum_n (m_cols A) (fun j => mul (m_at A i j) (nth j x zero)).
Proof.
  unfold mat_mul_vec. destruct (Nat.eqb_spec (length x) (m_cols A)) as [E|]; [|discriminate].
  injection 1 as <-. split; [exact E|]. split; [now rewrite map_length, seq_length|].
  intros i Hi. rewrite (nth_map_in _ _ _ 0) by (now rewrite seq_length). now rewrite seq_nth.
Qed.

Section NewtonFacts.
  Context {O V : Type}.
  Variable ravel_obj : O -> list Xops.
  Variable B : backends O.
  Variable jvp : (list Xops -> list Xops) -> list Xops -> list Xops -> list Xops.
  Variable p : problem Xops V.
  Variable pts : list (list (list Xops)).
  Variable P_mat : option pmat.

  Lemma unflatten_ok d sol : unflatten p d = Ok sol ->
    length d = num_total_dofs_all_vars p /\ sol = unravel (sol_shapes p) d.
  Proof.
    unfold unflatten. destruct (Nat.eqb_spec (length d) (num_total_dofs_all_vars p)); [|discriminate].
    injection 1 as <-. auto.
  Qed.

  Lemma full_ok d u : match P_mat with Some P => mat_mul_vec P d | None => Ok d end = Ok u -> full_dofs P_mat d u.
  Proof. unfold full_dofs. destruct P_mat as [P|]; [apply mat_mul_vec_ok|now injection 1]. Qed.

  Lemma helper_ok d r A : newton_update_helper jvp p pts P_mat d = Ok (r, A) -> newton_residual p pts P_mat d r.
  Proof.
    unfold newton_update_helper, newton_residual.
    destruct (match P_mat with Some P => mat_mul_vec P d | None => Ok d end) as [u|] eqn:Eu; [|discriminate].
    apply full_ok in Eu. cbn [bind]. destruct (unflatten p u) as [sol|] eqn:Es; [|discriminate].
    apply unflatten_ok in Es as [Lu ->]. cbn [bind].
    pose proof (newton_agrees jvp xsqrt p pts (unravel (sol_shapes p) u)) as AG. unfold rmap in AG.
    destruct (newton_update jvp xsqrt p pts (unravel (sol_shapes p) u)) as [[res W]|]; [|discriminate].
    cbn [bind fst snd]. cbn [bind fst] in AG. intros H. exists u, res.
    split; [exact Eu|]. split; [exact Lu|]. split; [exact AG|]. cbv zeta.
    destruct P_mat as [P|].
    - destruct (mat_mul_vec (mat_T P) (apply_bc_vec (ravel res) u p one)) as [r'|] eqn:Er; [|discriminate].
      cbn [bind] in H. injection H as <- _. apply mat_mul_vec_ok in Er. exact Er.
    - cbn [bind] in H. injection H as <- _. reflexivity.
  Qed.

  Notation loop := (newton_loop B jvp p pts P_mat).
  Lemma loop_inv fuel : forall rel_tol tol res0 st st',
    newton_residual p pts P_mat (st_dofs st) (st_res st) ->
    loop fuel rel_tol tol res0 st = Done (Ok st') ->
    newton_residual p pts P_mat (st_dofs st') (st_res st') /\
    keeps_going rel_tol tol res0 (xnorm (st_res st')) = false /\
    (st_iters st' = st_iters st -> st' = st) /\ st_iters st <= st_iters st'.
  Proof.
    induction fuel as [|fuel IH]; intros rel_tol tol res0 st st' I H; cbn [newton_loop] in H.
    - destruct (keeps_going _ _ _ _) eqn:E; [discriminate|]. injection H as <-. auto.
    - destruct (keeps_going _ _ _ _) eqn:E; [|injection H as <-; auto].
      destruct (newton_step _ _ _ _ _ _ _ _ _) as [[d cfg]|] eqn:Es; [|discriminate].
      destruct (newton_update_helper jvp p pts P_mat d) as [[r A]|] eqn:Eh; [|discriminate].
      apply IH in H; [|cbn; eapply helper_ok; eassumption]. cbn [st_iters] in H.
      destruct H as (I' & G & _ & L). split; [exact I'|split; [exact G|split; [lia|lia]]].
  Qed.

  (** the loop can only stop at once when the residual norm is not finite at the start *)
  Lemma keeps_going_bad rel_tol tol r0 : isfinite r0 = false -> keeps_going rel_tol tol r0 r0 = false.
  Proof. unfold keeps_going, xgtb. destruct r0; try discriminate; intros _; cbn; now destruct rel_tol. Qed.

  Lemma keeps_going_stop (t rt r0 r : R) : (0 <= r -> 0 <= r0 -> (r0 = 0 -> r = 0) ->
    keeps_going (Fin rt) (Fin t) (Fin r0) (Fin r) = false -> r <= t \/ r <= rt * r0)%R.
  Proof.
    unfold keeps_going, xgtb. intros Hr Hr0 H0. cbn [xdiv]. destruct (Req_EM_T r0 0) as [E|N].
    - intros _. right. rewrite (H0 E), E. lra.
    - cbn [xltb]. intros H. apply andb_false_iff in H as [H|H]; apply Rltb_false in H; [right|now left].
      apply Rmult_le_reg_r with (/ r0)%R; [apply Rinv_0_lt_compat; lra|]. rewrite Rmult_assoc, Rinv_r by exact N.
      unfold Rdiv in H. lra.
  Qed.

  Lemma num_option_value (cfg : dict O) k dflt x y : num_option cfg k (Fin dflt) = Ok x -> option_value cfg k dflt y -> x = Fin y.
  Proof.
    unfold num_option, option_value. destruct (lookup cfg k) as [v|].
    - intros H [->|(z & -> & ->)]; now injection H.
    - intros H ->. now injection H.
  Qed.
  Lemma initial_ok (cfg : dict O) d : initial_dofs ravel_obj p P_mat cfg = Ok d -> starts_from ravel_obj p P_mat cfg d.
  Proof.
    unfold initial_dofs, starts_from. destruct (lookup cfg "initial_guess") as [v|].
    - destruct v; try discriminate. injection 1 as <-. eauto.
    - injection 1 as <-. unfold zeros. now destruct P_mat.
  Qed.

  Notation solve := (solve_newton ravel_obj B jvp p pts P_mat).
  Lemma solve_inv fuel cfg out : solve fuel cfg = Done (Ok out) ->
    exists d0 r0v d rv u,
      starts_from ravel_obj p P_mat cfg d0 /\ newton_residual p pts P_mat d0 r0v /\
      newton_residual p pts P_mat d rv /\
      full_dofs P_mat d u /\ length u = num_total_dofs_all_vars p /\ out_sol out = unravel (sol_shapes p) u /\
      isfinite (xnorm rv) = true /\ Forall (fun x => isfinite x = true) d /\
      (out_iters out = 0 -> d = d0) /\
      exists rel_tol tol, num_option cfg "rel_tol" (Fin (/ 10 ^ 8)) = Ok rel_tol /\
        num_option cfg "tol" (Fin (/ 10 ^ 6)) = Ok tol /\
        keeps_going rel_tol tol (xnorm r0v) (xnorm rv) = false /\
        (keeps_going rel_tol tol (xnorm r0v) (xnorm r0v) = false -> rv = r0v /\ d = d0 /\ out_iters out = 0).
  Proof.
    unfold solve_newton. destruct (initial_dofs _ _ _ cfg) as [d0|] eqn:E0; [|discriminate].
    destruct (newton_update_helper jvp p pts P_mat d0) as [[r0v A0]|] eqn:Eh; [|discriminate].
    destruct (num_option cfg "rel_tol" _) as [rel_tol|] eqn:Er; [|discriminate].
    destruct (num_option cfg "tol" _) as [tol|] eqn:Et; [|discriminate].
    destruct (loop _ _ _ _ _) as [[st|]|] eqn:El; try discriminate.
    intros H. injection H as H. unfold newton_finish in H.
    destruct (isfinite (xnorm (st_res st))) eqn:Fr; [|discriminate]. cbn [negb] in H.
    destruct (forallb isfinite (st_dofs st)) eqn:Fd; [|discriminate]. cbn [negb] in H.
    destruct (match P_mat with Some P => mat_mul_vec P (st_dofs st) | None => Ok (st_dofs st) end) as [u|] eqn:Eu; [|discriminate].
    cbn [bind] in H. destruct (unflatten p u) as [sol|] eqn:Es; [|discriminate]. cbn [bind] in H. injection H as <-.
    apply unflatten_ok in Es as [Lu ->]. apply full_ok in Eu.
    pose proof (helper_ok _ _ _ Eh) as R0.
    pose proof El as El'. apply loop_inv in El; [|exact R0]. cbn [st_iters] in El. destruct El as (I & G & Z & _).
    exists d0, r0v, (st_dofs st), (st_res st), u.
    split; [now apply initial_ok|]. split; [exact R0|]. split; [exact I|]. split; [exact Eu|]. split; [exact Lu|].
    split; [reflexivity|]. split; [exact Fr|]. split; [apply Forall_forall; intros x Hx; rewrite forallb_forall in Fd; auto|].
    cbn [out_iters]. split; [intros Hz; now rewrite (Z Hz)|].
    exists rel_tol, tol. split; [reflexivity|]. split; [reflexivity|]. split; [exact G|].
    intros K0. assert (st = mkState d0 r0v A0 0 cfg) as ->; [|auto].
    destruct fuel; cbn [newton_loop st_res] in El'; rewrite K0 in El'; now injection El'.
  Qed.

  Lemma newton_contract fuel cfg out t rt :
    option_value cfg "tol" (/ 10 ^ 6) t -> option_value cfg "rel_tol" (/ 10 ^ 8) rt ->
    solve fuel cfg = Done (Ok out) ->
    exists d0 r0v r0 d rv r u,
      starts_from ravel_obj p P_mat cfg d0 /\ newton_residual p pts P_mat d0 r0v /\ xnorm r0v = Fin r0 /\
      newton_residual p pts P_mat d rv /\ xnorm rv = Fin r /\
      full_dofs P_mat d u /\ length u = num_total_dofs_all_vars p /\ out_sol out = unravel (sol_shapes p) u /\
      Forall (fun x => isfinite x = true) d /\
      (r <= t \/ r <= rt * r0)%R.
  Proof.
    intros Ht Hrt H. apply solve_inv in H as (d0 & r0v & d & rv & u & H1 & H2 & H3 & H4 & H5 & H6 & H7 & H8 & _ & rel & tol & Er & Et & G & Z).
    apply (num_option_value _ _ _ _ t) in Et; [|exact Ht]. apply (num_option_value _ _ _ _ rt) in Er; [|exact Hrt]. subst.
    apply isfinite_ex in H7 as [r Hr].
    destruct (isfinite (xnorm r0v)) eqn:F0.
    2:{ exfalso. destruct Z as (-> & _); [now apply keeps_going_bad|]. rewrite Hr in F0. discriminate. }
    apply isfinite_ex in F0 as [r0 Hr0].
    exists d0, r0v, r0, d, rv, r, u. repeat (split; [assumption|]).
    rewrite Hr, Hr0 in G. apply (keeps_going_stop t rt r0 r) in G; [exact G| | |].
    - now apply xnorm_fin in Hr as [? _].
    - now apply xnorm_fin in Hr0 as [? _].
    - intros ->. rewrite Hr0 in Z. destruct Z as (-> & _).
      + unfold keeps_going, xgtb. cbn [xdiv]. destruct (Req_EM_T 0 0) as [_|N]; [|lra]. unfold inf_sign.
        destruct (Rlt_dec 0 0); [lra|]. reflexivity.
      + rewrite Hr0 in Hr. now injection Hr.
  Qed.

  (** start already good enough *)
  Lemma newton_start_good fuel cfg d0 r0v t rt r0 :
    option_value cfg "tol" (/ 10 ^ 6) t -> option_value cfg "rel_tol" (/ 10 ^ 8) rt ->
    starts_from ravel_obj p P_mat cfg d0 ->
    (forall r A, newton_update_helper jvp p pts P_mat d0 = Ok (r, A) -> r = r0v) ->
    xnorm r0v = Fin r0 -> (r0 <= t \/ 1 <= rt \/ r0 = 0)%R ->
    forall out, solve fuel cfg = Done (Ok out) -> out_iters out = 0 /\ out_cfg out = cfg /\
      exists u, full_dofs P_mat d0 u /\ out_sol out = unravel (sol_shapes p) u.
  Proof.
    intros Ht Hrt Hs Hh Hr0 Hc out. unfold solve_newton.
    destruct (initial_dofs ravel_obj p P_mat cfg) as [d0'|] eqn:E0; [|discriminate].
    assert (d0' = d0) as ->.
    { apply initial_ok in E0. unfold starts_from in *. destruct (lookup cfg "initial_guess").
      - destruct E0 as (o & -> & ->), Hs as (o' & E & ->). now injection E as ->.
      - congruence. }
    destruct (newton_update_helper jvp p pts P_mat d0) as [[r A0]|] eqn:Eh; [|discriminate].
    rewrite (Hh r A0 eq_refl). clear Hh Eh.
    destruct (num_option cfg "rel_tol" _) as [rel_tol|] eqn:Er; [|discriminate].
    destruct (num_option cfg "tol" _) as [tol|] eqn:Et; [|discriminate].
    apply (num_option_value _ _ _ _ t) in Et; [|exact Ht]. apply (num_option_value _ _ _ _ rt) in Er; [|exact Hrt]. subst.
    assert (P0 : (0 <= r0)%R) by now apply xnorm_fin in Hr0 as [? _].
    assert (K0 : keeps_going (Fin rt) (Fin t) (xnorm r0v) (xnorm r0v) = false).
    { rewrite Hr0. unfold keeps_going, xgtb. cbn [xdiv]. destruct (Req_EM_T r0 0) as [E|N].
      - subst. unfold inf_sign. destruct (Rlt_dec 0 0); [lra|]. reflexivity.
      - cbn [xltb]. destruct Hc as [Hc|[Hc|Hc]]; [| |contradiction].
        + apply andb_false_iff. right. now apply Rltb_false.
        + apply andb_false_iff. left. apply Rltb_false. unfold Rdiv. rewrite Rinv_r by exact N. exact Hc. }
    destruct fuel; cbn [newton_loop st_res]; rewrite K0; unfold newton_finish; cbn [st_res st_dofs st_iters st_cfg];
      (destruct (isfinite (xnorm r0v)); [|discriminate]); cbn [negb];
      (destruct (forallb isfinite d0); [|discriminate]); cbn [negb];
      (destruct (match P_mat with Some P => mat_mul_vec P d0 | None => Ok d0 end) as [u|] eqn:Eu; [|discriminate]);
      cbn [bind]; (destruct (unflatten p u) as [sol|] eqn:Es; [|discriminate]); cbn [bind]; intros H; injection H as <-;
      cbn [out_iters out_cfg out_sol]; (split; [reflexivity|split; [reflexivity|]]);
      apply unflatten_ok in Es as [_ ->]; apply full_ok in Eu; eauto.
  Qed.

  (** a residual that is not finite at the start raises, whatever the linear solver *)
  Lemma newton_start_bad fuel cfg d0 r A rel tol :
    initial_dofs ravel_obj p P_mat cfg = Ok d0 -> newton_update_helper jvp p pts P_mat d0 = Ok (r, A) ->
    num_option cfg "rel_tol" (Fin (/ 10 ^ 8)) = Ok rel -> num_option cfg "tol" (Fin (/ 10 ^ 6)) = Ok tol ->
    isfinite (xnorm r) = false -> solve fuel cfg = Done (Err AssertionErr).
  Proof.
    intros E0 Eh Er Et F. unfold solve_newton. rewrite E0, Eh, Er, Et.
    destruct fuel; cbn [newton_loop st_res]; rewrite (keeps_going_bad rel tol _ F); unfold newton_finish; cbn [st_res]; now rewrite F.
  Qed.
End NewtonFacts.

(** Constrained dofs of a returned solution *)
Section Bc.
  Context {V : Type}.
  Variable p : problem Xops V.
  Variable pts : list (list (list Xops)).
  Variable kf : nat -> face_in Xops V -> list Xops.
  Hypothesis WF : wf_problem p.
  Hypothesis NC : 0 < p_num_cells p.
  Hypothesis IVS : ivs_ok p.
  Hypothesis KER : kernels_ok p kf.
  Hypothesis BC : bcs_ok p.

  Lemma sol_ok_unravel u : length u = num_total_dofs_all_vars p -> sol_ok p (unravel (sol_shapes p) u).
  Proof.
    intros H. pose proof (unravel_shapes (sol_shapes p) u H) as S. split.
    - rewrite (has_shapes_length _ _ S). unfold sol_shapes. now rewrite map_length.
    - intros v Hv. assert (Hv' : v < length (sol_shapes p)) by (unfold sol_shapes; now rewrite map_length).
      pose proof (has_shapes_nth _ _ v S Hv') as [S1 S2]. unfold sol_shapes in S1, S2.
      rewrite (nth_map_in _ _ _ (fe0 p)) in S1, S2 by exact Hv. cbn [fst snd] in S1, S2. fold (fe_of p v) in S1, S2.
      split; [exact S1|]. rewrite Forall_forall in S2. exact S2.
  Qed.

  Lemma bc_within d r x : newton_residual p pts None d r -> xnorm r = Fin x ->
    forall v n j b, valid_dof (global_shapes p) v n j -> prescribed (fe_of p v) n j = Some b ->
      exists u c, get2 (Fin 0) (nth v (unravel (sol_shapes p) d) []) n j = Fin u /\ b = Fin c /\ (Rabs (u - c) <= x)%R.
  Proof.
    intros (u & res & Hu & Lu & Hres & Hr) Hx v n j b Hv Hb. cbv zeta in Hr. unfold full_dofs in Hu. subst u r.
    pose proof (residual_length xsqrt p pts _ kf WF NC (sol_ok_unravel d Lu) IVS KER res Hres) as Lr.
    assert (Ld : length d = all_dofs (global_shapes p)) by (rewrite all_dofs_total; exact Lu).
    destruct (apply_bc_vec_spec p BC (ravel res) d one Lr Ld) as [LL G].
    specialize (G v n j Hv). rewrite Hb in G.
    assert (Hg : dof_number (global_shapes p) v n j < length (apply_bc_vec (ravel res) d p one)).
    { rewrite LL. now apply dof_number_lt. }
    pose proof (xnorm_fin _ _ Hx) as (_ & F & _). rewrite Forall_forall in F.
    pose proof (F _ (nth_In _ (Fin 0) Hg)) as Ff. apply isfinite_ex in Ff as [a Ha].
    pose proof (xnorm_nth _ _ _ a Hx Hg Ha) as Ba.
    assert (G' : Fin a = xadd (nth (dof_number (global_shapes p) v n j) d (Fin 0)) (xmul (xopp b) (Fin 1)))
      by exact (eq_trans (eq_sym Ha) G).
    clear G. rename G' into G. symmetry in G. apply xadd_fin in G as (u & w & E1 & E2 & ->). apply xmul_fin in E2 as (b' & o & E3 & E4 & ->).
    injection E4 as <-. apply xopp_fin in E3 as ->. exists u, (- b')%R.
    split.
    - exact (eq_trans (get2_unravel (Fin 0 : Xops) (sol_shapes p) d v n j Lu Hv) E1).
    - split; [reflexivity|]. replace (u - - b')%R with (u + b' * 1)%R by ring. exact Ba.
  Qed.
End Bc.

(** Line search over any norm function *)
Section LineSearch.
  Variable f : xr -> result xr.
  Lemma halve_spec k : forall j cur a, f (Fin (/ 2 ^ j)) = Ok cur -> halve f k (Fin (/ 2 ^ j)) cur = Ok a ->
    exists (m : nat) (N : nat -> xr), (j <= m <= j + k)%nat /\ a = Fin (/ 2 ^ m) /\
      (forall i, j <= i <= m -> f (Fin (/ 2 ^ i)) = Ok (N i)) /\
      (forall i, j <= i < m -> xgtb (N (S i)) (N i) = false) /\
      (m < j + k -> exists h, f (Fin (/ 2 ^ S m)) = Ok h /\ xgtb h (N m) = true).
  Proof.
    induction k as [|k IH]; intros j cur a Hj H; cbn [halve] in H.
    - injection H as <-. exists j, (fun _ => cur). split; [lia|]. split; [reflexivity|]. split; [|split; lia].
      intros i Hi. now replace i with j by lia.
    - cbn [xmul] in H. assert (E : (/ 2 ^ j * / 2 = / 2 ^ S j)%R).
      { cbn [pow]. rewrite Rinv_mult; ring. }
      rewrite E in H. destruct (f (Fin (/ 2 ^ S j))) as [h|] eqn:Eh; [|discriminate]. cbn [bind] in H.
      destruct (xgtb h cur) eqn:G.
      + injection H as <-. exists j, (fun _ => cur). split; [lia|]. split.
        { f_equal. cbn [pow]. field. apply pow_nonzero; lra. }
        split; [intros i Hi; now replace i with j by lia|]. split; [lia|]. intros _. eauto.
      + apply IH in H; [|exact Eh]. destruct H as (m & N & Hm & -> & H1 & H2 & H3).
        exists m, (fun i => if i =? j then cur else N i). split; [lia|]. split; [reflexivity|]. split; [|split].
        * intros i Hi. destruct (Nat.eqb_spec i j) as [->|]; [exact Hj|]. apply H1. lia.
        * intros i Hi. destruct (Nat.eqb_spec (S i) j) as [|]; [lia|]. destruct (Nat.eqb_spec i j) as [->|].
          -- rewrite H1 in Eh by lia. injection Eh as ->. exact G.
          -- apply H2. lia.
        * intros Hlt. destruct (Nat.eqb_spec m j); [lia|]. apply H3. lia.
  Qed.
End LineSearch.
