(** The residual of the arc-length method entry by entry (C31, C57): proofs. *)
From Coq Require Import String List Arith Lia Bool Reals Lra.
From Verif Require Import Num Arr ArrFacts Fe Problem SpecAssembly AssemblyFacts ProblemFacts ResidualFacts AgreeFacts SolverBc SpecBc BcFacts XNum PyDict Options
  LinSolve Newton SpecNewton NewtonFacts ArcLength SpecArc ArcFacts ArcMain.
Import ListNotations.

Section Bc.
  Context {O V : Type}.
  Variable B : backends O.
  Variable jvp : (list Xops -> list Xops) -> list Xops -> list Xops -> list Xops.
  Variable p : problem Xops V.
  Variable pts : list (list (list Xops)).
  Variable P_mat : option pmat.
  Variable kf : nat -> face_in Xops V -> list Xops.
  Hypothesis WF : wf_problem p.
  Hypothesis NC : 0 < p_num_cells p.
  Hypothesis IVS : ivs_ok p.
  Hypothesis KER : kernels_ok p kf.
  Hypothesis BC : bcs_ok p.
  Notation gs := (global_shapes p).

  Lemma arc_residual_entries (scale : xr) d res A : arc_residual jvp p pts P_mat scale d = Ok (res, A) ->
    length d = all_dofs gs /\ length res = all_dofs gs /\
    exists r W, newton_update jvp xsqrt p pts (unravel (sol_shapes p) d) = Ok (r, W) /\
      compute_residual xsqrt p pts (unravel (sol_shapes p) d) = Ok r /\ A = get_A p P_mat W /\
      forall v n j, valid_dof gs v n j ->
        nth (dof_number gs v n j) res (Fin 0) =
        match prescribed (fe_of p v) n j with
        | Some b => xadd (nth (dof_number gs v n j) d (Fin 0)) (xmul (xopp b) scale)
        | None => nth (dof_number gs v n j) (ravel r) (Fin 0)
        end.
  Proof.
    unfold arc_residual. intros H. destruct (unflatten p d) as [sol|] eqn:Es; [|discriminate].
    apply unflatten_ok in Es as [Lu ->]. cbn [bind] in H.
    pose proof (newton_agrees jvp xsqrt p pts (unravel (sol_shapes p) d)) as AG. unfold rmap in AG.
    destruct (newton_update jvp xsqrt p pts (unravel (sol_shapes p) d)) as [[r W]|]; [|discriminate].
    cbn [bind fst snd] in H, AG. injection H as <- <-.
    assert (Ld : length d = all_dofs gs) by (rewrite all_dofs_total; exact Lu).
    pose proof (residual_length xsqrt p pts _ kf WF NC (sol_ok_unravel p d Lu) IVS KER r AG) as Lr.
    destruct (apply_bc_vec_spec p BC (ravel r) d (scale : Xops) Lr Ld) as [LL G].
    split; [exact Ld|]. split; [exact LL|]. exists r, W. repeat (split; [reflexivity || exact AG|]). exact G.
  Qed.
  Lemma arc_bc_within (scale : xr) d res A x : arc_residual jvp p pts P_mat scale d = Ok (res, A) -> xnorm res = Fin x ->
    forall v n j b, valid_dof gs v n j -> prescribed (fe_of p v) n j = Some b ->
      exists u c l, nth (dof_number gs v n j) d (Fin 0) = Fin u /\ b = Fin c /\ scale = Fin l /\ (Rabs (u - l * c) <= x)%R.
  Proof.
    intros H Hx v n j b Hv Hb. apply arc_residual_entries in H as (Ld & LL & r & W & _ & _ & _ & G).
    specialize (G v n j Hv). rewrite Hb in G.
    assert (Hg : dof_number gs v n j < length res) by (rewrite LL; now apply dof_number_lt).
    pose proof (xnorm_fin _ _ Hx) as (_ & F & _). rewrite Forall_forall in F.
    pose proof (F _ (nth_In _ (Fin 0) Hg)) as Ff. apply isfinite_ex in Ff as [a Ha].
    pose proof (xnorm_nth _ _ _ a Hx Hg Ha) as Ba. assert (G' := eq_trans (eq_sym G) Ha). clear G. rename G' into G.
    apply xadd_fin in G as (u & w & E1 & E2 & ->). apply xmul_fin in E2 as (b' & o & E3 & E4 & ->). apply xopp_fin in E3 as ->.
    exists u, (- b')%R, o. split; [exact E1|]. split; [reflexivity|]. split; [exact E4|].
    replace (u - o * - b')%R with (u + b' * o)%R by ring. exact Ba.
  Qed.
  Lemma disp_bc_reached fuel Dl psi st st' : arc_length_solver_disp_driven B jvp p pts P_mat fuel Dl psi st = Done (Ok st') ->
    exists k st1 r, iterations (disp_body B jvp p pts P_mat psi Dl (ar_u st) (ar_lam st)) k st st1 /\
      disp_body B jvp p pts P_mat psi Dl (ar_u st) (ar_lam st) st1 = Ok (r, st') /\
      (isfinite r = true -> forall v n j b, valid_dof gs v n j -> prescribed (fe_of p v) n j = Some b ->
        exists u c l, nth (dof_number gs v n j) (ar_u st1) (Fin 0) = Fin u /\ b = Fin c /\ ar_lam st1 = Fin l /\ (Rabs (u - l * c) <= / 10 ^ 6)%R).
  Proof.
    intros H. apply loop_last in H; [|exact tol_lt_1]. destruct H as (k & st1 & r & I & E & G). exists k, st1, r. split; [exact I|]. split; [exact E|].
    intros F v n j b Hv Hb. apply disp_body_inv in E as (res & A & ub & ut & Hr & -> & _). apply isfinite_ex in F as [x Hx].
    destruct (arc_bc_within _ _ _ _ _ Hr Hx v n j b Hv Hb) as (u & c & l & E1 & E2 & E3 & E4). exists u, c, l. repeat (split; [assumption|]).
    rewrite Hx in G. unfold xgtb in G. cbn [xltb] in G. apply Rltb_false in G. lra.
  Qed.
End Bc.
