(** Proofs for C99: the masses and one explicit step. *)
From Coq Require Import String Reals List Arith Lia Lra Bool.
From Verif Require Import Num Arr ArrFacts Fe Problem SpecAssembly ProblemFacts AssemblyFacts ResidualFacts DerivFacts FeFacts SpecFe SpecWeak KernelFacts SolverBc SpecBc SpecEnergy Elastic ElasticFacts LinAlg SpecLinear SpecPosed
  Wave SpecCoupled CoupledFacts CoupledLinear StokesMain ThermoMech SpecThermoMech ThermoMechFacts ThermoMechMain Dendrite SpecDendrite DendriteFacts DendriteMain DendriteEx SpecDendriteEx DendriteExFacts.
Import ListNotations.
Local Open Scope R_scope.
Local Notation V := (nat -> nat -> Rops).
Local Notation zr := (@zero Rops).

Lemma const_get N x n : (n < N)%nat -> get2 zr (constant N x) n 0 = x.
Proof. intros Hn. unfold get2, constant. now rewrite nth_repeat_lt. Qed.
Section Consts.
  Variables (p : problem Rops V) (f : fe Rops).
  Local Notation N := (List.length (points f)).
  Hypothesis NB : forall c a, (c < p_num_cells p)%nat -> (a < num_nodes f)%nat -> (cell_node f c a < N)%nat.
  Hypothesis CE : constants_exact p f.
  Lemma const_val x c q : (c < p_num_cells p)%nat -> (q < num_quads f)%nat -> convert_from_dof_to_quad f (constant N x) c q 0 = x.
  Proof.
    intros Hc Hq. unfold convert_from_dof_to_quad. refine (eq_trans _ (Rmult_1_r x)). rewrite <- (proj1 (CE c q Hc Hq)), <- Rsum_mul. apply Rsum_ext. intros i Hi.
    rewrite (entry_at p f NB _ c i (const_shaped N x) Hc Hi), const_get by now apply NB. reflexivity.
  Qed.
  Lemma const_grad x c q j : (c < p_num_cells p)%nat -> (q < num_quads f)%nat -> (j < dim f)%nat -> sol_to_grad (points f) f (constant N x) c q 0 j = 0.
  Proof.
    intros Hc Hq Hj. unfold sol_to_grad. refine (eq_trans _ (Rmult_0_r x)). rewrite <- (proj2 (CE c q Hc Hq) j Hj), <- Rsum_mul. apply Rsum_ext. intros i Hi.
    rewrite (entry_at p f NB _ c i (const_shaped N x) Hc Hi), const_get by now apply NB. reflexivity.
  Qed.
End Consts.

(** arrays with one column *)
Lemma column_get (f : R -> R -> R) N a b n : shaped N 1 a -> shaped N 1 b -> (n < N)%nat -> get2 zr (map2 (map2 f) a b) n 0 = f (get2 zr a n 0) (get2 zr b n 0).
Proof.
  intros [LA HA] [LB HB] Hn. unfold get2. rewrite (nth_map2 (map2 f) a b n [] []) by lia.
  assert (L1 : List.length (nth n a []) = 1%nat) by (apply HA, nth_In; lia). assert (L2 : List.length (nth n b []) = 1%nat) by (apply HB, nth_In; lia).
  rewrite (nth_map2 f _ _ 0 zr zr) by lia. reflexivity.
Qed.
Lemma column_shaped (f : R -> R -> R) N a b : shaped N 1 a -> shaped N 1 b -> shaped N 1 (map2 (map2 f) a b).
Proof.
  intros [LA HA] [LB HB]. split; [rewrite length_map2; lia|]. intros r Hr. apply (In_nth _ _ []) in Hr as (n & Hn & <-). rewrite length_map2 in Hn.
  rewrite (nth_map2 (map2 f) a b n [] []) by lia. rewrite length_map2, HA, HB by (apply nth_In; lia). reflexivity.
Qed.
Lemma column_ext N a b : shaped N 1 a -> shaped N 1 b -> (forall n, (n < N)%nat -> get2 zr a n 0 = get2 zr b n 0) -> a = b.
Proof.
  intros [LA HA] [LB HB] H. apply (nth_ext a b [] []); [congruence|]. intros n Hn. specialize (H n ltac:(lia)). unfold get2 in H.
  assert (L1 : List.length (nth n a []) = 1%nat) by (apply HA, nth_In; lia). assert (L2 : List.length (nth n b []) = 1%nat) by (apply HB, nth_In; lia).
  destruct (nth n a []) as [|x [|]]; try discriminate. destruct (nth n b []) as [|y [|]]; try discriminate. cbn in H. now f_equal.
Qed.
Definition column (N : nat) (g : nat -> R) : list (list Rops) := map (fun n => [g n]) (seq 0 N).
Lemma col_shaped N g : shaped N 1 (column N g).
Proof. split; [unfold column; now rewrite map_length, seq_length|]. intros r Hr. apply in_map_iff in Hr as (i & <- & _). reflexivity. Qed.
Lemma col_get N g n : (n < N)%nat -> get2 zr (column N g) n 0 = g n.
Proof. intros Hn. unfold get2, column. rewrite (nth_ms _ n) by exact Hn. reflexivity. Qed.
Lemma concat_col (N : nat) (g : nat -> R) : concat (column N g) = map g (seq 0 N).
Proof. unfold column. generalize (seq 0 N). induction l as [|x l IH]; cbn; [reflexivity|]. exact (f_equal (cons (g x)) IH). Qed.
Lemma un_columns N0 N1 g0 g1 : unravel [(N0, 1%nat); (N1, 1%nat)] (map g0 (seq 0 N0) ++ map g1 (seq 0 N1)) = [column N0 g0; column N1 g1].
Proof.
  rewrite <- (concat_col N0 g0), <- (concat_col N1 g1). assert (H : has_shapes [(N0, 1%nat); (N1, 1%nat)] [column N0 g0; column N1 g1]).
  { assert (Q : forall N g, has_shape2 N 1 (column N g)) by (intros N g; destruct (col_shaped N g) as [A B]; split; [exact A|now apply Forall_forall]).
    constructor; [apply Q|constructor; [apply Q|constructor]]. }
  pose proof (unravel_ravel _ _ H) as E. unfold ravel in E. cbn [map concat] in E. rewrite app_nil_r in E. exact E.
Qed.
Lemma const_col N x : constant N x = column N (fun _ => x).
Proof. apply (column_ext N); [apply const_shaped|apply col_shaped|]. intros n Hn. now rewrite const_get, col_get. Qed.
Lemma map_const_repeat {A} (x : A) m i : map (fun _ => x) (seq i m) = repeat x m.
Proof. revert i. induction m as [|m IH]; intros i; cbn; [reflexivity|]. now rewrite IH. Qed.
Lemma seq_shift_add a m : map (fun n => (a + n)%nat) (seq 0 m) = seq a m.
Proof. induction a as [|a IH]; [apply map_id|]. rewrite <- seq_shift, <- IH, map_map. reflexivity. Qed.
Lemma zeros_seq a b : repeat 0 (a + b) = map (fun _ => 0) (seq 0 a) ++ map (fun _ => 0) (seq 0 b).
Proof.
  now rewrite repeat_app, !map_const_repeat.
Qed.

Section Ex.
  Variables (P : dn_params) (fp fT : fe Rops).
  Local Notation pm := (pm_of P fp fT).
  Local Notation Pp := (points fp).
  Local Notation PT := (points fT).
  Local Notation N0 := (List.length Pp).
  Local Notation N1 := (List.length PT).
  Hypothesis VP : vec fp = 1%nat.
  Hypothesis VT : vec fT = 1%nat.
  Hypothesis DP : dim fp = 2%nat.
  Hypothesis DT2 : dim fT = 2%nat.
  Hypothesis QE : num_quads fT = num_quads fp.
  Hypothesis WF : wf_problem pm.
  Hypothesis NC : (0 < p_num_cells pm)%nat.
  Let KR : ring_laws Rops := Rops_ring.
  Let CPm := m_coupled P fp fT.
  Lemma m_ok : form_ok (vec fp) (dim fp) (vec fT) (dim fT) (mass_form P). Proof. rewrite VP, VT, DP, DT2. apply mass_ok. Qed.
  Lemma fo_ok : form_ok (vec fp) (dim fp) (vec fT) (dim fT) (force_form P). Proof. rewrite VP, VT, DP, DT2. apply force_ok. Qed.
  Lemma m_ivs : forall iv, In iv (internal_vars pm) -> List.length iv = p_num_cells pm. Proof. intros iv []. Qed.
  Lemma NB0 c a : (c < p_num_cells pm)%nat -> (a < num_nodes fp)%nat -> (cell_node fp c a < N0)%nat. Proof. exact (cp_node0_ok pm fp fT _ CPm WF NC c a). Qed.
  Lemma NB1 c a : (c < p_num_cells pm)%nat -> (a < num_nodes fT)%nat -> (cell_node fT c a < N1)%nat. Proof. exact (cp_node1_ok pm fp fT _ CPm WF NC c a). Qed.
  Lemma fields v z : sol_ok pm [v; z] <-> shaped N0 1 v /\ shaped N1 1 z.
  Proof. rewrite <- VP at 1. rewrite <- VT. exact (c_fields pm fp fT _ CPm NC v z). Qed.
  Lemma shapes_are : sol_shapes pm = [(N0, 1%nat); (N1, 1%nat)].
  Proof. unfold sol_shapes, pm_of. cbn [fes map]. rewrite VP, VT. reflexivity. Qed.

  (** ** The masses *)
  Section Mass.
    Hypothesis C0 : constants_exact pm fp.
    Hypothesis C1 : constants_exact pm fT.
    Lemma mass_residual sqrtK t : exists r0 r1, compute_residual sqrtK pm [Pp; PT] [constant N0 t; constant N1 t] = Ok [r0; r1] /\ shaped N0 1 r0 /\ shaped N1 1 r1 /\
      (forall n, (n < N0)%nat -> get2 zr r0 n 0 = t * (tau P / dt P * share pm fp n)) /\ (forall n, (n < N1)%nat -> get2 zr r1 n 0 = t * (share pm fT n / dt P)).
    Proof.
      assert (SU : sol_ok pm [constant N0 t; constant N1 t]) by (apply fields; split; apply const_shaped).
      destruct (coupled_residual KR sqrtK pm fp fT _ Pp PT CPm WF NC m_ok m_ivs _ _ SU) as (r0 & r1 & E & SR & _). apply fields in SR as [S0 S1]. exists r0, r1. split; [exact E|]. split; [exact S0|]. split; [exact S1|]. split.
      - intros n Hn. assert (SV : sol_ok pm [hat N0 n; constant N1 0]) by (apply fields; split; [apply hat_shaped|apply const_shaped]).
        pose proof (coupled_weak0 KR sqrtK pm fp fT _ Pp PT CPm WF NC m_ok m_ivs _ _ SU _ _ r0 r1 SV E) as W. rewrite VP, DP in W. rewrite work_hat in W by exact Hn. rewrite W. unfold share, integral. rewrite !over_mul. apply over_ext. intros c q Hc Hq.
        unfold mass_form, state_at. cbn [flux0 source0 val0]. rewrite dot_one, dot2_12. rewrite (const_val pm fp NB0 C0 t c q Hc Hq). cbn [add zero Rops]. unfold Rdiv. req; ring.
      - intros n Hn. assert (SV : sol_ok pm [constant N0 0; hat N1 n]) by (apply fields; split; [apply const_shaped|apply hat_shaped]).
        pose proof (coupled_weak1 KR sqrtK pm fp fT _ Pp PT CPm WF NC m_ok m_ivs _ _ SU _ _ r0 r1 SV E) as W. rewrite VT, DT2 in W. rewrite work_hat in W by exact Hn. rewrite W. unfold share, integral. unfold Rdiv. rewrite (Rmult_comm (over_cells _ _ _ _)), !over_mul. apply over_ext. intros c q Hc Hq.
        unfold mass_form, state_at. cbn [flux1 source1 val1]. rewrite dot_one, dot2_12. rewrite (const_val pm fT NB1 C1 t c q Hc Hq). cbn [add zero Rops]. unfold Rdiv. req; ring.
    Qed.
    Lemma line_const t : line3 (K := Rops) [constant N0 0; constant N1 0] [constant N0 1; constant N1 1] t = [constant N0 t; constant N1 t].
    Proof.
      assert (Q : forall N, map2 (map2 (fun a b : Rops => add a (mul t b))) (constant N 0) (constant N 1) = constant N t).
      { intros N. apply (column_ext N); [apply column_shaped; apply const_shaped|apply const_shaped|]. intros n Hn. rewrite (column_get _ N) by (auto using const_shaped). rewrite !const_get by exact Hn. cbn [add mul Rops]. req; ring. }
      unfold line3, map2 at 1. cbn [combine map fst snd]. now rewrite !Q.
    Qed.
    Lemma zero_start : unravel (sol_shapes pm) (repeat 0 (num_total_dofs_all_vars pm)) = [constant N0 0; constant N1 0].
    Proof.
      unfold num_total_dofs_all_vars. rewrite shapes_are. replace (total_size _) with (N0 + N1)%nat by (cbn; lia). rewrite zeros_seq. refine (eq_trans (un_columns _ _ _ _) _). now rewrite <- !const_col.
    Qed.
    Theorem masses jvp sqrtK kf : right_jvp jvp pm [Pp; PT] kf ->
      get_mass jvp sqrtK pm [Pp; PT] = Ok (map (fun n => tau P / dt P * share pm fp n) (seq 0 N0) ++ map (fun n => share pm fT n / dt P) (seq 0 N1)).
    Proof.
      intros RJ. unfold get_mass. rewrite zero_start. assert (NT : num_total_dofs_all_vars pm = (N0 + N1)%nat) by (unfold num_total_dofs_all_vars; rewrite shapes_are; cbn; lia).
      assert (SU : forall x, sol_ok pm [constant N0 x; constant N1 x]) by (intros x; apply fields; split; apply const_shaped).
      pose proof (cp_kernels pm fp fT _ CPm NC) as KE. pose proof (cp_ivs pm fp fT _ CPm m_ivs) as IV.
      pose proof (newton_update_ok jvp sqrtK pm [Pp; PT] [constant N0 0; constant N1 0] (cp_kf (K := Rops) (V := V)) WF NC (SU 0) IV KE) as NU.
      match type of NU with _ = Ok ?x => destruct x as [rr W] end. rewrite NU. cbn [bind snd]. f_equal. rewrite NT.
      set (res := fun t => match compute_residual sqrtK pm [Pp; PT] [constant N0 t; constant N1 t] with Ok r => r | Err _ => [] end).
      assert (RES : forall t, compute_residual sqrtK pm [Pp; PT] (line3 (K := Rops) [constant N0 0; constant N1 0] [constant N0 1; constant N1 1] t) = Ok (res t)).
      { intros t. rewrite line_const. unfold res. destruct (mass_residual sqrtK t) as (r0 & r1 & E & _). now rewrite E. }
      assert (GS : global_shapes pm = [(N0, 1%nat); (N1, 1%nat)]) by (unfold global_shapes; cbn [fes pm_of map]; now rewrite VP, VT).
      assert (AD : all_dofs (global_shapes pm) = (N0 + N1)%nat) by (rewrite GS; cbn; lia).
      assert (ROW : forall g m, (g < N0 + N1)%nat -> (forall t, nth g (ravel (res t)) zr = t * m) -> sum_n (K := Rops) (N0 + N1) (fun h => set_values_coo (K := Rops) (p_I pm) (p_J pm) W g h) = m).
      { intros g m Hg HR.
        pose proof (residual_derivative jvp sqrtK pm [Pp; PT] [constant N0 0; constant N1 0] [constant N0 1; constant N1 1] (cp_kf (K := Rops) (V := V)) WF NC (SU 0) (SU 1) IV KE
          (proj1 (RJ _ (SU 0))) (fun s i Hs => False_ind _ (Nat.nlt_0_r _ Hs)) g res rr W ltac:(rewrite AD; exact Hg) RES NU) as D.
        assert (D2 : derivable_pt_lim (fun t => nth g (ravel (res t)) zr) 0 m).
        { apply (dlim_ext (fun t => t * m)); [intros t; symmetry; apply HR|]. pose proof (derivable_pt_lim_mult id (fct_cte m) 0 1 0 (derivable_pt_lim_id 0) (derivable_pt_lim_const m 0)) as Q. unfold mult_fct, id, fct_cte in Q.
          eapply (eq_ind _ (fun l => derivable_pt_lim _ 0 l) Q). ring. }
        pose proof (uniqueness_limite _ _ _ _ D D2) as U. rewrite <- U. rewrite AD. apply Rsum_ext. intros h Hh.
        assert (ON : nth h (ravel [constant N0 1; constant N1 1]) zr = 1).
        { unfold ravel. cbn [map concat]. rewrite app_nil_r, !const_col, !concat_col. destruct (Nat.lt_ge_cases h N0) as [L|L].
          - rewrite app_nth1 by (rewrite map_length, seq_length; exact L). now rewrite (nth_ms _ h).
          - rewrite app_nth2 by (rewrite map_length, seq_length; exact L). rewrite map_length, seq_length. rewrite (nth_ms _ (h - N0)) by lia. reflexivity. }
        match goal with |- _ = (_ * nth h ?l _)%num => assert (ON' : nth h l zr = 1) by exact ON; rewrite ON' end. symmetry. exact (Rmult_1_r _). }
      assert (RV : forall t, exists r0 r1, res t = [r0; r1] /\ has_shapes [(N0, 1%nat); (N1, 1%nat)] (res t) /\
        (forall n, (n < N0)%nat -> get2 zr r0 n 0 = t * (tau P / dt P * share pm fp n)) /\ (forall n, (n < N1)%nat -> get2 zr r1 n 0 = t * (share pm fT n / dt P))).
      { intros t. destruct (mass_residual sqrtK t) as (r0 & r1 & E & [A1 A2] & [B1 B2] & H0 & H1). exists r0, r1. unfold res. rewrite E. split; [reflexivity|]. split; [|auto]. rewrite <- Forall_forall in A2, B2. constructor; [split; auto|constructor; [split; auto|constructor]]. }
      refine (eq_trans (f_equal (map _) (seq_app N0 N1 0)) _). rewrite map_app. f_equal.
      - apply map_ext_in. intros n Hn. apply in_seq in Hn. apply ROW; [lia|]. intros t. destruct (RV t) as (r0 & r1 & E & SH & H0 & _). rewrite E in SH |- *.
        pose proof (nth_ravel zr _ _ 0 n 0 N0 1 SH ltac:(cbn; lia) eq_refl ltac:(lia) ltac:(lia)) as NR. assert (IX : (offset_of [(N0, 1%nat); (N1, 1%nat)] 0 + n * 1 + 0 = n)%nat) by (unfold offset_of; cbn; lia). rewrite IX in NR. refine (eq_trans NR _). apply H0. lia.
      - change (0 + N0)%nat with N0. rewrite <- (seq_shift_add N0 N1). rewrite map_map. apply map_ext_in. intros n Hn. apply in_seq in Hn. apply ROW; [lia|]. intros t. destruct (RV t) as (r0 & r1 & E & SH & _ & H1). rewrite E in SH |- *.
        pose proof (nth_ravel zr _ _ 1 n 0 N1 1 SH ltac:(cbn; lia) eq_refl ltac:(lia) ltac:(lia)) as NR. assert (IX : (offset_of [(N0, 1%nat); (N1, 1%nat)] 1 + n * 1 + 0 = N0 + n)%nat) by (unfold offset_of; cbn; lia). rewrite IX in NR. refine (eq_trans NR _). apply H1. lia.
    Qed.
  End Mass.

  (** ** One step *)
  Section Step.
    Variable chi : list R.
    Hypothesis LN : List.length chi = p_num_cells pm.
    Local Notation pf := (pf_of P fp fT chi).
    Let CPf := f_coupled P fp fT VP VT chi.
    Lemma f_wf : wf_problem pf. Proof. constructor; [exact (wf_cells pm WF)|exact (wf_cell_len pm WF)|exact (wf_cell_node pm WF)|exact (wf_boundary pm WF)]. Qed.
    Lemma f_ivs : forall iv, In iv (internal_vars pf) -> List.length iv = p_num_cells pf. Proof. intros iv [<-|[]]. now rewrite map_length. Qed.
    Lemma f_iv_at c q : (c < p_num_cells pm)%nat -> iv_at pf c q = [(fun _ _ => nth c chi 0)].
    Proof.
      intros Hc. unfold iv_at, pf_of. cbn [internal_vars flat_map]. pose proof (chi_entry chi c _ LN Hc) as CA.
      match goal with |- context [@nth_error ?T ?l c] => assert (EQ : @nth_error T l c = Some (fun _ _ _ => nth c chi 0)) by exact CA; rewrite EQ end. reflexivity.
    Qed.
    Lemma force_weak sqrtK u w : shaped N0 1 u -> shaped N1 1 w -> exists r0 r1, compute_residual sqrtK pf [Pp; PT] [u; w] = Ok [r0; r1] /\ shaped N0 1 r0 /\ shaped N1 1 r1 /\
      (forall v, shaped N0 1 v -> work (K := Rops) N0 1 v r0 = - phase_force P pm fp fT chi u w v) /\ (forall z, shaped N1 1 z -> work (K := Rops) N1 1 z r1 = - heat_force P pm fp fT u w z).
    Proof.
      intros S0 S1. assert (SU : sol_ok pf [u; w]) by (apply (proj2 (fields u w)); auto).
      destruct (coupled_residual KR sqrtK pf fp fT _ Pp PT CPf f_wf NC fo_ok f_ivs _ _ SU) as (r0 & r1 & E & SR & _). exists r0, r1. split; [exact E|]. apply (proj1 (fields r0 r1)) in SR as [R0 R1]. split; [exact R0|]. split; [exact R1|]. split.
      - intros v Sv. assert (SV : sol_ok pf [v; constant N1 0]) by (apply (proj2 (fields _ _)); split; [exact Sv|apply const_shaped]).
        pose proof (coupled_weak0 KR sqrtK pf fp fT _ Pp PT CPf f_wf NC fo_ok f_ivs _ _ SU _ _ r0 r1 SV E) as W. rewrite VP, DP in W. rewrite W. unfold phase_force.
        match goal with |- _ = - ?x => transitivity (-1 * x); [|req; ring] end. rewrite over_mul. refine (over_ext pm fp Pp _ _ _). intros c q Hc Hq.
        unfold force_form, state_at. cbn [flux0 source0]. unfold j_th, j_chi. cbn [grad0 val0 val1 ivs]. rewrite f_iv_at by auto. cbn [nth]. rewrite dot_one, dot2_12, safe_same.
        unfold own_flux, drive, noise_term, interface_flux, aniso_flux, angle, phase, temp, grad_p, reaction, driving. cbv zeta. cbn [fst snd add Rops]. replace (5 / 10) with (/ 2) by lra. unfold Rdiv. req; ring.
      - intros z Sz. assert (SV : sol_ok pf [constant N0 0; z]) by (apply (proj2 (fields _ _)); split; [apply const_shaped|exact Sz]).
        pose proof (coupled_weak1 KR sqrtK pf fp fT _ Pp PT CPf f_wf NC fo_ok f_ivs _ _ SU _ _ r0 r1 SV E) as W. rewrite VT, DT2 in W. rewrite W. unfold heat_force.
        match goal with |- _ = - ?x => transitivity (-1 * x); [|req; ring] end. rewrite over_mul. refine (over_ext pm fT PT _ _ _). intros c q Hc Hq.
        unfold force_form, state_at. cbn [flux1 source1]. unfold j_th, j_chi. cbn [grad0 grad1 val0 val1 ivs]. rewrite dot_one, dot2_12, safe_same.
        unfold own_flux, drive, noise_term, interface_flux, aniso_flux, angle, phase, temp, grad_p, grad_T, reaction, driving. cbv zeta. cbn [fst snd add Rops]. replace (5 / 10) with (/ 2) by lra. unfold Rdiv. req; ring.
    Qed.
    Definition mass_list : list R := map (fun n => tau P / dt P * share pm fp n) (seq 0 N0) ++ map (fun n => share pm fT n / dt P) (seq 0 N1).
    Hypothesis T0 : tau P <> 0.
    Hypothesis D0 : dt P <> 0.
    Hypothesis SH0 : forall n, (n < N0)%nat -> share pm fp n <> 0.
    Hypothesis SH1 : forall n, (n < N1)%nat -> share pm fT n <> 0.
    Lemma lumped_work f x N r v (m : R) : N = List.length (points f) -> shaped N 1 x -> shaped N 1 r -> shaped N 1 v ->
      (forall n, (n < N)%nat -> m * share pm f n * get2 zr x n 0 = - get2 zr r n 0) -> m * lumped pm f x v = - work (K := Rops) N 1 v r.
    Proof.
      intros -> SX SR SV H. unfold lumped, work. rewrite <- Rsum_mul. match goal with |- _ = - ?y => transitivity (-1 * y); [|req; ring] end. rewrite <- Rsum_mul. apply Rsum_ext. intros n Hn. specialize (H n Hn).
      transitivity (-1 * (get2 zr v n 0 * get2 zr r n 0 + 0)); [|reflexivity]. transitivity (get2 zr v n 0 * (m * share pm f n * get2 zr x n 0)); [req; ring|]. rewrite H. req; ring.
    Qed.
    Theorem ex_step sqrtK iv u w : shaped N0 1 u -> shaped N1 1 w -> exists u' w',
      explicit_euler sqrtK mass_list (mkProblem [fp; fT] [] (sf_maps P [fp; fT]) iv []) [Pp; PT] [u; w] chi = Ok [u'; w'] /\ shaped N0 1 u' /\ shaped N1 1 w' /\
      (forall v, shaped N0 1 v -> tau P / dt P * lumped pm fp (change u u') v = phase_force P pm fp fT chi u w v) /\
      (forall z, shaped N1 1 z -> / dt P * lumped pm fT (change w w') z = heat_force P pm fp fT u w z).
    Proof.
      intros S0 S1. destruct (force_weak sqrtK u w S0 S1) as (r0 & r1 & E & R0 & R1 & W0 & W1).
      assert (UN : unravel (sol_shapes (mkProblem [fp; fT] [] (sf_maps P [fp; fT]) iv [])) (map (fun m => 1 / m) mass_list)
        = [column N0 (fun n => 1 / (tau P / dt P * share pm fp n)); column N1 (fun n => 1 / (share pm fT n / dt P))]).
      { change (sol_shapes (mkProblem [fp; fT] [] (sf_maps P [fp; fT]) iv [])) with (sol_shapes pm). rewrite shapes_are. unfold mass_list. rewrite map_app, !map_map. exact (un_columns _ _ _ _). }
      set (x0 := column N0 _) in UN. set (x1 := column N1 _) in UN.
      exists (map2 (map2 (fun x y : R => x + y)) u (map2 (map2 (fun x y : R => - x * y)) x0 r0)), (map2 (map2 (fun x y : R => x + y)) w (map2 (map2 (fun x y : R => - x * y)) x1 r1)).
      pose proof (col_shaped N0 (fun n => 1 / (tau P / dt P * share pm fp n)) : shaped N0 1 x0) as X0. pose proof (col_shaped N1 (fun n => 1 / (share pm fT n / dt P)) : shaped N1 1 x1) as X1.
      split; [|split; [|split; [|split]]].
      - unfold explicit_euler, force_func. cbv zeta.
        assert (EV : compute_residual_vars sqrtK (mkProblem [fp; fT] [] (sf_maps P [fp; fT]) iv []) [Pp; PT] [u; w] [map (fun x _ _ _ => x) chi] (internal_vars_surfaces (mkProblem [fp; fT] [] (sf_maps P [fp; fT]) iv [])) = Ok [r0; r1]) by exact E.
        rewrite EV. cbn [bind]. match goal with |- context [@unravel ?A ?a ?b] => assert (UN' : @unravel A a b = [x0; x1]) by exact UN; rewrite UN' end. reflexivity.
      - apply column_shaped; [exact S0|]. now apply column_shaped.
      - apply column_shaped; [exact S1|]. now apply column_shaped.
      - intros v Sv. rewrite (lumped_work fp _ N0 r0 v (tau P / dt P) eq_refl); [|apply column_shaped; [exact S0|apply column_shaped; [exact S0|now apply column_shaped]]|exact R0|exact Sv|].
        + rewrite W0 by exact Sv. req; ring.
        + intros n Hn. unfold change. rewrite (column_get _ N0) by (auto using column_shaped). rewrite (column_get _ N0) by (auto using column_shaped). rewrite (column_get _ N0) by auto. unfold x0. rewrite col_get by exact Hn. pose proof (SH0 n Hn). req. field. auto.
      - intros z Sz. rewrite (lumped_work fT _ N1 r1 z (/ dt P) eq_refl); [|apply column_shaped; [exact S1|apply column_shaped; [exact S1|now apply column_shaped]]|exact R1|exact Sz|].
        + rewrite W1 by exact Sz. req; ring.
        + intros n Hn. unfold change. rewrite (column_get _ N1) by (auto using column_shaped). rewrite (column_get _ N1) by (auto using column_shaped). rewrite (column_get _ N1) by auto. unfold x1. rewrite col_get by exact Hn. pose proof (SH1 n Hn). req. field. auto.
    Qed.
    (** all liquid or all solid at one temperature *)
    Theorem ex_steady sqrtK iv x y : constants_exact pm fp -> constants_exact pm fT -> x = 0 \/ x = 1 ->
      explicit_euler sqrtK mass_list (mkProblem [fp; fT] [] (sf_maps P [fp; fT]) iv []) [Pp; PT] [constant N0 x; constant N1 y] chi = Ok [constant N0 x; constant N1 y].
    Proof.
      intros C0 C1 X. destruct (ex_step sqrtK iv (constant N0 x) (constant N1 y) (const_shaped _ _) (const_shaped _ _)) as (u' & w' & E & S0 & S1 & H0 & H1). rewrite E. f_equal.
      assert (G0 : forall c q j, (c < p_num_cells pm)%nat -> (q < num_quads fp)%nat -> (j < 2)%nat -> grad_p fp (constant N0 x) c q j = 0) by (intros c q j Hc Hq Hj; rewrite <- DP in Hj; exact (const_grad pm fp NB0 C0 x c q j Hc Hq Hj)).
      assert (G1 : forall c q j, (c < p_num_cells pm)%nat -> (q < num_quads fT)%nat -> (j < 2)%nat -> grad_T fT (constant N1 y) c q j = 0) by (intros c q j Hc Hq Hj; rewrite <- DT2 in Hj; exact (const_grad pm fT NB1 C1 y c q j Hc Hq Hj)).
      assert (PV : forall c q, (c < p_num_cells pm)%nat -> (q < num_quads fp)%nat -> phase fp (constant N0 x) c q = x) by (intros c q Hc Hq; exact (const_val pm fp NB0 C0 x c q Hc Hq)).
      assert (Z0 : forall v, phase_force P pm fp fT chi (constant N0 x) (constant N1 y) v = 0).
      { intros v. unfold phase_force. apply over_zero. intros c q Hc Hq. unfold own_flux, drive, noise_term, interface_flux. cbn [fst snd]. rewrite !G0, PV by (auto; lia). destruct X as [->| ->]; req; ring. }
      assert (Z1 : forall z, heat_force P pm fp fT (constant N0 x) (constant N1 y) z = 0).
      { intros z. unfold heat_force. apply over_zero. intros c q Hc Hq. rewrite !G1 by (auto; lia). rewrite QE in Hq. unfold own_flux, drive, interface_flux. cbn [fst snd]. rewrite !G0, PV by (auto; lia). destruct X as [->| ->]; req; ring. }
      assert (LH : forall f N xx n, N = List.length (points f) -> (n < N)%nat -> lumped pm f xx (hat N n) = share pm f n * get2 zr xx n 0).
      { intros f N xx n -> Hn. unfold lumped. pose proof (Rsum_delta (List.length (points f)) n (fun i => share pm f i * get2 zr xx i 0) Hn) as D. cbv beta in D. refine (eq_trans _ D). apply Rsum_ext. intros i Hi. rewrite hat_get by exact Hi. rewrite (Nat.eqb_sym i n). apply Rmult_comm. }
      f_equal; [|f_equal].
      - apply (column_ext N0); [exact S0|apply const_shaped|]. intros n Hn. specialize (H0 _ (hat_shaped N0 n)). rewrite Z0, (LH fp N0 _ n eq_refl Hn) in H0. unfold change in H0. rewrite (column_get _ N0) in H0 by (auto using const_shaped).
        apply Rmult_integral in H0 as [H0|H0]; [exfalso; revert H0; unfold Rdiv; apply Rmult_integral_contrapositive_currified; [exact T0|now apply Rinv_neq_0_compat]|].
        apply Rmult_integral in H0 as [H0|H0]; [now apply SH0 in H0|]. apply Rminus_diag_uniq in H0. exact H0.
      - apply (column_ext N1); [exact S1|apply const_shaped|]. intros n Hn. specialize (H1 _ (hat_shaped N1 n)). rewrite Z1, (LH fT N1 _ n eq_refl Hn) in H1. unfold change in H1. rewrite (column_get _ N1) in H1 by (auto using const_shaped).
        apply Rmult_integral in H1 as [H1|H1]; [exfalso; revert H1; now apply Rinv_neq_0_compat|].
        apply Rmult_integral in H1 as [H1|H1]; [now apply SH1 in H1|]. apply Rminus_diag_uniq in H1. exact H1.
    Qed.
  End Step.
End Ex.
