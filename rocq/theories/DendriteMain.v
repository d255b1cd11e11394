(** Proofs for C98: weak form, uniqueness and heat balance of an implicit step. *)
From Coq Require Import String Reals List Arith Lia Lra Bool.
From Verif Require Import Num Arr ArrFacts Fe Problem SpecAssembly ProblemFacts AssemblyFacts ResidualFacts FeFacts SpecFe SpecWeak KernelFacts SpecBc SpecEnergy Elastic ElasticFacts LinAlg SpecLinear SpecPosed
  PosedFacts Wave SpecCoupled CoupledFacts CoupledLinear StokesMain ThermoMech SpecThermoMech ThermoMechFacts ThermoMechMain Dendrite SpecDendrite DendriteFacts.
Import ListNotations.
Local Open Scope R_scope.
Local Notation V := (nat -> nat -> Rops).

Lemma dot2_12 (A B : nat -> nat -> Rops) : dot2 (K := Rops) 1 2 A B = A 0%nat 0%nat * B 0%nat 0%nat + A 0%nat 1%nat * B 0%nat 1%nat.
Proof. unfold dot2. cbn. req; ring. Qed.
Lemma nth_repeat_lt {A} (a d : A) n i : (i < n)%nat -> nth i (repeat a n) d = a.
Proof. revert i. induction n as [|n IH]; intros [|i] H; cbn; auto; try lia. apply IH. lia. Qed.
Lemma eps_nonzero P th : dn_physical P -> eps_fn P th <> 0.
Proof.
  intros (_ & _ & E & D). unfold eps_fn. apply Rmult_integral_contrapositive_currified; [exact E|]. pose proof (COS_bound (J_mode P * (th - PI / 2))) as B.
  set (c := cos _) in *. assert (- 1 < delta P * c); [|lra]. destruct (Rle_or_lt 0 c); nra.
Qed.

Section Step.
  Variables (P : dn_params) (fp fT : fe Rops) (uo wo : list (list Rops)) (chi : list R).
  Local Notation p := (dn_at P fp fT uo wo chi).
  Local Notation pa := (dn_aux P fp fT uo wo chi).
  Hypothesis VP : vec fp = 1%nat.
  Hypothesis VT : vec fT = 1%nat.
  Hypothesis DP : dim fp = 2%nat.
  Hypothesis DT2 : dim fT = 2%nat.
  Hypothesis QE : num_quads fT = num_quads fp.
  Hypothesis WF : wf_problem p.
  Hypothesis NC : (0 < p_num_cells p)%nat.
  Hypothesis LN : List.length chi = p_num_cells p.
  Local Notation Pp := (points fp).
  Local Notation PT := (points fT).
  Local Notation F := (dn_form P).
  Local Notation TF := (dn_tangent P).
  Local Notation zr := (@zero Rops).
  Let KR : ring_laws Rops := Rops_ring.
  Let CP := a_coupled P fp fT uo wo chi.
  Let AW := a_wf P fp fT uo wo chi WF.
  Let AO := a_ok P fp fT VP VT DP DT2.
  Let AI := a_ivs P fp fT uo wo chi WF LN.
  Let RS := residual_same P fp fT uo wo chi VP VT DP DT2 QE WF NC LN.
  Let AV := a_iv_at P fp fT uo wo chi WF LN.

  Lemma phase_density u w v c q : (c < p_num_cells p)%nat ->
    add (dot2 (K := Rops) 1 2 (flux0 F (state_at pa fp fT Pp PT u w c q)) (sol_to_grad Pp fp v c q))
        (dot1 (K := Rops) 1 (source0 F (state_at pa fp fT Pp PT u w c q)) (convert_from_dof_to_quad fp v c q))
    = let fl := interface_flux (eps_fn P (angle fp uo c q)) (eps_grad P (angle fp uo c q)) (grad_p fp u c q 0) (grad_p fp u c q 1) in
      fst fl * grad_p fp v c q 0 + snd fl * grad_p fp v c q 1
      + (tau P * (phase fp u c q - phase fp uo c q) / dt P
         - phase fp uo c q * (1 - phase fp uo c q) * (phase fp uo c q - / 2 + driving P (temp fT wo c q) + a_noise P * nth c chi 0)) * phase fp v c q.
  Proof.
    intros Hc. unfold dn_form, state_at. cbn [flux0 source0]. unfold i_th, i_G, i_p, i_T, i_chi. cbn [grad0 val0 ivs]. rewrite AV by auto. cbn [nth]. rewrite dot_one, dot2_12, safe_same. unfold interface_flux, aniso_flux, angle, phase, temp, grad_p, reaction, driving. cbv zeta. cbn [fst snd add Rops].
    replace (5 / 10) with (/ 2) by lra. unfold Rdiv. req; ring.
  Qed.
  Lemma flow_density u w z c q : (c < p_num_cells p)%nat ->
    add (dot2 (K := Rops) 1 2 (flux1 F (state_at pa fp fT Pp PT u w c q)) (sol_to_grad PT fT z c q))
        (dot1 (K := Rops) 1 (source1 F (state_at pa fp fT Pp PT u w c q)) (convert_from_dof_to_quad fT z c q))
    = grad_T fT w c q 0 * grad_T fT z c q 0 + grad_T fT w c q 1 * grad_T fT z c q 1
      + ((temp fT w c q - temp fT wo c q) - K_lat P * (phase fp u c q - phase fp uo c q)) / dt P * temp fT z c q.
  Proof.
    intros Hc. unfold dn_form, state_at. cbn [flux1 source1]. unfold i_p, i_T. cbn [grad1 val0 val1 ivs]. rewrite AV by auto. cbn [nth]. rewrite dot_one, dot2_12. unfold grad_T, phase, temp. cbn [add Rops].
    unfold Rdiv. req; ring.
  Qed.
  Theorem dn_weak sqrtK u w v z : sol_ok p [u; w] -> sol_ok p [v; z] -> exists r0 r1, compute_residual sqrtK p [Pp; PT] [u; w] = Ok [r0; r1] /\
    work (K := Rops) (List.length Pp) 1 v r0 = phase_work P p fp fT uo wo chi u v /\ work (K := Rops) (List.length PT) 1 z r1 = heat_flow P p fp fT uo wo u w z.
  Proof.
    intros SU SV. rewrite RS by exact SU.
    destruct (coupled_residual KR sqrtK pa fp fT F Pp PT CP AW NC AO AI u w SU) as (r0 & r1 & E & _). exists r0, r1. split; [exact E|].
    pose proof (coupled_weak0 KR sqrtK pa fp fT F Pp PT CP AW NC AO AI u w SU v z r0 r1 SV E) as W0.
    pose proof (coupled_weak1 KR sqrtK pa fp fT F Pp PT CP AW NC AO AI u w SU v z r0 r1 SV E) as W1.
    rewrite VP, DP in W0. rewrite VT, DT2 in W1. rewrite W0, W1. unfold phase_work, heat_flow, over_cells. split; apply Rsum_ext; intros c Hc; apply Rsum_ext; intros q _; f_equal.
    - now apply phase_density.
    - now apply flow_density.
  Qed.
  Lemma dn_work u w v z : coupled_work (K := Rops) pa fp fT Pp PT F u w v z = phase_work P p fp fT uo wo chi u v + heat_flow P p fp fT uo wo u w z.
  Proof.
    unfold coupled_work, phase_work, heat_flow, over_cells. rewrite VT, VP, DP, DT2. cbn [add Rops]. f_equal; apply Rsum_ext; intros c Hc; apply Rsum_ext; intros q _; f_equal.
    - now apply phase_density.
    - now apply flow_density.
  Qed.
  Lemma dn_fields v z : sol_ok p [v; z] <-> shaped (List.length Pp) 1 v /\ shaped (List.length PT) 1 z.
  Proof. rewrite <- VP at 1. rewrite <- VT. exact (c_fields pa fp fT F CP NC v z). Qed.
  Lemma nil_phase N m c q : phase fp (nil_field N m) c q = 0. Proof. unfold phase. apply zero_val. intros. apply nil_cell. Qed.
  Lemma nil_temp N m c q : temp fT (nil_field N m) c q = 0. Proof. unfold temp. apply zero_val. intros. apply nil_cell. Qed.
  Lemma nil_gp N m c q j : grad_p fp (nil_field N m) c q j = 0. Proof. unfold grad_p. apply zero_grad. intros. apply nil_cell. Qed.
  Lemma nil_gT N m c q j : grad_T fT (nil_field N m) c q j = 0. Proof. unfold grad_T. apply zero_grad. intros. apply nil_cell. Qed.
  Lemma phase_nil u N m : phase_work P p fp fT uo wo chi u (nil_field N m) = 0.
  Proof. unfold phase_work. apply over_zero. intros c q Hc Hq. cbv zeta. rewrite !nil_gp, nil_phase. req; ring. Qed.
  Lemma flow_nil u w N m : heat_flow P p fp fT uo wo u w (nil_field N m) = 0.
  Proof. unfold heat_flow. apply over_zero. intros c q Hc Hq. rewrite !nil_gT, nil_temp. req; ring. Qed.
  Lemma solves_aux x : solves p [Pp; PT] x <-> solves pa [Pp; PT] x.
  Proof. unfold solves. split; intros (SO & res & E & H); (split; [exact SO|]; exists res; split; [|exact H]); [rewrite <- RS by exact SO|rewrite RS by exact SO]; exact E. Qed.
  Theorem dn_solves u w : solves p [Pp; PT] [u; w] <->
    sol_ok p [u; w] /\ meets fp u /\ meets fT w /\
    (forall v, shaped (List.length Pp) 1 v -> held_zero fp v -> phase_work P p fp fT uo wo chi u v = 0) /\
    (forall z, shaped (List.length PT) 1 z -> held_zero fT z -> heat_flow P p fp fT uo wo u w z = 0).
  Proof.
    rewrite solves_aux. pose proof (solves_weak pa fp fT F Pp PT CP AW NC AO AI u w) as SW. rewrite SW. clear SW. split.
    - intros (SO & H0 & H1 & H). split; [exact SO|]. split; [exact H0|]. split; [exact H1|]. split.
      + intros v Sv Hv. specialize (H v (nil_field (List.length PT) 1)). rewrite dn_work, flow_nil in H.
        refine (eq_trans (eq_sym (Rplus_0_r _)) _). apply H; auto; [apply dn_fields; split; auto; apply fld_shaped|].
        intros n k b Hn Hk _. rewrite VT in Hk. now apply nil_get.
      + intros z Sz Hz. specialize (H (nil_field (List.length Pp) 1) z). rewrite dn_work, phase_nil in H.
        refine (eq_trans (eq_sym (Rplus_0_l _)) _). apply H; auto; [apply dn_fields; split; auto; apply fld_shaped|].
        intros n k b Hn Hk _. rewrite VP in Hk. now apply nil_get.
    - intros (SO & H0 & H1 & HM & HC). split; [exact SO|]. split; [exact H0|]. split; [exact H1|].
      intros v z SV Hv Hz. apply dn_fields in SV as (Sv & Sz). rewrite dn_work, HM, HC by auto. req; ring.
  Qed.

  (** ** Uniqueness *)
  Hypothesis PH : dn_physical P.
  Hypothesis SM : same_measure p fp fT.
  Lemma JP c q : (c < p_num_cells p)%nat -> (q < num_quads fp)%nat -> 0 < get_JxW Pp fp c q.
  Proof. intros Hc Hq. apply (SM c q Hc Hq). Qed.
  Lemma measure_same g : over_cells (K := Rops) p fT PT g = over_cells (K := Rops) p fp Pp g.
  Proof. unfold over_cells. rewrite QE. apply Rsum_ext. intros c Hc. apply Rsum_ext. intros q Hq. now rewrite (proj1 (SM c q Hc Hq)). Qed.
  Lemma JT c q : (c < p_num_cells p)%nat -> (q < num_quads fT)%nat -> 0 < get_JxW PT fT c q.
  Proof. intros Hc Hq. rewrite QE in Hq. rewrite (proj1 (SM c q Hc Hq)). now apply JP. Qed.
  Lemma tangent_work du dw v z : coupled_work (K := Rops) pa fp fT Pp PT TF du dw v z =
    over_cells (K := Rops) p fp Pp (fun c q =>
      let fl := interface_flux (eps_fn P (angle fp uo c q)) (eps_grad P (angle fp uo c q)) (grad_p fp du c q 0) (grad_p fp du c q 1) in
      fst fl * grad_p fp v c q 0 + snd fl * grad_p fp v c q 1 + tau P * phase fp du c q / dt P * phase fp v c q)
    + over_cells (K := Rops) p fT PT (fun c q => grad_T fT dw c q 0 * grad_T fT z c q 0 + grad_T fT dw c q 1 * grad_T fT z c q 1 + (temp fT dw c q - K_lat P * phase fp du c q) / dt P * temp fT z c q).
  Proof.
    unfold coupled_work. rewrite VT, VP, DP, DT2. cbn [add Rops]. unfold over_cells. f_equal; apply Rsum_ext; intros c Hc; apply Rsum_ext; intros q _; f_equal.
    - unfold dn_tangent, state_at. cbn [flux0 source0]. unfold i_th, i_G. cbn [grad0 val0 ivs]. rewrite AV by auto. cbn [nth]. rewrite dot_one, dot2_12, safe_same.
      unfold interface_flux, aniso_flux, angle, phase, grad_p. cbv zeta. cbn [fst snd add Rops]. unfold Rdiv. req; ring.
    - unfold dn_tangent, state_at. cbn [flux1 source1 grad1 val0 val1]. rewrite dot_one, dot2_12. unfold grad_T, phase, temp. cbn [add Rops]. unfold Rdiv. req; ring.
  Qed.
  Lemma un_phase du dw : sol_ok p [du; dw] -> unnoticed pa fp fT TF Pp PT du dw ->
    forall c q, (c < p_num_cells p)%nat -> (q < num_quads fp)%nat -> phase fp du c q = 0 /\ grad_p fp du c q 0 = 0 /\ grad_p fp du c q 1 = 0.
  Proof.
    intros SD (H0 & H1 & HW). destruct (proj1 (dn_fields du dw) SD) as [Sd Sw]. pose proof PH as (D0 & T0 & E0).
    pose proof (HW du (nil_field (List.length PT) 1)) as A. rewrite tangent_work in A.
    specialize (A (proj2 (dn_fields _ _) (conj Sd (fld_shaped _ _ _))) H0). specialize (A ltac:(intros n k b Hn Hk _; rewrite VT in Hk; now apply nil_get)).
    set (g := fun c q => (eps_fn P (angle fp uo c q)) ^ 2 * (grad_p fp du c q 0 ^ 2 + grad_p fp du c q 1 ^ 2) + tau P / dt P * (phase fp du c q) ^ 2).
    assert (Z : over_cells (K := Rops) p fp Pp g = 0).
    { refine (eq_trans _ A). match goal with |- _ = ?x + ?y => assert (Y : y = 0) end.
      { apply over_zero. intros c q Hc Hq. rewrite !nil_gT, nil_temp. req; ring. }
      rewrite Y, Rplus_0_r. apply over_ext. intros c q Hc Hq. unfold g, interface_flux. cbv zeta. cbn [fst snd]. unfold Rdiv. req; ring. }
    assert (TP : 0 < tau P / dt P) by (now apply Rdiv_lt_0_compat).
    assert (EP : forall c q, 0 < eps_fn P (angle fp uo c q) ^ 2) by (intros c q; pose proof (eps_nonzero P (angle fp uo c q) PH) as NZ; pose proof (Rsqr_pos_lt _ NZ) as SQ; unfold Rsqr in SQ; lra).
    assert (G1 : forall c q, 0 <= eps_fn P (angle fp uo c q) ^ 2 * (grad_p fp du c q 0 ^ 2 + grad_p fp du c q 1 ^ 2)).
    { intros c q. apply Rmult_le_pos; [apply Rlt_le, EP|]. pose proof (pow2_ge_0 (grad_p fp du c q 0)). pose proof (pow2_ge_0 (grad_p fp du c q 1)). lra. }
    assert (G2 : forall c q, 0 <= tau P / dt P * (phase fp du c q) ^ 2) by (intros c q; apply Rmult_le_pos; [lra|apply pow2_ge_0]).
    intros c q Hc Hq. assert (E : g c q = 0).
    { apply (over_zero_all p fp Pp JP g); auto. intros c' q' _ _. unfold g. specialize (G1 c' q'). specialize (G2 c' q'). lra. }
    unfold g in E. pose proof (G1 c q) as A1. pose proof (G2 c q) as A2. pose proof (EP c q) as A3.
    assert (Z1 : eps_fn P (angle fp uo c q) ^ 2 * (grad_p fp du c q 0 ^ 2 + grad_p fp du c q 1 ^ 2) = 0) by lra. assert (Z2 : tau P / dt P * (phase fp du c q) ^ 2 = 0) by lra.
    apply Rmult_integral in Z1 as [Z1|Z1]; [lra|]. apply Rmult_integral in Z2 as [Z2|Z2]; [lra|].
    pose proof (pow2_ge_0 (grad_p fp du c q 0)). pose proof (pow2_ge_0 (grad_p fp du c q 1)).
    split; [|split]; apply Rsqr_0_uniq; unfold Rsqr; lra.
  Qed.
  Lemma un_temp du dw : sol_ok p [du; dw] -> unnoticed pa fp fT TF Pp PT du dw ->
    forall c q, (c < p_num_cells p)%nat -> (q < num_quads fT)%nat -> temp fT dw c q = 0 /\ grad_T fT dw c q 0 = 0 /\ grad_T fT dw c q 1 = 0.
  Proof.
    intros SD UN. pose proof (un_phase du dw SD UN) as PZ. destruct UN as (H0 & H1 & HW). destruct (proj1 (dn_fields du dw) SD) as [Sd Sw]. pose proof PH as (D0 & T0 & E0).
    pose proof (HW (nil_field (List.length Pp) 1) dw) as A. rewrite tangent_work in A.
    specialize (A (proj2 (dn_fields _ _) (conj (fld_shaped _ _ _) Sw))). specialize (A ltac:(intros n k b Hn Hk _; rewrite VP in Hk; now apply nil_get) H1).
    set (g := fun c q => grad_T fT dw c q 0 ^ 2 + grad_T fT dw c q 1 ^ 2 + / dt P * (temp fT dw c q) ^ 2).
    assert (Z : over_cells (K := Rops) p fT PT g = 0).
    { refine (eq_trans _ A). match goal with |- _ = ?x + ?y => assert (Y : x = 0) end.
      { apply over_zero. intros c q Hc Hq. cbv zeta. rewrite !nil_gp, nil_phase. req; ring. }
      rewrite Y, Rplus_0_l. apply over_ext. intros c q Hc Hq. rewrite QE in Hq. destruct (PZ c q Hc Hq) as (-> & _). unfold g, Rdiv. req; ring. }
    assert (TP : 0 < / dt P) by (now apply Rinv_0_lt_compat).
    assert (G2 : forall c q, 0 <= / dt P * (temp fT dw c q) ^ 2) by (intros c q; apply Rmult_le_pos; [lra|apply pow2_ge_0]).
    intros c q Hc Hq. assert (E : g c q = 0).
    { apply (over_zero_all p fT PT JT g); auto. intros c' q' _ _. unfold g. specialize (G2 c' q'). pose proof (pow2_ge_0 (grad_T fT dw c' q' 0)). pose proof (pow2_ge_0 (grad_T fT dw c' q' 1)). lra. }
    unfold g in E. pose proof (G2 c q) as A2. pose proof (pow2_ge_0 (grad_T fT dw c q 0)). pose proof (pow2_ge_0 (grad_T fT dw c q 1)).
    assert (Z2 : / dt P * (temp fT dw c q) ^ 2 = 0) by lra. apply Rmult_integral in Z2 as [Z2|Z2]; [lra|].
    split; [|split]; apply Rsqr_0_uniq; unfold Rsqr; lra.
  Qed.
  Theorem dn_one : bcs_ok p -> temperature_seen p fp -> temperature_seen p fT -> no_free_change p [Pp; PT] /\ affine_residual p [Pp; PT] /\ one_solution p [Pp; PT].
  Proof.
    intros BC SP ST. pose proof (a_affine P fp fT VP VT DP DT2) as FA.
    assert (U : forall du dw, sol_ok pa [du; dw] -> unnoticed pa fp fT TF Pp PT du dw ->
       (forall n k, (n < List.length Pp)%nat -> (k < vec fp)%nat -> get2 zr du n k = 0) /\ (forall n k, (n < List.length PT)%nat -> (k < vec fT)%nat -> get2 zr dw n k = 0)).
    { intros du dw SD UN. destruct (proj1 (dn_fields du dw) SD) as [Sd Sw]. pose proof (un_phase du dw SD UN) as Z0. pose proof (un_temp du dw SD UN) as Z1. destruct UN as (H0 & H1 & _). split; intros n k Hn Hk.
      - rewrite VP in Hk. assert (k = 0)%nat as -> by lia. revert n Hn. apply SP; auto. intros c q Hc Hq. destruct (Z0 c q Hc Hq) as (A & B & C). split; [exact A|]. intros j Hj. rewrite DP in Hj. destruct j as [|[|j]]; [exact B|exact C|lia].
      - rewrite VT in Hk. assert (k = 0)%nat as -> by lia. revert n Hn. apply ST; auto. intros c q Hc Hq. destruct (Z1 c q Hc Hq) as (A & B & C). split; [exact A|]. intros j Hj. rewrite DT2 in Hj. destruct j as [|[|j]]; [exact B|exact C|lia]. }
    assert (LO : forall x d t, sol_ok p x -> sol_ok p d -> sol_ok p (line3 (K := Rops) x d t)).
    { intros x d t SX SD. destruct (cp_sol pa fp fT F CP NC x SX) as (u & w & -> & _). destruct (cp_sol pa fp fT F CP NC d SD) as (du & dw & -> & _). exact (cp_line_ok pa u w du dw t SX SD). }
    split; [|split].
    - intros x d rx ry SX SD EX EY. rewrite RS in EX by exact SX. rewrite RS in EY by (apply LO; auto). exact (coupled_no_free pa fp fT F TF Pp PT CP AW NC AO AI FA U x d rx ry SX SD EX EY).
    - intros x d t r0 r1 r SX SD EX EY ET. rewrite RS in EX by exact SX. rewrite RS in EY by (apply LO; auto). rewrite RS in ET by (apply LO; auto).
      exact (coupled_affine pa fp fT F TF Pp PT CP AW NC AO AI FA x d t r0 r1 r SX SD EX EY ET).
    - destruct (coupled_one_solution pa fp fT F TF Pp PT CP AW NC AO AI FA BC U) as (x & SX & UX). exists x. split; [now apply solves_aux|]. intros y SY. apply UX. now apply solves_aux.
  Qed.

  (** ** Heat balance *)
  Lemma const_shaped N x : shaped N 1 (constant N x).
  Proof. split; [apply repeat_length|]. intros r Hr. apply repeat_spec in Hr as ->. reflexivity. Qed.
  Lemma const_cell0 x c i : (c < p_num_cells p)%nat -> (i < num_nodes fp)%nat -> cell_sol_at fp (constant (List.length Pp) x) c i 0 = x.
  Proof.
    intros Hc Hi. pose proof (cp_node0_ok pa fp fT F CP AW NC c i Hc Hi) as NO. unfold cell_sol_at, constant. rewrite gather_in by (rewrite repeat_length; exact NO). now rewrite (nth_repeat_lt _ _ _ _ NO).
  Qed.
  Lemma const_cell1 x c i : (c < p_num_cells p)%nat -> (i < num_nodes fT)%nat -> cell_sol_at fT (constant (List.length PT) x) c i 0 = x.
  Proof.
    intros Hc Hi. pose proof (cp_node1_ok pa fp fT F CP AW NC c i Hc Hi) as NO. unfold cell_sol_at, constant. rewrite gather_in by (rewrite repeat_length; exact NO). now rewrite (nth_repeat_lt _ _ _ _ NO).
  Qed.
  Section Const0.
    Hypothesis CE : constants_exact p fp.
    Lemma const_phase x c q : (c < p_num_cells p)%nat -> (q < num_quads fp)%nat -> phase fp (constant (List.length Pp) x) c q = x.
    Proof.
      intros Hc Hq. unfold phase, convert_from_dof_to_quad. refine (eq_trans _ (Rmult_1_r x)). rewrite <- (proj1 (CE c q Hc Hq)), <- Rsum_mul. apply Rsum_ext. intros i Hi. now rewrite const_cell0.
    Qed.
    Lemma const_gp x c q j : (c < p_num_cells p)%nat -> (q < num_quads fp)%nat -> (j < 2)%nat -> grad_p fp (constant (List.length Pp) x) c q j = 0.
    Proof.
      intros Hc Hq Hj. unfold grad_p, sol_to_grad. rewrite <- DP in Hj. refine (eq_trans _ (Rmult_0_r x)). rewrite <- (proj2 (CE c q Hc Hq) j Hj), <- Rsum_mul. apply Rsum_ext. intros i Hi. now rewrite const_cell0.
    Qed.
  End Const0.
  Section Const1.
    Hypothesis CE : constants_exact p fT.
    Lemma const_temp x c q : (c < p_num_cells p)%nat -> (q < num_quads fT)%nat -> temp fT (constant (List.length PT) x) c q = x.
    Proof.
      intros Hc Hq. unfold temp, convert_from_dof_to_quad. refine (eq_trans _ (Rmult_1_r x)). rewrite <- (proj1 (CE c q Hc Hq)), <- Rsum_mul. apply Rsum_ext. intros i Hi. now rewrite const_cell1.
    Qed.
    Lemma const_gT x c q j : (c < p_num_cells p)%nat -> (q < num_quads fT)%nat -> (j < 2)%nat -> grad_T fT (constant (List.length PT) x) c q j = 0.
    Proof.
      intros Hc Hq Hj. unfold grad_T, sol_to_grad. rewrite <- DT2 in Hj. refine (eq_trans _ (Rmult_0_r x)). rewrite <- (proj2 (CE c q Hc Hq) j Hj), <- Rsum_mul. apply Rsum_ext. intros i Hi. now rewrite const_cell1.
    Qed.
    Lemma flow_ones u w : heat_flow P p fp fT uo wo u w (constant (List.length PT) 1) = (enthalpy P p fp fT u w - enthalpy P p fp fT uo wo) / dt P.
    Proof.
      unfold heat_flow, enthalpy. rewrite measure_same, over_diff. match goal with |- _ = ?x / _ => transitivity (/ dt P * x); [|unfold Rdiv; req; ring] end. rewrite over_mul. apply over_ext. intros c q Hc Hq.
      rewrite <- QE in Hq. rewrite const_temp, !const_gT by (auto; lia). unfold Rdiv. req; ring.
    Qed.
    Theorem dn_balance u w : solves p [Pp; PT] [u; w] -> (forall n, (n < List.length PT)%nat -> prescribed fT n 0 = None) -> enthalpy P p fp fT u w = enthalpy P p fp fT uo wo.
    Proof.
      intros SO FR. apply dn_solves in SO as (_ & _ & _ & _ & HC). specialize (HC _ (const_shaped (List.length PT) 1)). rewrite flow_ones in HC.
      assert (Z : (enthalpy P p fp fT u w - enthalpy P p fp fT uo wo) / dt P = 0).
      { apply HC. intros n k b Hn Hk PB. rewrite VT in Hk. assert (k = 0)%nat as -> by lia. rewrite FR in PB by exact Hn. discriminate. }
      pose proof PH as (D0 & _). unfold Rdiv in Z. apply Rmult_integral in Z as [Z|Z]; [lra|]. pose proof (Rinv_0_lt_compat _ D0). lra.
    Qed.
  End Const1.
  (** solid or liquid everywhere at one temperature *)
  Theorem dn_steady x y : constants_exact p fp -> constants_exact p fT -> x = 0 \/ x = 1 -> uo = constant (List.length Pp) x -> wo = constant (List.length PT) y -> meets fp uo -> meets fT wo -> solves p [Pp; PT] [uo; wo].
  Proof.
    intros C0 C1 X EU EW M0 M1. apply dn_solves. split; [apply dn_fields; rewrite EU, EW; split; apply const_shaped|]. split; [exact M0|]. split; [exact M1|]. split.
    - intros v _ _. unfold phase_work. apply over_zero. intros c q Hc Hq. unfold interface_flux. cbv zeta. cbn [fst snd].
      assert (G : forall j, (j < 2)%nat -> grad_p fp uo c q j = 0) by (intros j Hj; rewrite EU; now apply const_gp).
      rewrite !G by lia. assert (PV : phase fp uo c q = x) by (rewrite EU; now apply const_phase). rewrite PV. unfold Rdiv. destruct X as [->| ->]; req; ring.
    - intros z _ _. unfold heat_flow. apply over_zero. intros c q Hc Hq.
      assert (G : forall j, (j < 2)%nat -> grad_T fT wo c q j = 0) by (intros j Hj; rewrite EW; now apply const_gT).
      rewrite !G by lia. unfold Rdiv. req; ring.
  Qed.
End Step.
