(** Proofs for C83: uniqueness, energy and heat balance of a time step, runs. *)
From Coq Require Import String Reals List Arith Lia Lra Bool.
From Verif Require Import Num Arr ArrFacts Fe Problem SpecAssembly ProblemFacts AssemblyFacts FeFacts SpecFe SpecWeak KernelFacts SpecBc BcMain SpecEnergy Elastic ElasticFacts LinAlg SpecLinear SpecPosed
  PosedFacts Wave Stokes SpecStokes SpecCoupled CoupledFacts CoupledLinear StokesMain ThermoMech SpecThermoMech ThermoMechFacts.
Import ListNotations.
Local Open Scope R_scope.
Local Notation V := (nat -> nat -> Rops).

Section Over.
  Context {W : Type}.
  Variables (p : problem Rops W) (f : fe Rops) (P : list (list Rops)).
  Lemma over_ext g h : (forall c q, (c < p_num_cells p)%nat -> (q < num_quads f)%nat -> g c q = h c q) -> over_cells (K := Rops) p f P g = over_cells (K := Rops) p f P h.
  Proof. intros H. unfold over_cells. apply Rsum_ext. intros c Hc. apply Rsum_ext. intros q Hq. now rewrite H. Qed.
  Lemma over_add g h : over_cells (K := Rops) p f P g + over_cells (K := Rops) p f P h = over_cells (K := Rops) p f P (fun c q => g c q + h c q).
  Proof. unfold over_cells. rewrite <- Rsum_plus. apply Rsum_ext. intros c Hc. rewrite <- Rsum_plus. apply Rsum_ext. intros q Hq. cbn; req; ring. Qed.
  Lemma over_mul t g : t * over_cells (K := Rops) p f P g = over_cells (K := Rops) p f P (fun c q => t * g c q).
  Proof. unfold over_cells. rewrite <- Rsum_mul. apply Rsum_ext. intros c Hc. rewrite <- Rsum_mul. apply Rsum_ext. intros q Hq. cbn; req; ring. Qed.
  Hypothesis JP : forall c q, (c < p_num_cells p)%nat -> (q < num_quads f)%nat -> 0 < get_JxW P f c q.
  Lemma over_nonneg g : (forall c q, (c < p_num_cells p)%nat -> (q < num_quads f)%nat -> 0 <= g c q) -> 0 <= over_cells (K := Rops) p f P g.
  Proof.
    intros H. unfold over_cells. apply Rsum_nonneg. intros c Hc. apply Rsum_nonneg. intros q Hq. apply Rmult_le_pos; auto. apply Rlt_le. auto.
  Qed.
  Lemma over_le g h : (forall c q, (c < p_num_cells p)%nat -> (q < num_quads f)%nat -> g c q <= h c q) -> over_cells (K := Rops) p f P g <= over_cells (K := Rops) p f P h.
  Proof.
    intros H. assert (A : 0 <= over_cells (K := Rops) p f P h - over_cells (K := Rops) p f P g); [|lra].
    rewrite over_diff. apply over_nonneg. intros c q Hc Hq. specialize (H c q Hc Hq). lra.
  Qed.
  Lemma over_zero_all g : (forall c q, (c < p_num_cells p)%nat -> (q < num_quads f)%nat -> 0 <= g c q) -> over_cells (K := Rops) p f P g = 0 ->
    forall c q, (c < p_num_cells p)%nat -> (q < num_quads f)%nat -> g c q = 0.
  Proof.
    intros H Z c q Hc Hq. unfold over_cells in Z.
    pose proof (Rsum_zero_all _ _ (fun i Hi => Rsum_nonneg _ _ (fun m Hm => Rmult_le_pos _ _ (H i m Hi Hm) (Rlt_le _ _ (JP i m Hi Hm)))) Z c Hc) as C1. cbv beta in C1.
    pose proof (Rsum_zero_all _ _ (fun m Hm => Rmult_le_pos _ _ (H c m Hc Hm) (Rlt_le _ _ (JP c m Hc Hm))) C1 q Hq) as C2. cbv beta in C2. cbn [mul Rops] in C2.
    apply Rmult_integral in C2 as [C2|C2]; [exact C2|]. pose proof (JP c q Hc Hq). lra.
  Qed.
End Over.

Lemma dot2_nonneg m d (A : nat -> nat -> Rops) : 0 <= dot2 (K := Rops) m d A A.
Proof. unfold dot2. apply Rsum_nonneg. intros i Hi. apply Rsum_nonneg. intros j Hj. apply Rle_0_sqr. Qed.
Lemma dot2_zero m d (A : nat -> nat -> Rops) : dot2 (K := Rops) m d A A = 0 -> forall k j, (k < m)%nat -> (j < d)%nat -> A k j = 0.
Proof.
  intros Z k j Hk Hj. unfold dot2 in Z. pose proof (Rsum_zero_all _ _ (fun i Hi => Rsum_nonneg _ _ (fun m Hm => Rle_0_sqr _)) Z k Hk) as C3. cbv beta in C3.
  pose proof (Rsum_zero_all _ _ (fun m Hm => Rle_0_sqr _) C3 j Hj) as C4. now apply Rsqr_0_uniq.
Qed.
Lemma ebil_zero lam mu d G : 0 <= lam -> 0 < mu -> ebil lam mu d G G = 0 -> forall i j, (i < d)%nat -> (j < d)%nat -> strain G i j = 0.
Proof.
  intros HL HM Z. apply (dot2_zero d d). pose proof (dot2_nonneg d d (strain G)) as N. unfold ebil in Z. fold (dot2 (K := Rops) d d (strain G) (strain G)) in Z.
  pose proof (Rmult_le_pos _ _ HL (Rle_0_sqr (trace d (strain G)))) as N2. unfold Rsqr in N2. unfold dot2 in *. cbn [mul Rops] in *. nra.
Qed.

Section Step.
  Variables (M : material) (p : problem Rops V) (fu fT : fe Rops) (uo wo : list (list Rops)) (dt : R).
  Hypothesis TP : tm_problem M p fu fT.
  Hypothesis PA : tm_params p fu fT uo wo dt.
  Hypothesis WF : wf_problem p.
  Hypothesis NC : (0 < p_num_cells p)%nat.
  Hypothesis PH : physical M.
  Hypothesis DT : 0 < dt.
  Hypothesis SM : same_measure p fu fT.
  Local Notation Pu := (points fu).
  Local Notation PT := (points fT).
  Local Notation zr := (@zero Rops).
  Local Notation F := (tm_form M (dim fu)).
  Local Notation TF := (tm_tangent M (dim fu)).
  Let CP := tm_is_coupled M p fu fT uo wo dt TP PA WF.
  Let QE : num_quads fT = num_quads fu := t_q M p fu fT TP.
  Lemma JPu c q : (c < p_num_cells p)%nat -> (q < num_quads fu)%nat -> 0 < get_JxW Pu fu c q.
  Proof. intros Hc Hq. apply (SM c q Hc Hq). Qed.
  Lemma measure_eq g : over_cells (K := Rops) p fT PT g = over_cells (K := Rops) p fu Pu g.
  Proof.
    unfold over_cells. rewrite QE. apply Rsum_ext. intros c Hc. apply Rsum_ext. intros q Hq. now rewrite (proj1 (SM c q Hc Hq)).
  Qed.
  (** the old fields replaced by zero *)
  Let nu := nil_field (List.length Pu) (vec fu).
  Let nT := nil_field (List.length PT) 1.
  Lemma nil_temperature c q : temperature fT nT c q = 0.
  Proof. unfold temperature. apply zero_val. intros. apply nil_cell. Qed.
  Lemma nil_dilation c q : dilation fu nu c q = 0.
  Proof.
    unfold dilation, trace. transitivity (sum_n (K := Rops) (dim fu) (fun _ => 0 * 0)); [|rewrite Rsum_mul; req; ring]. apply Rsum_ext. intros i Hi. rewrite zero_grad by (intros; apply nil_cell). req; ring.
  Qed.
  Lemma tangent_rate (G : nat -> nat -> Rops) : sum_n (K := Rops) (dim fu) (fun i => strain G i i / dt) = trace (dim fu) G / dt.
  Proof.
    transitivity (/ dt * sum_n (K := Rops) (dim fu) (fun m => G m m)); [|unfold trace, Rdiv; req; ring].
    rewrite <- !Rsum_mul. apply Rsum_ext. intros i Hi. unfold strain, Rdiv. pose proof (Rhalves (G i i)) as A. cbn [car Rops] in *. rewrite <- A. req; ring.
  Qed.
  Lemma tangent_work u w v z : coupled_work (K := Rops) p fu fT Pu PT TF u w v z = mech_work M p fu fT u w v + heat_work M p fu fT nu nT dt u w z.
  Proof.
    unfold coupled_work, mech_work, heat_work. rewrite (t_vT M p fu fT TP), (t_vu M p fu fT TP). cbn [add Rops]. f_equal; apply over_ext; intros c q Hc Hq.
    - exact (mech_density M p fu fT u w v c q).
    - unfold tm_tangent, state_at. cbn [flux1 source1 grad0 grad1 val1]. rewrite dot_one. unfold s_dt. cbn [ivs]. rewrite (t_iv_at M p fu fT uo wo dt TP PA WF) by auto. cbn [nth].
      rewrite tangent_rate, dot2_scale, nil_temperature, nil_dilation. unfold temperature, dilation. cbn [add Rops]. unfold Rdiv. req; ring.
  Qed.
  Lemma un_zero du dw : sol_ok p [du; dw] -> unnoticed p fu fT TF Pu PT du dw ->
    forall c q, (c < p_num_cells p)%nat -> (q < num_quads fu)%nat ->
      (forall i j, (i < dim fu)%nat -> (j < dim fu)%nat -> strain (sol_to_grad Pu fu du c q) i j = 0) /\
      temperature fT dw c q = 0 /\ forall j, (j < dim fT)%nat -> sol_to_grad PT fT dw c q 0%nat j = 0.
  Proof.
    intros SD (H0 & H1 & HW). destruct PH as (L0 & M0 & T00 & C0 & K0).
    pose proof (tm_fields M p fu fT uo wo dt TP PA WF NC) as TFI. destruct (proj1 (TFI du dw) SD) as [Sd Sw].
    assert (A : mech_work M p fu fT du dw du = 0).
    { pose proof (HW du nT) as E. rewrite tangent_work in E. assert (HN0 : heat_work M p fu fT nu nT dt du dw nT = 0) by apply heat_nil. rewrite HN0 in E. rewrite Rplus_0_r in E. apply E; auto; [apply TFI; split; auto; apply fld_shaped|].
      intros n k b Hn Hk _. rewrite (t_vT M p fu fT TP) in Hk. now apply nil_get. }
    assert (B : heat_work M p fu fT nu nT dt du dw dw = 0).
    { pose proof (HW nu dw) as E. rewrite tangent_work in E. assert (HN0 : mech_work M p fu fT du dw nu = 0) by apply mech_nil. rewrite HN0 in E. rewrite Rplus_0_l in E. apply E; auto; [apply TFI; split; auto; apply fld_shaped|].
      intros n k b Hn Hk _. now apply nil_get. }
    unfold heat_work in B. rewrite measure_eq in B. unfold mech_work in A.
    set (g := fun c q => T0 M / dt * ebil (lmbda M) (mu M) (dim fu) (sol_to_grad Pu fu du c q) (sol_to_grad Pu fu du c q) + C M / dt * (temperature fT dw c q * temperature fT dw c q)
        + k_cond M * dot2 (K := Rops) 1 (dim fT) (sol_to_grad PT fT dw c q) (sol_to_grad PT fT dw c q)).
    assert (Z : over_cells (K := Rops) p fu Pu g = 0).
    { transitivity (T0 M / dt * 0 + 0); [|req; ring]. rewrite <- A at 1. rewrite <- B. rewrite over_mul, over_add. apply over_ext. intros c q Hc Hq. unfold g.
      rewrite stress_dot, nil_temperature, nil_dilation. unfold Rdiv. req; ring. }
    assert (P1 : 0 < T0 M / dt) by (now apply Rdiv_lt_0_compat). assert (P2 : 0 < C M / dt) by (now apply Rdiv_lt_0_compat).
    assert (EN : forall c q, 0 <= ebil (lmbda M) (mu M) (dim fu) (sol_to_grad Pu fu du c q) (sol_to_grad Pu fu du c q)) by (intros; apply ebil_nonneg; lra).
    assert (DN : forall c q, 0 <= dot2 (K := Rops) 1 (dim fT) (sol_to_grad PT fT dw c q) (sol_to_grad PT fT dw c q)) by (intros; apply dot2_nonneg).
    assert (GN : forall c q, 0 <= g c q).
    { intros c q. unfold g. pose proof (Rmult_le_pos _ _ (Rlt_le _ _ P1) (EN c q)). pose proof (Rmult_le_pos _ _ (Rlt_le _ _ P2) (Rle_0_sqr (temperature fT dw c q))). pose proof (Rmult_le_pos _ _ (Rlt_le _ _ K0) (DN c q)). unfold Rsqr in *. lra. }
    intros c q Hc Hq. pose proof (over_zero_all p fu Pu JPu g (fun c q _ _ => GN c q) Z c q Hc Hq) as E. unfold g in E.
    pose proof (Rmult_le_pos _ _ (Rlt_le _ _ P1) (EN c q)) as N1. pose proof (Rmult_le_pos _ _ (Rlt_le _ _ P2) (Rle_0_sqr (temperature fT dw c q))) as N2. pose proof (Rmult_le_pos _ _ (Rlt_le _ _ K0) (DN c q)) as N3. unfold Rsqr in *.
    assert (Z1 : T0 M / dt * ebil (lmbda M) (mu M) (dim fu) (sol_to_grad Pu fu du c q) (sol_to_grad Pu fu du c q) = 0) by lra.
    assert (Z2 : C M / dt * (temperature fT dw c q * temperature fT dw c q) = 0) by lra.
    assert (Z3 : k_cond M * dot2 (K := Rops) 1 (dim fT) (sol_to_grad PT fT dw c q) (sol_to_grad PT fT dw c q) = 0) by lra.
    apply Rmult_integral in Z1 as [Z1|Z1]; [lra|]. apply Rmult_integral in Z2 as [Z2|Z2]; [lra|]. apply Rmult_integral in Z3 as [Z3|Z3]; [lra|].
    split; [exact (ebil_zero _ _ _ _ L0 M0 Z1)|]. split; [now apply Rsqr_0_uniq|]. intros j Hj. apply (dot2_zero 1 (dim fT) _ Z3); auto.
  Qed.
  Theorem tm_one : bcs_ok p -> no_free_strain p fu -> temperature_seen p fT -> no_free_change p [Pu; PT] /\ affine_residual p [Pu; PT] /\ one_solution p [Pu; PT].
  Proof.
    intros BC NF TS. pose proof (tm_ok M p fu fT TP NC) as FO. pose proof (tm_affine M p fu fT TP) as FA. pose proof (tm_ivs M p fu fT uo wo dt TP PA WF) as IV.
    assert (U : forall du dw, sol_ok p [du; dw] -> unnoticed p fu fT TF Pu PT du dw ->
       (forall n k, (n < List.length Pu)%nat -> (k < vec fu)%nat -> get2 zr du n k = 0) /\ (forall n k, (n < List.length PT)%nat -> (k < vec fT)%nat -> get2 zr dw n k = 0)).
    { intros du dw SD UN. destruct (proj1 (tm_fields M p fu fT uo wo dt TP PA WF NC du dw) SD) as [Sd Sw]. pose proof (un_zero du dw SD UN) as Z. destruct UN as (H0 & H1 & _). split.
      - apply NF; auto. intros c q i j Hc Hq. now apply (Z c q Hc Hq).
      - intros n k Hn Hk. rewrite (t_vT M p fu fT TP) in Hk. assert (k = 0)%nat as -> by lia. revert n Hn. apply TS; auto.
        intros c q Hc Hq. rewrite QE in Hq. destruct (Z c q Hc Hq) as (_ & A & B). split; [exact A|exact B]. }
    split; [|split].
    - exact (coupled_no_free p fu fT F TF Pu PT CP WF NC FO IV FA U).
    - exact (coupled_affine p fu fT F TF Pu PT CP WF NC FO IV FA).
    - exact (coupled_one_solution p fu fT F TF Pu PT CP WF NC FO IV FA BC U).
  Qed.

  (** ** Energy *)
  (** the field a + t b *)
  Definition comb N m (a b : list (list Rops)) (t : R) : list (list Rops) := fld N m (fun g => get2 zr a (g / m) (g mod m) + t * get2 zr b (g / m) (g mod m)).
  Lemma comb_get N m a b t n k : (n < N)%nat -> (k < m)%nat -> get2 zr (comb N m a b t) n k = get2 zr a n k + t * get2 zr b n k.
  Proof.
    intros Hn Hk. unfold comb. rewrite fld_get by auto. assert (E1 : ((n * m + k) / m = n)%nat) by (rewrite Nat.div_add_l, Nat.div_small by lia; lia). assert (E2 : ((n * m + k) mod m = k)%nat) by (rewrite Nat.add_comm, Nat.mod_add by lia; now apply Nat.mod_small). now rewrite E1, E2.
  Qed.
  Lemma comb_shaped N m a b t : shaped N m (comb N m a b t). Proof. apply fld_shaped. Qed.

  Lemma field0 a c i k : shaped (List.length Pu) (vec fu) a -> (c < p_num_cells p)%nat -> (i < num_nodes fu)%nat -> cell_sol_at fu a c i k = get2 zr a (cell_node fu c i) k.
  Proof.
    intros Sa Hc Hi. symmetry. apply (cp_field0 p fu fT F CP WF NC a nT c i k); auto. apply (tm_fields M p fu fT uo wo dt TP PA WF NC). split; [exact Sa|apply fld_shaped].
  Qed.
  Lemma field1 a c i k : shaped (List.length PT) 1 a -> (c < p_num_cells p)%nat -> (i < num_nodes fT)%nat -> cell_sol_at fT a c i k = get2 zr a (cell_node fT c i) k.
  Proof.
    intros Sa Hc Hi. symmetry. apply (cp_field1 p fu fT F CP WF NC nu a c i k); auto. apply (tm_fields M p fu fT uo wo dt TP PA WF NC). split; [apply fld_shaped|exact Sa].
  Qed.
  Lemma node0_ok c i : (c < p_num_cells p)%nat -> (i < num_nodes fu)%nat -> (cell_node fu c i < List.length Pu)%nat.
  Proof. exact (cp_node0_ok p fu fT F CP WF NC c i). Qed.
  Lemma node1_ok c i : (c < p_num_cells p)%nat -> (i < num_nodes fT)%nat -> (cell_node fT c i < List.length PT)%nat.
  Proof. exact (cp_node1_ok p fu fT F CP WF NC c i). Qed.
  Lemma comb_grad_u a b t c q k j : shaped (List.length Pu) (vec fu) a -> shaped (List.length Pu) (vec fu) b -> (c < p_num_cells p)%nat -> (k < vec fu)%nat ->
    sol_to_grad Pu fu (comb (List.length Pu) (vec fu) a b t) c q k j = sol_to_grad Pu fu a c q k j + t * sol_to_grad Pu fu b c q k j.
  Proof.
    intros Sa Sb Hc Hk. unfold sol_to_grad. rewrite <- Rsum_mul, <- Rsum_plus. apply Rsum_ext. intros i Hi.
    rewrite !field0 by (auto using comb_shaped). rewrite comb_get by (auto using node0_ok). cbn; req; ring.
  Qed.
  Lemma comb_grad_T a b t c q j : shaped (List.length PT) 1 a -> shaped (List.length PT) 1 b -> (c < p_num_cells p)%nat ->
    sol_to_grad PT fT (comb (List.length PT) 1 a b t) c q 0%nat j = sol_to_grad PT fT a c q 0%nat j + t * sol_to_grad PT fT b c q 0%nat j.
  Proof.
    intros Sa Sb Hc. unfold sol_to_grad. rewrite <- Rsum_mul, <- Rsum_plus. apply Rsum_ext. intros i Hi.
    rewrite !field1 by (auto using comb_shaped). rewrite comb_get by (auto using node1_ok). cbn; req; ring.
  Qed.
  Lemma comb_temperature a b t c q : shaped (List.length PT) 1 a -> shaped (List.length PT) 1 b -> (c < p_num_cells p)%nat ->
    temperature fT (comb (List.length PT) 1 a b t) c q = temperature fT a c q + t * temperature fT b c q.
  Proof.
    intros Sa Sb Hc. unfold temperature, convert_from_dof_to_quad. rewrite <- Rsum_mul, <- Rsum_plus. apply Rsum_ext. intros i Hi.
    rewrite !field1 by (auto using comb_shaped). rewrite comb_get by (auto using node1_ok). cbn; req; ring.
  Qed.
  Definition ones : list (list Rops) := fld (List.length PT) 1 (fun _ => 1).
  Lemma ones_shaped : shaped (List.length PT) 1 ones. Proof. apply fld_shaped. Qed.
  Lemma ones_cell c i : (c < p_num_cells p)%nat -> (i < num_nodes fT)%nat -> cell_sol_at fT ones c i 0 = 1.
  Proof. intros Hc Hi. rewrite field1 by (auto using ones_shaped). unfold ones. apply fld_get; auto using node1_ok. Qed.
  Hypothesis CE : constants_exact p fT.
  Lemma ones_temperature c q : (c < p_num_cells p)%nat -> (q < num_quads fT)%nat -> temperature fT ones c q = 1.
  Proof.
    intros Hc Hq. unfold temperature, convert_from_dof_to_quad. refine (eq_trans _ (proj1 (CE c q Hc Hq))). apply Rsum_ext. intros i Hi. rewrite ones_cell by auto. cbn; req; ring.
  Qed.
  Lemma ones_grad c q j : (c < p_num_cells p)%nat -> (q < num_quads fT)%nat -> (j < dim fT)%nat -> sol_to_grad PT fT ones c q 0%nat j = 0.
  Proof.
    intros Hc Hq Hj. unfold sol_to_grad. refine (eq_trans _ (proj2 (CE c q Hc Hq) j Hj)). apply Rsum_ext. intros i Hi. rewrite ones_cell by auto. cbn; req; ring.
  Qed.
  Lemma heat_ones u w : heat_work M p fu fT uo wo dt u w ones = (heat_content M p fu fT u w - heat_content M p fu fT uo wo) / dt.
  Proof.
    unfold heat_work, heat_content. rewrite measure_eq, over_diff. match goal with |- _ = ?x / _ => transitivity (/ dt * x); [|unfold Rdiv; req; ring] end. rewrite over_mul. apply over_ext. intros c q Hc Hq. rewrite <- QE in Hq. rewrite ones_temperature by auto.
    rewrite dot2_zero_r; [unfold Rdiv; req; ring|]. intros k j Hk Hj. assert (k = 0)%nat as -> by lia. now apply ones_grad.
  Qed.
  (** no temperature held: the heat content stays *)
  Theorem tm_balance u w : solves p [Pu; PT] [u; w] -> (forall n, (n < List.length PT)%nat -> prescribed fT n 0 = None) ->
    heat_content M p fu fT u w = heat_content M p fu fT uo wo.
  Proof.
    intros SO FR. apply (tm_solves M p fu fT uo wo dt TP PA WF NC) in SO as (_ & _ & _ & _ & HH). specialize (HH ones ones_shaped). rewrite heat_ones in HH.
    assert (Z : (heat_content M p fu fT u w - heat_content M p fu fT uo wo) / dt = 0).
    { apply HH. intros n k b Hn Hk PB. rewrite (t_vT M p fu fT TP) in Hk. assert (k = 0)%nat as -> by lia. rewrite FR in PB by auto. discriminate. }
    unfold Rdiv in Z. apply Rmult_integral in Z as [Z|Z]; [lra|]. pose proof (Rinv_0_lt_compat _ DT). lra.
  Qed.
  Lemma ebil_diff_r G H (H' : nat -> nat -> Rops) : (forall k j, (k < dim fu)%nat -> (j < dim fu)%nat -> H' k j = G k j + -1 * H k j) ->
    ebil (lmbda M) (mu M) (dim fu) G H' = ebil (lmbda M) (mu M) (dim fu) G G - ebil (lmbda M) (mu M) (dim fu) G H.
  Proof.
    intros E. rewrite <- !(stress_dot (V := unit) _ _ _ _ _ []). rewrite (dot2_lin_r _ _ G H _ H' (-1) E). req; ring.
  Qed.
  Theorem tm_energy theta u w : shaped (List.length Pu) (vec fu) uo -> shaped (List.length PT) 1 wo -> meets fu uo ->
    (forall n b, (n < List.length PT)%nat -> prescribed fT n 0 = Some b -> b = theta) -> solves p [Pu; PT] [u; w] ->
    free_energy M p fu fT theta u w + step_loss M p fu fT uo wo dt u w = free_energy M p fu fT theta uo wo.
  Proof.
    intros Su Sw MU PT0 SO. destruct PH as (L0 & M0 & T00 & C0 & K0).
    apply (tm_solves M p fu fT uo wo dt TP PA WF NC) in SO as (SOL & MU' & MT' & HM & HH).
    destruct (proj1 (tm_fields M p fu fT uo wo dt TP PA WF NC u w) SOL) as [Su' Sw'].
    set (v := comb (List.length Pu) (vec fu) u uo (-1)). set (z := comb (List.length PT) 1 w ones (- theta)).
    assert (A : mech_work M p fu fT u w v = 0).
    { apply HM; [apply comb_shaped|]. intros n k b Hn Hk PB. unfold v. rewrite comb_get by auto. rewrite (MU n k b Hn Hk PB), (MU' n k b Hn Hk PB). req; ring. }
    assert (B : heat_work M p fu fT uo wo dt u w z = 0).
    { apply HH; [apply comb_shaped|]. intros n k b Hn Hk PB. pose proof Hk as Hk1. rewrite (t_vT M p fu fT TP) in Hk1. assert (k = 0)%nat as -> by lia. unfold z. rewrite comb_get by auto.
      rewrite (MT' n 0%nat b Hn Hk PB), (PT0 n b Hn PB). unfold ones. rewrite fld_get by auto. req; ring. }
    unfold heat_work in B. rewrite measure_eq in B. unfold mech_work in A.
    assert (Z : free_energy M p fu fT theta u w + step_loss M p fu fT uo wo dt u w - free_energy M p fu fT theta uo wo = 0).
    { transitivity (0 + dt / T0 M * 0); [|req; ring]. rewrite <- A at 1. rewrite <- B. unfold free_energy, step_loss. rewrite over_mul, !over_add, over_diff. apply over_ext. intros c q Hc Hq.
      assert (TZ : temperature fT z c q = temperature fT w c q - theta).
      { unfold z. rewrite comb_temperature by (auto using ones_shaped). rewrite ones_temperature by (rewrite ?QE; auto). req; ring. }
      assert (VU : vec fu = dim fu) by apply TP.
      assert (GV : forall k j, (k < dim fu)%nat -> (j < dim fu)%nat -> sol_to_grad Pu fu v c q k j = sol_to_grad Pu fu u c q k j + -1 * sol_to_grad Pu fu uo c q k j).
      { intros k j Hk Hj. apply comb_grad_u; auto. now rewrite VU. }
      assert (DV : dilation fu v c q = dilation fu u c q - dilation fu uo c q).
      { unfold dilation, trace. transitivity (sum_n (K := Rops) (dim fu) (fun m => sol_to_grad Pu fu u c q m m) + -1 * sum_n (K := Rops) (dim fu) (fun m => sol_to_grad Pu fu uo c q m m)); [|req; ring].
        rewrite <- Rsum_mul, <- Rsum_plus. apply Rsum_ext. intros m Hm. now apply GV. }
      assert (GZ : dot2 (K := Rops) 1 (dim fT) (sol_to_grad PT fT w c q) (sol_to_grad PT fT z c q) = dot2 (K := Rops) 1 (dim fT) (sol_to_grad PT fT w c q) (sol_to_grad PT fT w c q)).
      { unfold dot2. apply Rsum_ext. intros k Hk. apply Rsum_ext. intros j Hj. assert (k = 0)%nat as -> by lia. unfold z.
        rewrite comb_grad_T by (auto using ones_shaped). rewrite ones_grad by (rewrite ?QE; auto). cbn; req; ring. }
      rewrite TZ, DV, GZ, !density_ebil, (stress_dot (V := unit)).
      rewrite (ebil_diff_r (sol_to_grad Pu fu u c q) (sol_to_grad Pu fu uo c q) _ GV).
      pose proof (ebil_line (lmbda M) (mu M) (dim fu) (sol_to_grad Pu fu u c q) (sol_to_grad Pu fu uo c q) (-1)) as EL.
      pose proof (ebil_ext (lmbda M) (mu M) (dim fu) (fun k j => sol_to_grad Pu fu u c q k j - sol_to_grad Pu fu uo c q k j) (fun k j => sol_to_grad Pu fu u c q k j + -1 * sol_to_grad Pu fu uo c q k j)
        (fun k j => sol_to_grad Pu fu u c q k j - sol_to_grad Pu fu uo c q k j) (fun k j => sol_to_grad Pu fu u c q k j + -1 * sol_to_grad Pu fu uo c q k j)) as EX.
      rewrite EX by (intros; req; ring). rewrite EL. req. field. lra. }
    lra.
  Qed.
  Lemma loss_nonneg u w : 0 <= step_loss M p fu fT uo wo dt u w.
  Proof.
    destruct PH as (L0 & M0 & T00 & C0 & K0). unfold step_loss. apply over_nonneg; [exact JPu|]. intros c q Hc Hq. rewrite density_ebil.
    assert (0 <= dt * k_cond M / T0 M) by (apply Rlt_le, Rdiv_lt_0_compat; nra). assert (0 <= C M / (2 * T0 M)) by (apply Rlt_le, Rdiv_lt_0_compat; lra).
    pose proof (dot2_nonneg 1 (dim fT) (sol_to_grad PT fT w c q)) as N1. pose proof (pow2_ge_0 (temperature fT w c q - temperature fT wo c q)) as N2.
    pose proof (ebil_nonneg (lmbda M) (mu M) (dim fu) (fun k j => sol_to_grad Pu fu u c q k j - sol_to_grad Pu fu uo c q k j) L0 (Rlt_le _ _ M0)) as N3.
    pose proof (Rmult_le_pos _ _ H N1). pose proof (Rmult_le_pos _ _ H0 N2). lra.
  Qed.
  (** the strain energy controls the dilation *)
  Lemma trace_square n (a : nat -> Rops) : (0 < n)%nat -> sum_n (K := Rops) n a * sum_n (K := Rops) n a <= INR n * sum_n (K := Rops) n (fun i => a i * a i).
  Proof.
    intros Hn. assert (IN : 0 < INR n) by now apply lt_0_INR. set (t := sum_n (K := Rops) n a).
    assert (Q : 0 <= sum_n (K := Rops) n (fun i => (a i - t / INR n) * (a i - t / INR n))) by (apply Rsum_nonneg; intros; apply Rle_0_sqr).
    assert (E : sum_n (K := Rops) n (fun i => (a i - t / INR n) * (a i - t / INR n)) = sum_n (K := Rops) n (fun i => a i * a i) - t * t / INR n).
    { transitivity (sum_n (K := Rops) n (fun i => a i * a i) + (-2 * (t / INR n)) * sum_n (K := Rops) n a + (t / INR n) * (t / INR n) * sum_n (K := Rops) n (fun _ => 1)).
      - rewrite <- !Rsum_mul, <- !Rsum_plus. apply Rsum_ext. intros i Hi. req; ring.
      - assert (C1 : sum_n (K := Rops) n (fun _ => 1) = INR n).
        { clear. induction n as [|n IH]; [reflexivity|]. rewrite (sum_n_S Rops_ring), IH, S_INR. cbn; req; ring. }
        rewrite C1. fold t. req. field. lra. }
    rewrite E in Q. assert (0 <= INR n * (sum_n (K := Rops) n (fun i => a i * a i) - t * t / INR n)) by (apply Rmult_le_pos; lra).
    replace (INR n * (sum_n (K := Rops) n (fun i => a i * a i) - t * t / INR n)) with (INR n * sum_n (K := Rops) n (fun i => a i * a i) - t * t) in H by (req; field; lra). lra.
  Qed.
  Lemma strain_bound d (G : nat -> nat -> Rops) (x : R) : (0 < d)%nat -> 0 <= lmbda M -> 0 < mu M ->
    - (x * x) / (2 * (lmbda M + 2 * mu M / INR d)) <= strain_energy_density (lmbda M) (mu M) d G - x * trace d G.
  Proof.
    intros Hd L0 M0. assert (IN : 0 < INR d) by now apply lt_0_INR. set (K := lmbda M + 2 * mu M / INR d).
    assert (K0 : 0 < K) by (unfold K; pose proof (Rdiv_lt_0_compat (2 * mu M) (INR d)); lra).
    unfold strain_energy_density. rewrite <- (trace_strain d G). set (t := trace d (strain G)).
    set (S := sum_n (K := Rops) d (fun i => sum_n (K := Rops) d (fun j => strain G i j * strain G i j))).
    assert (B : t * t <= INR d * S).
    { eapply Rle_trans; [apply (trace_square d (fun i => strain G i i) Hd)|]. apply Rmult_le_compat_l; [lra|].
      assert (Q : 0 <= sum_n (K := Rops) d (fun i => sum_n (K := Rops) d (fun j => strain G i j * strain G i j) - strain G i i * strain G i i)).
      { apply Rsum_nonneg. intros i Hi. assert (D : sum_n (K := Rops) d (fun j => (if (i =? j)%nat then 1 else 0) * (strain G i j * strain G i j)) = strain G i i * strain G i i) by (apply (Rsum_delta d i (fun j => strain G i j * strain G i j) Hi)).
        rewrite <- D. assert (0 <= sum_n (K := Rops) d (fun j => strain G i j * strain G i j + -1 * ((if (i =? j)%nat then 1 else 0) * (strain G i j * strain G i j)))).
        - apply Rsum_nonneg. intros j Hj. pose proof (Rle_0_sqr (strain G i j)) as Q. unfold Rsqr in Q. destruct (i =? j)%nat; cbn [car Rops] in *; lra.
        - rewrite Rsum_plus, Rsum_mul in H. cbn [car Rops] in *. lra. }
      assert (Q' : sum_n (K := Rops) d (fun i => sum_n (K := Rops) d (fun j => strain G i j * strain G i j) - strain G i i * strain G i i) = S + -1 * sum_n (K := Rops) d (fun i => strain G i i * strain G i i)).
      { unfold S. rewrite <- Rsum_mul, <- Rsum_plus. apply Rsum_ext. intros; req; ring. }
      rewrite Q' in Q. lra. }
    assert (E : - (x * x) / (2 * K) <= / 2 * K * (t * t) - x * t).
    { assert (Q : 0 <= / (2 * K) * ((K * t - x) * (K * t - x))) by (apply Rmult_le_pos; [apply Rlt_le, Rinv_0_lt_compat; lra|apply Rle_0_sqr]).
      replace (/ (2 * K) * ((K * t - x) * (K * t - x))) with (/ 2 * K * (t * t) - x * t - - (x * x) / (2 * K)) in Q by (field; lra). lra. }
    assert (E2 : / 2 * K * (t * t) <= / 2 * lmbda M * (t * t) + mu M * S).
    { unfold K. assert (mu M / INR d * (t * t) <= mu M / INR d * (INR d * S)) by (apply Rmult_le_compat_l; [apply Rlt_le, Rdiv_lt_0_compat; lra|exact B]).
      replace (mu M / INR d * (INR d * S)) with (mu M * S) in H by (field; lra). replace (/ 2 * (lmbda M + 2 * mu M / INR d) * (t * t)) with (/ 2 * lmbda M * (t * t) + mu M / INR d * (t * t)) by (field; lra). lra. }
    cbn [car Rops] in *. lra.
  Qed.
  Lemma energy_below theta u w : (0 < dim fu)%nat ->
    C M / (2 * T0 M) * over_cells (K := Rops) p fu Pu (fun c q => (temperature fT w c q - theta) ^ 2)
    <= free_energy M p fu fT theta u w + (kappa M * theta) ^ 2 / (2 * (lmbda M + 2 * mu M / INR (dim fu))) * volume p fu.
  Proof.
    intros Hd. destruct PH as (L0 & M0 & T00 & C0 & K0). unfold free_energy, volume. rewrite !over_mul, over_add. apply over_le; [exact JPu|]. intros c q Hc Hq.
    pose proof (strain_bound (dim fu) (sol_to_grad Pu fu u c q) (kappa M * theta) Hd L0 M0) as B. unfold dilation.
    assert (IN : 0 < INR (dim fu)) by now apply lt_0_INR. pose proof (Rdiv_lt_0_compat (2 * mu M) (INR (dim fu)) ltac:(lra) IN) as N1.
    replace ((kappa M * theta) ^ 2 / (2 * (lmbda M + 2 * mu M / INR (dim fu))) * 1) with (- (- (kappa M * theta * (kappa M * theta)) / (2 * (lmbda M + 2 * mu M / INR (dim fu))))) by (field; split; [lra|]; nra).
    lra.
  Qed.
End Step.
