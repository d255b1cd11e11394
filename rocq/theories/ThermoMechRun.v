(** Proofs for C83: whole runs, triangles held by rollers. *)
From Coq Require Import String Reals List Arith Lia Lra Bool.
From Verif Require Import Num Arr ArrFacts Fe Problem SpecAssembly ProblemFacts AssemblyFacts Basis SpecBasis BasisFacts FeFacts GeomFacts SpecFe SpecWeak KernelFacts SpecBc BcMain SpecEnergy Elastic ElasticFacts LinAlg SpecLinear SpecPosed
  PosedFacts Wave Stokes SpecStokes SpecCoupled CoupledFacts CoupledLinear StokesMain ThermoMech SpecThermoMech ThermoMechFacts ThermoMechMain.
Import ListNotations.
Local Open Scope R_scope.
Local Notation V := (nat -> nat -> Rops).

Section Params.
  Variables (M : material) (p p' : problem Rops V) (fu fT : fe Rops) (uo wo : list (list Rops)) (dt : R).
  Hypothesis TP : tm_problem M p fu fT.
  Hypothesis SP : tm_set_params p uo wo dt = Ok p'.
  Lemma sp_tp : tm_problem M p' fu fT. Proof. exact (proj1 (set_params_inv M p fu fT uo wo dt p' TP SP)). Qed.
  Lemma sp_pa : tm_params p' fu fT uo wo dt. Proof. exact (proj1 (proj2 (set_params_inv M p fu fT uo wo dt p' TP SP))). Qed.
  Lemma sp_fes : fes p' = fes p. Proof. exact (proj1 (proj2 (proj2 (set_params_inv M p fu fT uo wo dt p' TP SP)))). Qed.
  Lemma sp_bil : boundary_inds_list p' = boundary_inds_list p. Proof. exact (proj2 (proj2 (proj2 (set_params_inv M p fu fT uo wo dt p' TP SP)))). Qed.
  Lemma sp_fe0 : fe0 p' = fe0 p. Proof. unfold fe0. now rewrite sp_fes. Qed.
  Lemma sp_cells : p_num_cells p' = p_num_cells p. Proof. unfold p_num_cells. now rewrite sp_fe0. Qed.
  Lemma sp_wf : wf_problem p -> wf_problem p'.
  Proof.
    intros WF. constructor; rewrite ?sp_fes, ?sp_bil, ?sp_cells; first [exact (wf_cells p WF)|exact (wf_cell_len p WF)|exact (wf_cell_node p WF)|idtac].
    exact (wf_boundary p WF).
  Qed.
  Lemma sp_bcs : bcs_ok p -> bcs_ok p'. Proof. unfold bcs_ok. now rewrite sp_fes. Qed.
  Lemma sp_measure : same_measure p fu fT -> same_measure p' fu fT. Proof. unfold same_measure. now rewrite sp_cells. Qed.
  Lemma sp_strain f : no_free_strain p f -> no_free_strain p' f. Proof. unfold no_free_strain. now rewrite sp_cells. Qed.
  Lemma sp_seen f : temperature_seen p f -> temperature_seen p' f. Proof. unfold temperature_seen. now rewrite sp_cells. Qed.
  Lemma sp_const f : constants_exact p f -> constants_exact p' f. Proof. unfold constants_exact. now rewrite sp_cells. Qed.
  Lemma sp_over f P g : over_cells (K := Rops) p' f P g = over_cells (K := Rops) p f P g. Proof. unfold over_cells. now rewrite sp_cells. Qed.
End Params.
Lemma set_params_ok M p fu fT uo wo dt : tm_problem M p fu fT -> exists p', tm_set_params p uo wo dt = Ok p'.
Proof. intros (F & _). unfold tm_set_params. rewrite F. eauto. Qed.
Lemma loop_inv solve dt dts i p u w l : tm_loop solve (dt :: dts) i p u w = Ok l ->
  exists p' u' w' l', tm_set_params p u w dt = Ok p' /\ solve i p' = Ok [u'; w'] /\ tm_loop solve dts (S i) p' u' w' = Ok l' /\ l = (p', (u', w')) :: l'.
Proof.
  cbn [tm_loop]. unfold bind. destruct (tm_set_params p u w dt) as [p'|] eqn:E1; [|discriminate]. destruct (solve i p') as [s|] eqn:E2; [|discriminate].
  destruct s as [|u' [|w' [|? ?]]]; try discriminate. destruct (tm_loop solve dts (S i) p' u' w') as [l'|] eqn:E3; [|discriminate]. intros E. injection E as <-.
  exists p', u', w', l'. auto.
Qed.
Lemma last_cons {A} (a b : A) l : last (b :: l) a = last l b.
Proof. revert a b. induction l as [|c l IH]; intros a b; [reflexivity|]. transitivity (last (c :: l) a); [reflexivity|]. now rewrite !IH. Qed.
Lemma final_cons u w p' u' w' l : final_state u w ((p', (u', w')) :: l) = final_state u' w' l.
Proof. unfold final_state. cbn [map snd]. apply last_cons. Qed.

Section Run.
  Variables (M : material) (fu fT : fe Rops).
  Hypothesis PH : physical M.
  Local Notation Pu := (points fu).
  Local Notation PT := (points fT).
  Definition run_ok (p : problem Rops V) : Prop := tm_problem M p fu fT /\ wf_problem p /\ (0 < p_num_cells p)%nat /\ same_measure p fu fT.
  Lemma run_ok_next p p' uo wo dt : run_ok p -> tm_set_params p uo wo dt = Ok p' -> run_ok p'.
  Proof.
    intros (TP & WF & NC & SM) SP. split; [exact (sp_tp M p p' fu fT uo wo dt TP SP)|]. split; [exact (sp_wf M p p' fu fT uo wo dt TP SP WF)|].
    rewrite (sp_cells M p p' fu fT uo wo dt TP SP). split; [exact NC|exact (sp_measure M p p' fu fT uo wo dt TP SP SM)].
  Qed.
  Definition state_ok (u w : list (list Rops)) : Prop := shaped (List.length Pu) (vec fu) u /\ shaped (List.length PT) 1 w /\ meets fu u.
  Lemma solved_state p u w uo wo dt : run_ok p -> tm_params p fu fT uo wo dt -> solves p [Pu; PT] [u; w] -> state_ok u w.
  Proof.
    intros (TP & WF & NC & SM) PA SO. apply (tm_solves M p fu fT uo wo dt TP PA WF NC) in SO as (SO & MU & _).
    apply (tm_fields M p fu fT uo wo dt TP PA WF NC) in SO as (A & B). exact (conj A (conj B MU)).
  Qed.
  Lemma loss_p p p' uo wo dt u w : p_num_cells p' = p_num_cells p -> step_loss M p' fu fT uo wo dt u w = step_loss M p fu fT uo wo dt u w.
  Proof. intros E. unfold step_loss, over_cells. now rewrite E. Qed.
  Lemma energy_p p p' theta u w : p_num_cells p' = p_num_cells p -> free_energy M p' fu fT theta u w = free_energy M p fu fT theta u w.
  Proof. intros E. unfold free_energy, over_cells. now rewrite E. Qed.
  Lemma content_p p p' u w : p_num_cells p' = p_num_cells p -> heat_content M p' fu fT u w = heat_content M p fu fT u w.
  Proof. intros E. unfold heat_content, over_cells. now rewrite E. Qed.
  Lemma run_loss_p p p' dts : p_num_cells p' = p_num_cells p -> forall l u w, run_loss M p' fu fT u w dts l = run_loss M p fu fT u w dts l.
  Proof.
    intros E. induction dts as [|dt dts IH]; intros l u w; [now destruct l|]. destruct l as [|[p0 [u' w']] l]; [reflexivity|]. cbn [run_loss]. now rewrite (loss_p p p'), IH.
  Qed.
  (** the energy at the end plus all losses is the energy at the start *)
  Theorem run_energy theta solve dts : (forall dt, In dt dts -> 0 < dt) -> (forall n b, (n < List.length PT)%nat -> prescribed fT n 0 = Some b -> b = theta) ->
    forall i p u w l, run_ok p -> constants_exact p fT -> state_ok u w -> tm_loop solve dts i p u w = Ok l -> all_solved fu fT l ->
    List.length l = List.length dts /\
    free_energy M p fu fT theta (fst (final_state u w l)) (snd (final_state u w l)) + run_loss M p fu fT u w dts l = free_energy M p fu fT theta u w /\
    0 <= run_loss M p fu fT u w dts l.
  Proof.
    intros POS PT0. induction dts as [|dt dts IH]; intros i p u w l RO CE ST E AS.
    - injection E as <-. cbn. split; [reflexivity|]. unfold final_state. cbn. split; [req; ring|apply Rle_refl].
    - apply loop_inv in E as (p' & u' & w' & l' & SP & _ & EL & ->). pose proof (run_ok_next p p' u w dt RO SP) as RO'. destruct RO as (TP & WF & NC & SM).
      pose proof (sp_pa M p p' fu fT u w dt TP SP) as PA. assert (SO : solves p' [Pu; PT] [u'; w']) by (apply AS; now left).
      pose proof (solved_state p' u' w' u w dt RO' PA SO) as ST'. pose proof (sp_const M p p' fu fT u w dt TP SP fT CE) as CE'. pose proof (sp_cells M p p' fu fT u w dt TP SP) as PC.
      destruct (IH (fun d H => POS d (or_intror H)) (S i) p' u' w' l' RO' CE' ST' EL (fun a b c H => AS a b c (or_intror H))) as (LL & EN & NN).
      assert (DT : 0 < dt) by (apply POS; now left). destruct RO' as (TP' & WF' & NC' & SM'). destruct ST as (Su & Sw & MU).
      pose proof (tm_energy M p' fu fT u w dt TP' PA WF' NC' PH DT SM' CE' theta u' w' Su Sw MU PT0 SO) as EE.
      pose proof (loss_nonneg M p' fu fT u w dt PH DT SM' u' w') as LN.
      rewrite !(fun a b => energy_p p p' theta a b PC) in EN. rewrite !(fun a b => energy_p p p' theta a b PC) in EE. rewrite (loss_p p p' _ _ _ _ _ PC) in EE. rewrite (loss_p p p' _ _ _ _ _ PC) in LN. rewrite (run_loss_p p p' dts PC) in EN. rewrite (run_loss_p p p' dts PC) in NN. rewrite final_cons. cbn [run_loss List.length].
      split; [now rewrite LL|]. split; lra.
  Qed.
  (** no temperature held: the heat content stays *)
  Theorem run_balance solve dts : (forall dt, In dt dts -> 0 < dt) -> (forall n, (n < List.length PT)%nat -> prescribed fT n 0 = None) ->
    forall i p u w l, run_ok p -> constants_exact p fT -> tm_loop solve dts i p u w = Ok l -> all_solved fu fT l ->
    forall p0 u0 w0, In (p0, (u0, w0)) l -> heat_content M p fu fT u0 w0 = heat_content M p fu fT u w.
  Proof.
    intros POS FR. induction dts as [|dt dts IH]; intros i p u w l RO CE E AS p0 u0 w0 I.
    - injection E as <-. destruct I.
    - apply loop_inv in E as (p' & u' & w' & l' & SP & _ & EL & ->). pose proof (run_ok_next p p' u w dt RO SP) as RO'. destruct RO as (TP & WF & NC & SM).
      pose proof (sp_pa M p p' fu fT u w dt TP SP) as PA. assert (SO : solves p' [Pu; PT] [u'; w']) by (apply AS; now left).
      pose proof (sp_const M p p' fu fT u w dt TP SP fT CE) as CE'. pose proof (sp_cells M p p' fu fT u w dt TP SP) as PC.
      assert (DT : 0 < dt) by (apply POS; now left). pose proof RO' as (TP' & WF' & NC' & SM').
      pose proof (tm_balance M p' fu fT u w dt TP' PA WF' NC' DT SM' CE' u' w' SO FR) as BB. rewrite !(fun a b => content_p p p' a b PC) in BB.
      destruct I as [I|I].
      + injection I as <- <- <-. exact BB.
      + rewrite <- BB. rewrite <- !(fun a b => content_p p p' a b PC). exact (IH (fun d H => POS d (or_intror H)) (S i) p' u' w' l' RO' CE' EL (fun a b c H => AS a b c (or_intror H)) p0 u0 w0 I).
  Qed.
  (** what a run gives *)
  Lemma run_solved solve dts : forall i p u w l, tm_loop solve dts i p u w = Ok l -> forall p0 u0 w0, In (p0, (u0, w0)) l -> exists j, solve j p0 = Ok [u0; w0].
  Proof.
    induction dts as [|dt dts IH]; intros i p u w l E p0 u0 w0 I; [injection E as <-; destruct I|].
    apply loop_inv in E as (p' & u' & w' & l' & SP & SV & EL & ->). destruct I as [I|I]; [injection I as <- <- <-; eauto|eapply IH; eauto].
  Qed.
  (** there is a run, and only one *)
  Theorem run_exists dts : (forall dt, In dt dts -> 0 < dt) -> forall i p u w, run_ok p -> bcs_ok p -> no_free_strain p fu -> temperature_seen p fT ->
    exists res l, (forall j, (j < i)%nat -> res j = []) /\ tm_loop (fun j _ => Ok (res j)) dts i p u w = Ok l /\ all_solved fu fT l.
  Proof.
    intros POS. induction dts as [|dt dts IH]; intros i p u w RO BC NF TS.
    - exists (fun _ => []), []. split; auto. split; [reflexivity|]. intros a b c [].
    - destruct (set_params_ok M p fu fT u w dt (proj1 RO)) as (p' & SP). pose proof (run_ok_next p p' u w dt RO SP) as RO'. pose proof RO' as (TP' & WF' & NC' & SM').
      pose proof (sp_pa M p p' fu fT u w dt (proj1 RO) SP) as PA. pose proof (sp_bcs M p p' fu fT u w dt (proj1 RO) SP BC) as BC'. pose proof (sp_strain M p p' fu fT u w dt (proj1 RO) SP fu NF) as NF'. pose proof (sp_seen M p p' fu fT u w dt (proj1 RO) SP fT TS) as TS'.
      destruct (tm_one M p' fu fT u w dt TP' PA WF' NC' PH (POS dt (or_introl eq_refl)) SM' BC' NF' TS') as (_ & _ & x & SX & _).
      pose proof (cp_sol p' fu fT _ (tm_is_coupled M p' fu fT u w dt TP' PA WF') NC' x (proj1 SX)) as (u' & w' & -> & _).
      destruct (IH (fun d H => POS d (or_intror H)) (S i) p' u' w' RO' BC' NF' TS') as (res & l & R0 & EL & AS).
      exists (fun j => if (j =? i)%nat then [u'; w'] else res j), ((p', (u', w')) :: l). split; [|split].
      + intros j Hj. replace (j =? i)%nat with false by (symmetry; apply Nat.eqb_neq; lia). apply R0. lia.
      + cbn [tm_loop]. rewrite SP. cbn [bind]. rewrite Nat.eqb_refl.
        assert (EQ : forall dts k q a b, (i < k)%nat -> tm_loop (fun j _ => Ok (if (j =? i)%nat then [u'; w'] else res j)) dts k q a b = tm_loop (fun j _ => Ok (res j)) dts k q a b).
        { clear. induction dts as [|d ds IHd]; intros k q a b Hk; [reflexivity|]. cbn [tm_loop]. destruct (tm_set_params q a b d); [|reflexivity]. cbn [bind].
          replace (k =? i)%nat with false by (symmetry; apply Nat.eqb_neq; lia). destruct (res k) as [|x [|y [|? ?]]]; auto. rewrite IHd by lia. reflexivity. }
        rewrite EQ by lia. rewrite EL. reflexivity.
      + intros a b c [I|I]; [injection I as <- <- <-; exact SX|now apply AS].
  Qed.
  Theorem run_unique dts : (forall dt, In dt dts -> 0 < dt) -> forall s1 s2 i1 i2 p u w l1 l2, run_ok p -> bcs_ok p -> no_free_strain p fu -> temperature_seen p fT ->
    tm_loop s1 dts i1 p u w = Ok l1 -> tm_loop s2 dts i2 p u w = Ok l2 -> all_solved fu fT l1 -> all_solved fu fT l2 -> l1 = l2.
  Proof.
    intros POS s1 s2. induction dts as [|dt dts IH]; intros i1 i2 p u w l1 l2 RO BC NF TS E1 E2 A1 A2.
    - injection E1 as <-. now injection E2 as <-.
    - apply loop_inv in E1 as (p' & u' & w' & l' & SP & _ & EL & ->). apply loop_inv in E2 as (p2 & u2 & w2 & l2' & SP2 & _ & EL2 & ->). rewrite SP in SP2. injection SP2 as <-.
      pose proof (run_ok_next p p' u w dt RO SP) as RO'. pose proof RO' as (TP' & WF' & NC' & SM').
      pose proof (sp_pa M p p' fu fT u w dt (proj1 RO) SP) as PA. pose proof (sp_bcs M p p' fu fT u w dt (proj1 RO) SP BC) as BC'. pose proof (sp_strain M p p' fu fT u w dt (proj1 RO) SP fu NF) as NF'. pose proof (sp_seen M p p' fu fT u w dt (proj1 RO) SP fT TS) as TS'.
      destruct (tm_one M p' fu fT u w dt TP' PA WF' NC' PH (POS dt (or_introl eq_refl)) SM' BC' NF' TS') as (_ & _ & x & SX & UX).
      pose proof (UX _ (A1 p' u' w' (or_introl eq_refl))) as Q1. pose proof (UX _ (A2 p' u2 w2 (or_introl eq_refl))) as Q2. rewrite <- Q2 in Q1. injection Q1 as -> ->. f_equal.
      exact (IH (fun d H => POS d (or_intror H)) (S i1) (S i2) p' u2 w2 l' l2' RO' BC' NF' TS' EL EL2 (fun a b c H => A1 a b c (or_intror H)) (fun a b c H => A2 a b c (or_intror H))).
  Qed.
End Run.
