(** Proofs for C98: whole runs, elements that meet the hypotheses, the angle and the anisotropy. *)
From Coq Require Import String Reals List Arith Lia Lra Bool ZArith.
From Verif Require Import Num Arr ArrFacts Fe Problem SpecAssembly ProblemFacts AssemblyFacts Basis SpecBasis BasisFacts FeFacts GeomFacts SpecFe SpecWeak KernelFacts SpecBc BcMain SpecEnergy Elastic ElasticFacts LinAlg SpecLinear SpecPosed
  PosedFacts FieldFacts Wave SpecCoupled CoupledFacts CoupledLinear StokesMain ThermoMech SpecThermoMech ThermoMechFacts ThermoMechMain Mesh MeshFe FractureUse Dendrite SpecDendrite DendriteFacts DendriteMain.
Import ListNotations.
Local Open Scope R_scope.
Local Notation V := (nat -> nat -> Rops).

Section Run.
  Variables (P : dn_params) (fp fT : fe Rops) (chi : list R).
  Local Notation Pp := (points fp).
  Local Notation PT := (points fT).
  Definition dn_ok (p : problem Rops V) : Prop := dn_problem P p fp fT /\ wf_problem p /\ (0 < p_num_cells p)%nat /\ List.length chi = p_num_cells p.
  Lemma at_cells p u w : dn_ok p -> p_num_cells (dn_at P fp fT u w chi) = p_num_cells p.
  Proof. intros ((F & _) & _). unfold p_num_cells, fe0. now rewrite F. Qed.
  Lemma at_ok p u w : dn_ok p -> dn_ok (dn_at P fp fT u w chi).
  Proof.
    intros RO. pose proof (at_cells p u w RO) as PC. destruct RO as ((F & MP & B & S & VV) & WF & NC & LN). split; [exact (conj eq_refl (conj eq_refl (conj eq_refl (conj eq_refl VV))))|].
    split; [|rewrite PC; auto]. constructor; rewrite ?PC.
    - intros f. cbn [fes dn_at]. rewrite <- F. exact (wf_cells p WF f).
    - intros f c. cbn [fes dn_at]. rewrite <- F. exact (wf_cell_len p WF f c).
    - intros f c n. cbn [fes dn_at]. rewrite <- F. exact (wf_cell_node p WF f c n).
    - intros b c fc [].
  Qed.
  Lemma at_bcs p u w : dn_ok p -> bcs_ok p -> bcs_ok (dn_at P fp fT u w chi).
  Proof. intros ((F & _) & _). unfold bcs_ok. now rewrite F. Qed.
  Lemma at_measure p u w : dn_ok p -> same_measure p fp fT -> same_measure (dn_at P fp fT u w chi) fp fT. Proof. intros RO. unfold same_measure. now rewrite (at_cells p u w RO). Qed.
  Lemma at_seen p u w f : dn_ok p -> temperature_seen p f -> temperature_seen (dn_at P fp fT u w chi) f. Proof. intros RO. unfold temperature_seen. now rewrite (at_cells p u w RO). Qed.
  Lemma at_const p u w f : dn_ok p -> constants_exact p f -> constants_exact (dn_at P fp fT u w chi) f. Proof. intros RO. unfold constants_exact. now rewrite (at_cells p u w RO). Qed.
  Lemma work_p p u0 w0 : dn_ok p -> (forall uo wo u v, phase_work P (dn_at P fp fT u0 w0 chi) fp fT uo wo chi u v = phase_work P p fp fT uo wo chi u v) /\
    (forall uo wo u w z, heat_flow P (dn_at P fp fT u0 w0 chi) fp fT uo wo u w z = heat_flow P p fp fT uo wo u w z) /\ (forall u w, enthalpy P (dn_at P fp fT u0 w0 chi) fp fT u w = enthalpy P p fp fT u w).
  Proof. intros RO. pose proof (at_cells p u0 w0 RO) as PC. unfold phase_work, heat_flow, enthalpy, over_cells. rewrite PC. auto. Qed.

  Lemma step_weak p u0 w0 : dn_ok p -> forall sqrtK u w v z, sol_ok (dn_at P fp fT u0 w0 chi) [u; w] -> sol_ok (dn_at P fp fT u0 w0 chi) [v; z] -> exists r0 r1, compute_residual sqrtK (dn_at P fp fT u0 w0 chi) [Pp; PT] [u; w] = Ok [r0; r1] /\
    work (K := Rops) (List.length Pp) 1 v r0 = phase_work P p fp fT u0 w0 chi u v /\ work (K := Rops) (List.length PT) 1 z r1 = heat_flow P p fp fT u0 w0 u w z.
  Proof.
    intros RO sqrtK u w v z SU SV. destruct (at_ok p u0 w0 RO) as ((_ & _ & _ & _ & VP & VT & DP & DT2 & QE) & WF & NC & LN). destruct (work_p p u0 w0 RO) as (W1 & W2 & _).
    rewrite <- W1, <- W2. exact (dn_weak P fp fT u0 w0 chi VP VT DP DT2 QE WF NC LN sqrtK u w v z SU SV).
  Qed.
  Lemma step_solves p u0 w0 : dn_ok p -> forall u w, solves (dn_at P fp fT u0 w0 chi) [Pp; PT] [u; w] <->
    sol_ok (dn_at P fp fT u0 w0 chi) [u; w] /\ meets fp u /\ meets fT w /\
    (forall v, shaped (List.length Pp) 1 v -> held_zero fp v -> phase_work P p fp fT u0 w0 chi u v = 0) /\
    (forall z, shaped (List.length PT) 1 z -> held_zero fT z -> heat_flow P p fp fT u0 w0 u w z = 0).
  Proof.
    intros RO u w. destruct (at_ok p u0 w0 RO) as ((_ & _ & _ & _ & VP & VT & DP & DT2 & QE) & WF & NC & LN). destruct (work_p p u0 w0 RO) as (W1 & W2 & _).
    rewrite (dn_solves P fp fT u0 w0 chi VP VT DP DT2 QE WF NC LN u w). split; intros (A & B & C & D & E); (split; [exact A|]; split; [exact B|]; split; [exact C|]; split; intros x; [specialize (D x)|specialize (E x)]).
    - rewrite W1 in D. exact D.
    - rewrite W2 in E. exact E.
    - rewrite W1. exact D.
    - rewrite W2. exact E.
  Qed.
  Hypothesis PH : dn_physical P.
  Lemma step_one p u0 w0 : dn_ok p -> same_measure p fp fT -> bcs_ok p -> temperature_seen p fp -> temperature_seen p fT ->
    no_free_change (dn_at P fp fT u0 w0 chi) [Pp; PT] /\ affine_residual (dn_at P fp fT u0 w0 chi) [Pp; PT] /\ one_solution (dn_at P fp fT u0 w0 chi) [Pp; PT].
  Proof.
    intros RO SM BC SP ST. destruct (at_ok p u0 w0 RO) as ((_ & _ & _ & _ & VP & VT & DP & DT2 & QE) & WF & NC & LN).
    exact (dn_one P fp fT u0 w0 chi VP VT DP DT2 QE WF NC LN PH (at_measure p u0 w0 RO SM) (at_bcs p u0 w0 RO BC) (at_seen p u0 w0 fp RO SP) (at_seen p u0 w0 fT RO ST)).
  Qed.
  Lemma step_pair p u0 w0 x : dn_ok p -> sol_ok (dn_at P fp fT u0 w0 chi) x -> exists u w, x = [u; w].
  Proof.
    intros RO SX. destruct (at_ok p u0 w0 RO) as (_ & WF & NC & LN).
    destruct (cp_sol (dn_aux P fp fT u0 w0 chi) fp fT _ (a_coupled P fp fT u0 w0 chi) NC x SX) as (u & w & -> & _). eauto.
  Qed.
  Lemma step_loop solve n i p u w l : dn_ok p -> dn_loop solve chi (S n) i p u w = Ok l ->
    exists u' w' l', solve i (dn_at P fp fT u w chi) = Ok [u'; w'] /\ dn_loop solve chi n (S i) (dn_at P fp fT u w chi) u' w' = Ok l' /\ l = (dn_at P fp fT u w chi, (u', w')) :: l'.
  Proof.
    intros RO. cbn [dn_loop]. rewrite (dn_set P p fp fT u w chi (proj1 RO)). cbn [bind]. destruct (solve i _) as [s|] eqn:E2; [|discriminate]. cbn [bind].
    destruct s as [|u' [|w' [|? ?]]]; try discriminate. destruct (dn_loop solve chi n (S i) _ u' w') as [l'|] eqn:E3; [|discriminate]. intros E. injection E as <-.
    exists u', w', l'. auto.
  Qed.
  (** no temperature held: the enthalpy stays *)
  Theorem dn_run_balance solve n : (forall m, (m < List.length PT)%nat -> prescribed fT m 0 = None) ->
    forall i p u w l, dn_ok p -> same_measure p fp fT -> constants_exact p fT -> dn_loop solve chi n i p u w = Ok l -> all_solved fp fT l ->
    List.length l = n /\ forall p0 u0 w0, In (p0, (u0, w0)) l -> enthalpy P p fp fT u0 w0 = enthalpy P p fp fT u w.
  Proof.
    intros FR. induction n as [|n IH]; intros i p u w l RO SM CE E AS.
    - injection E as <-. split; [reflexivity|]. intros p0 u0 w0 [].
    - apply (step_loop _ _ _ _ _ _ _ RO) in E as (u' & w' & l' & _ & EL & ->). pose proof (at_ok p u w RO) as RO'. assert (SO : solves (dn_at P fp fT u w chi) [Pp; PT] [u'; w']) by (apply AS; now left).
      pose proof (at_measure p u w RO SM) as SM'. pose proof (at_const p u w fT RO CE) as CE'. pose proof RO' as ((_ & _ & _ & _ & VP & VT & DP & DT2 & QE) & WF & NC & LN).
      pose proof (dn_balance P fp fT u w chi VP VT DP DT2 QE WF NC LN PH SM' CE' u' w' SO FR) as BB. destruct (work_p p u w RO) as (_ & _ & EN). rewrite !EN in BB.
      destruct (IH (S i) _ u' w' l' RO' SM' CE' EL (fun a b c H => AS a b c (or_intror H))) as (LL & HH). split; [cbn [List.length]; f_equal; exact LL|].
      intros p0 u0 w0 [I|I]; [injection I as <- <- <-; exact BB|]. rewrite <- BB. rewrite <- !EN. exact (HH p0 u0 w0 I).
  Qed.
  (** there is a run, and only one *)
  Theorem dn_run_exists n : forall i p u w, dn_ok p -> same_measure p fp fT -> bcs_ok p -> temperature_seen p fp -> temperature_seen p fT ->
    exists res l, (forall j, (j < i)%nat -> res j = []) /\ dn_loop (fun j _ => Ok (res j)) chi n i p u w = Ok l /\ all_solved fp fT l.
  Proof.
    induction n as [|n IH]; intros i p u w RO SM BC SP ST.
    - exists (fun _ => []), []. split; auto. split; [reflexivity|]. intros a b c [].
    - pose proof (at_ok p u w RO) as RO'. destruct (step_one p u w RO SM BC SP ST) as (_ & _ & x & SX & _). destruct (step_pair p u w x RO (proj1 SX)) as (u' & w' & ->).
      destruct (IH (S i) _ u' w' RO' (at_measure p u w RO SM) (at_bcs p u w RO BC) (at_seen p u w fp RO SP) (at_seen p u w fT RO ST)) as (res & l & R0 & EL & AS).
      exists (fun j => if (j =? i)%nat then [u'; w'] else res j), ((dn_at P fp fT u w chi, (u', w')) :: l). split; [|split].
      + intros j Hj. replace (j =? i)%nat with false by (symmetry; apply Nat.eqb_neq; lia). apply R0. lia.
      + cbn [dn_loop]. rewrite (dn_set P p fp fT u w chi (proj1 RO)). cbn [bind]. rewrite Nat.eqb_refl.
        assert (EQ : forall n k q a b, (i < k)%nat -> dn_loop (fun j _ => Ok (if (j =? i)%nat then [u'; w'] else res j)) chi n k q a b = dn_loop (fun j _ => Ok (res j)) chi n k q a b).
        { clear. induction n as [|n IHd]; intros k q a b Hk; [reflexivity|]. cbn [dn_loop]. destruct (dn_set_params q a b chi); [|reflexivity]. cbn [bind].
          replace (k =? i)%nat with false by (symmetry; apply Nat.eqb_neq; lia). destruct (res k) as [|x [|y [|? ?]]]; auto. rewrite IHd by lia. reflexivity. }
        rewrite EQ by lia. rewrite EL. reflexivity.
      + intros a b c [I|I]; [injection I as <- <- <-; exact SX|now apply AS].
  Qed.
  Theorem dn_run_unique n : forall s1 s2 i1 i2 p u w l1 l2, dn_ok p -> same_measure p fp fT -> bcs_ok p -> temperature_seen p fp -> temperature_seen p fT ->
    dn_loop s1 chi n i1 p u w = Ok l1 -> dn_loop s2 chi n i2 p u w = Ok l2 -> all_solved fp fT l1 -> all_solved fp fT l2 -> l1 = l2.
  Proof.
    intros s1 s2. induction n as [|n IH]; intros i1 i2 p u w l1 l2 RO SM BC SP ST E1 E2 A1 A2.
    - injection E1 as <-. now injection E2 as <-.
    - apply (step_loop _ _ _ _ _ _ _ RO) in E1 as (u' & w' & l' & _ & EL & ->). apply (step_loop _ _ _ _ _ _ _ RO) in E2 as (u2 & w2 & l2' & _ & EL2 & ->).
      pose proof (at_ok p u w RO) as RO'. destruct (step_one p u w RO SM BC SP ST) as (_ & _ & x & SX & UX).
      pose proof (UX _ (A1 _ u' w' (or_introl eq_refl))) as Q1. pose proof (UX _ (A2 _ u2 w2 (or_introl eq_refl))) as Q2. rewrite <- Q2 in Q1. injection Q1 as -> ->. f_equal.
      exact (IH (S i1) (S i2) _ u2 w2 l' l2' RO' (at_measure p u w RO SM) (at_bcs p u w RO BC) (at_seen p u w fp RO SP) (at_seen p u w fT RO ST) EL EL2 (fun a b c H => A1 a b c (or_intror H)) (fun a b c H => A2 a b c (or_intror H))).
  Qed.
  (** all liquid or all solid at one temperature: nothing happens *)
  Theorem dn_run_steady solve n x y : x = 0 \/ x = 1 -> let u := constant (List.length Pp) x in let w := constant (List.length PT) y in meets fp u -> meets fT w ->
    forall i p l, dn_ok p -> same_measure p fp fT -> bcs_ok p -> temperature_seen p fp -> temperature_seen p fT -> constants_exact p fp -> constants_exact p fT ->
    dn_loop solve chi n i p u w = Ok l -> all_solved fp fT l -> forall p0 u0 w0, In (p0, (u0, w0)) l -> u0 = u /\ w0 = w.
  Proof.
    intros X u w MU MW. induction n as [|n IH]; intros i p l RO SM BC SP ST C0 C1 E AS p0 u0 w0 I.
    - injection E as <-. destruct I.
    - apply (step_loop _ _ _ _ _ _ _ RO) in E as (u' & w' & l' & _ & EL & ->). pose proof (at_ok p u w RO) as RO'. assert (SO : solves (dn_at P fp fT u w chi) [Pp; PT] [u'; w']) by (apply AS; now left).
      pose proof RO' as ((_ & _ & _ & _ & VP & VT & DP & DT2 & QE) & WF & NC & LN).
      pose proof (dn_steady P fp fT u w chi VP VT DP DT2 QE WF NC LN x y (at_const p u w fp RO C0) (at_const p u w fT RO C1) X eq_refl eq_refl MU MW) as SS.
      destruct (step_one p u w RO SM BC SP ST) as (_ & _ & z & SZ & UZ). pose proof (UZ _ SO) as Q1. pose proof (UZ _ SS) as Q2. rewrite <- Q2 in Q1. injection Q1 as -> ->.
      destruct I as [I|I]; [injection I as <- <- <-; auto|].
      exact (IH (S i) _ l' RO' (at_measure p u w RO SM) (at_bcs p u w RO BC) (at_seen p u w fp RO SP) (at_seen p u w fT RO ST) (at_const p u w fp RO C0) (at_const p u w fT RO C1) EL (fun a b c H => AS a b c (or_intror H)) p0 u0 w0 I).
  Qed.
End Run.

(** ** Elements *)
Section Element.
  Variables (el : string) (sqrtK : R -> R) (quad fquad : list (list Rops) * list Rops) (normals : nat -> nat -> Rops) (pts : list (list Rops)) (cls : list (list nat))
    (dir : option (list (location_fn Rops) * list nat * list (list Rops -> Rops))) (f : fe Rops) (p : problem Rops V).
  Hypothesis BUILT : fe_init (K := Rops) sqrtK el quad fquad normals pts cls 1 (element_dim el) dir = Ok f.
  Hypothesis MESH : mesh_ok f.
  Hypothesis SH : sharp_rule el (fst quad).
  Hypothesis PC : p_num_cells p = num_cells f.
  Hypothesis PW : forall c q, (c < p_num_cells p)%nat -> (q < num_quads f)%nat -> 0 < get_JxW (points f) f c q.
  Lemma e_lag : In el nine_names.
  Proof. destruct SH as [(-> & _)|[(-> & _)|([->| ->] & _)]]; cbn; tauto. Qed.
  Lemma e_const : constants_exact p f.
  Proof.
    intros c q Hc Hq. split; [exact (vals_sum Rops_ring _ _ _ _ _ _ _ _ _ _ _ BUILT e_lag q)|]. intros j Hj. rewrite (built_dim _ _ _ _ _ _ _ _ _ _ _ BUILT) in Hj.
    exact (phys_grads_sum Rops_field _ _ _ _ _ _ _ _ _ _ _ BUILT e_lag eq_refl (points f) eq_refl c q j Hj).
  Qed.
  Lemma e_seen : (forall n, (n < List.length (points f))%nat -> exists cell, In cell (cells f) /\ In n cell) -> temperature_seen p f.
  Proof.
    intros COV x SX HZ Z n Hn. destruct (COV n Hn) as (cell & IC & IN).
    apply (In_nth _ _ []) in IC as (c & Hc & <-). change (c < num_cells f)%nat in Hc. destruct (MESH c Hc) as (LC & _). apply (In_nth _ _ 0%nat) in IN as (a & Ha & <-). rewrite LC in Ha.
    assert (Hc' : (c < p_num_cells p)%nat) by now rewrite PC.
    assert (DET : forall q, (q < num_quads f)%nat -> det (dim f) (jacobian_dx_deta (points f) f c q) <> 0).
    { intros q Hq E. pose proof (PW c q Hc' Hq) as J. unfold get_JxW in J. rewrite E in J. cbn in J. rewrite Rmult_0_l in J. lra. }
    pose proof (cell_constant el sqrtK quad fquad normals pts cls 1 dir f BUILT SH (points f) x c 0%nat DET (fun q j Hq Hj => proj2 (Z c q Hc' Hq) j Hj)) as CC.
    rewrite <- (cell_entry 1 f MESH x c a 0%nat SX Hc Ha). rewrite (CC a Ha).
    assert (NQ : (0 < num_quads f)%nat).
    { rewrite (built_quads _ _ _ _ _ _ _ _ _ _ _ BUILT). destruct SH as [(_ & (a0 & b0 & _ & G))|[(_ & (a0 & b0 & _ & G))|(_ & G)]].
      - destruct (fst quad) eqn:E; [|cbn; lia]. exfalso. apply (G [a0; a0; a0]); [reflexivity|]. intros i Hi. destruct i as [|[|[|i]]]; cbn; auto; lia.
      - destruct (fst quad) eqn:E; [|cbn; lia]. exfalso. apply (G [a0; a0]); [reflexivity|]. intros i Hi. destruct i as [|[|i]]; cbn; auto; lia.
      - destruct (fst quad); [contradiction|cbn; lia]. }
    pose proof (proj1 (Z c 0%nat Hc' NQ)) as V0. unfold convert_from_dof_to_quad in V0. rewrite (Rsum_ext _ _ (fun a => cell_sol_at f x c 0%nat 0%nat * shape_vals f 0%nat a)) in V0.
    - rewrite Rsum_mul in V0. rewrite (vals_sum Rops_ring _ _ _ _ _ _ _ _ _ _ _ BUILT e_lag 0%nat) in V0. cbn in V0. rewrite Rmult_1_r in V0. exact V0.
    - intros b Hb. now rewrite (CC b Hb).
  Qed.
End Element.
(** the mesh of the example *)
Section Rect.
  Variables (P : dn_params) (Nx Ny : nat) (Lx Ly : R) (sqrtK : R -> R) (quad fquad : list (list Rops) * list Rops) (normals : nat -> nat -> Rops).
  Hypothesis HX : (0 < Nx)%nat. Hypothesis HY : (0 < Ny)%nat. Hypothesis LX : 0 < Lx. Hypothesis LY : 0 < Ly.
  Hypothesis FG : full_grid 2 (fst quad).
  Hypothesis WP : forall q, (q < List.length (fst quad))%nat -> 0 < nth q (snd quad) 0.
  Let M := rectangle_mesh Nx Ny Lx Ly.
  Variable f : fe Rops.
  Hypothesis BUILT : fe_init (K := Rops) sqrtK "QUAD4" quad fquad normals (m_points M) (m_cells M) 1 2 None = Ok f.
  Let p : problem Rops V := mkProblem [f; f] [] (dn_maps P [f; f]) [] [].
  Theorem rect_dendrite : dn_problem P p f f /\ wf_problem p /\ p_num_cells p = (Nx * Ny)%nat /\ points f = m_points M /\ same_measure p f f /\ bcs_ok p /\ temperature_seen p f /\ constants_exact p f /\
    forall n, (n < List.length (points f))%nat -> prescribed f n 0 = None.
  Proof.
    pose proof (rect_mesh_ok Nx Ny Lx Ly HX HY _ _ _ _ _ _ f BUILT) as MO. pose proof (rect_num_cells Nx Ny Lx Ly HX HY _ _ _ _ _ _ f BUILT) as NU.
    assert (SR : sharp_rule "QUAD4" (fst quad)) by (right; left; split; [reflexivity|exact FG]).
    assert (PF : points f = m_points M) by exact (built_points _ _ _ _ _ _ _ _ _ _ _ BUILT).
    assert (WU : forall c q, (c < p_num_cells p)%nat -> (q < num_quads f)%nat -> 0 < get_JxW (points f) f c q).
    { intros c q Hc Hq. rewrite PF. change (p_num_cells p) with (num_cells f) in Hc. rewrite NU in Hc. unfold M. rewrite (rect_JxW Nx Ny Lx Ly HX HY _ _ _ _ _ _ f BUILT c q Hc). rewrite (built_weights _ _ _ _ _ _ _ _ _ _ _ BUILT). rewrite (built_quads _ _ _ _ _ _ _ _ _ _ _ BUILT) in Hq.
      assert (0 < INR Nx) by (apply lt_0_INR; lia). assert (0 < INR Ny) by (apply lt_0_INR; lia).
      apply Rmult_lt_0_compat; [apply Rmult_lt_0_compat; now apply Rdiv_lt_0_compat|]. now apply WP. }
    split; [|split; [|split; [exact NU|split; [exact PF|split; [|split; [|split; [|split]]]]]]].
    - repeat split; try exact (built_vec _ _ _ _ _ _ _ _ _ _ _ BUILT); exact (built_dim _ _ _ _ _ _ _ _ _ _ _ BUILT).
    - constructor; cbn.
      + intros f0 [<-|[<-|[]]]; reflexivity.
      + intros f0 cell [<-|[<-|[]]] Hc; apply In_nth with (d := []) in Hc as (e & Hc & <-); now apply MO.
      + intros f0 cell n [<-|[<-|[]]] Hc; apply In_nth with (d := []) in Hc as (e & Hc & <-); now apply MO.
      + intros b e fc [].
    - intros c q Hc Hq. split; [reflexivity|]. now apply WU.
    - assert (B : node_inds_list f = [] /\ vec_inds_list f = [] /\ vals_list f = []).
      { unfold fe_init in BUILT. destruct (get_elements "QUAD4") as [inf|]; [|discriminate]. destruct (reorder_inds _ _) as [fi|]; [|discriminate]. cbn [Dirichlet_boundary_conditions] in BUILT. injection BUILT as <-. repeat split. }
      destruct B as (B1 & B2 & B3). unfold bcs_ok. cbn [fes p]. intros f0 [<-|[<-|[]]] i Hi; rewrite B1 in Hi; cbn in Hi; lia.
    - apply (e_seen "QUAD4" sqrtK quad fquad normals (m_points M) (m_cells M) None f p BUILT MO SR eq_refl WU). intros n Hn. rewrite PF in Hn. rewrite (built_cells _ _ _ _ _ _ _ _ _ _ _ BUILT). now apply rect_covers.
    - exact (e_const "QUAD4" sqrtK quad fquad normals (m_points M) (m_cells M) None f p BUILT SR).
    - intros n Hn. unfold prescribed. unfold fe_init in BUILT. destruct (get_elements "QUAD4") as [inf|]; [|discriminate]. destruct (reorder_inds _ _) as [fi|]; [|discriminate]. cbn [Dirichlet_boundary_conditions] in BUILT. injection BUILT as <-. reflexivity.
  Qed.
End Rect.
Lemma zeros_temp f N m c q : temp f (zeros2 (@zero Rops) N m) c q = 0.
Proof.
  unfold temp, convert_from_dof_to_quad. refine (eq_trans (Rsum_ext _ _ (fun _ => 0 * 0) _) _); [|rewrite Rsum_mul; req; ring]. intros a _.
  assert (Z : cell_sol_at f (zeros2 (@zero Rops) N m) c a 0 = 0).
  { unfold cell_sol_at, gather, zeros2. generalize (Nat.min (cell_node f c a) (List.length (repeat (repeat (@zero Rops) m) N) - 1)). intros i.
    destruct (Nat.lt_ge_cases i N) as [L|L]; [rewrite nth_repeat_lt by exact L|rewrite (nth_overflow (repeat _ N)) by (rewrite repeat_length; exact L)]; [|now destruct m].
    destruct m; [reflexivity|]. reflexivity. }
  rewrite Z. exact (eq_trans (Rmult_0_l _) (eq_sym (Rmult_0_l 0))).
Qed.
Lemma enthalpy_zero P p fp fT N u w u0 : enthalpy P p fp fT u w = enthalpy P p fp fT u0 (zeros2 (@zero Rops) N 1) ->
  over_cells (K := Rops) p fp (points fp) (fun c q => temp fT w c q) =
  K_lat P * (over_cells (K := Rops) p fp (points fp) (fun c q => phase fp u c q) - over_cells (K := Rops) p fp (points fp) (fun c q => phase fp u0 c q)).
Proof.
  unfold enthalpy. intros E. rewrite over_diff, over_mul.
  assert (A : over_cells (K := Rops) p fp (points fp) (fun c q => temp fT w c q - K_lat P * phase fp u c q) + over_cells (K := Rops) p fp (points fp) (fun c q => K_lat P * phase fp u c q) = over_cells (K := Rops) p fp (points fp) (fun c q => temp fT w c q)).
  { rewrite over_add. apply over_ext. intros. req; ring. }
  rewrite E in A. rewrite over_add in A. rewrite <- A. apply over_ext. intros c q _ _. rewrite zeros_temp. req; ring.
Qed.
Lemma two_grid_points : full_grid 2 (fst two_by_two).
Proof.
  exists (/ 4), (3 / 4). split; [lra|]. intros x L H. destruct x as [|a [|c [|]]]; try discriminate.
  pose proof (H 0%nat ltac:(lia)) as H0. pose proof (H 1%nat ltac:(lia)) as H1. cbn in H0, H1. destruct H0 as [->| ->], H1 as [->| ->]; cbn; tauto.
Qed.
Lemma two_weights q : (q < List.length (fst two_by_two))%nat -> 0 < nth q (snd two_by_two) 0.
Proof. intros Hq. change (q < 4)%nat in Hq. destruct q as [|[|[|[|q]]]]; [..|lia]; cbn; lra. Qed.
