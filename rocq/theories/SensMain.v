(** Lemmas for C111. *)
From Coq Require Import Reals String List Arith Lia Lra Bool.
From Verif Require Import Num Arr ArrFacts BatchFacts Fe FeFacts GeomFacts SpecFe Problem SpecAssembly AssemblyFacts SpecWeak KernelFacts SpecEnergy Elastic ElasticFacts SpecBc SpecLinear Plasticity SpecPlasticity PlasticityFacts
  Lagrangian SpecLagrangian LagrangianFacts LagrangianMain FinPlast SpecFinPlast FinPlastFacts FinPlastMain CrystalPlast SpecCrystal CrystalFacts CrystalSolve CrystalMain CrystalUse
  HyperElastic Volume SpecVolume VolumeMain VolumeEnd VolumeSpin FinLoad FinLoadMain SensStress.
Import ListNotations.
Local Open Scope R_scope.
Local Notation sum := (sum_n (K := Rops)).
Local Infix "==" := (same_on 3) (at level 70).

Lemma turn_rotation w : rotation (turn w).
Proof.
  pose proof (sin2_cos2 w) as X. unfold Rsqr in X. split; [unfold det; cbn; lra|]. intros [|[|[|i]]] [|[|[|j]]] Hi Hj; try lia; cbn; lra.
Qed.

(** ** gradients of a turned body *)
Section Grad.
  Variables (s : string) (f : fe Rops) (P u u' : list (list Rops)) (w : R).
  Hypothesis B : built_element s 3 f.
  Hypothesis LP : length P = length (points f).
  Hypothesis LU : length u = length P.
  Hypothesis SP : spun w P u u'.
  Lemma dim3 : dim f = 3%nat.
  Proof. destruct B as (_ & _ & _ & sq & qd & fq & nm & p0 & cl & v & dr & E). exact (built_dim _ _ _ _ _ _ _ _ _ _ _ E). Qed.
  Lemma node_in c a : (c < num_cells f)%nat -> (a < num_nodes f)%nat -> (cell_node f c a < length P)%nat.
  Proof. intros Hc Ha. destruct B as (_ & _ & MESH & _). destruct (MESH c Hc) as (L & N). rewrite LP. apply N. unfold cell_node. apply nth_In. now rewrite L. Qed.
  Lemma points_grad c q k j : (c < num_cells f)%nat -> get_JxW P f c q <> 0 -> (k < 3)%nat -> (j < 3)%nat -> sol_to_grad P f P c q k j = ident k j.
  Proof.
    intros Hc HJ Hk Hj. pose proof dim3 as D. assert (HD : det (K := Rops) 3 (jacobian_dx_deta P f c q) <> 0).
    { intros E. apply HJ. unfold get_JxW. rewrite D. etransitivity; [exact (f_equal (fun z => z * quad_weights f q) E)|]. exact (Rmult_0_l _). }
    unfold sol_to_grad, get_shape_grads. rewrite D.
    transitivity (sum 3 (fun i => jacobian_dx_deta P f c q k i * inv_mat (K := Rops) 3 (jacobian_dx_deta P f c q) i j)).
    - transitivity (sum (num_nodes f) (fun a => sum 3 (fun i => coo P f c a k * shape_grads_ref f q a i * inv_mat (K := Rops) 3 (jacobian_dx_deta P f c q) i j))).
      + apply Rsum_ext. intros a Ha. etransitivity; [symmetry; apply Rsum_mul|]. apply Rsum_ext. intros i Hi. change (cell_sol_at f P c a k) with (coo P f c a k). symmetry. apply Rmult_assoc.
      + rewrite Rsum_swap. apply Rsum_ext. intros i Hi. etransitivity; [|apply Rmult_comm]. unfold jacobian_dx_deta at 2. etransitivity; [|apply Rsum_mul]. apply Rsum_ext. intros a Ha. apply Rmult_comm.
    - exact (inv_mat_right Rops_field 3 (jacobian_dx_deta P f c q) k j (or_intror eq_refl) Hk Hj HD).
  Qed.
  Lemma grad_turned c q : (c < num_cells f)%nat -> get_JxW P f c q <> 0 -> def_grad (sol_to_grad P f u' c q) == times (turn w) (def_grad (sol_to_grad P f u c q)).
  Proof.
    intros Hc HJ k j Hk Hj. destruct SP as (LU' & S).
    assert (E : sol_to_grad P f u' c q k j = sum 3 (fun m => turn w k m * (sol_to_grad P f P c q m j + sol_to_grad P f u c q m j)) - sol_to_grad P f P c q k j).
    { unfold sol_to_grad. transitivity (sum (num_nodes f) (fun a => sum 3 (fun m => turn w k m * ((cell_sol_at f P c a m + cell_sol_at f u c a m) * get_shape_grads P f c q a j))) + -1 * sum (num_nodes f) (fun a => cell_sol_at f P c a k * get_shape_grads P f c q a j)).
      - rewrite <- Rsum_mul, <- Rsum_plus. apply Rsum_ext. intros a Ha. pose proof (node_in c a Hc Ha) as Hn. destruct (S _ Hn) as (S0 & S1 & S2). cbn beta zeta in S0, S1, S2.
        unfold cell_sol_at. rewrite !gather_in; [|lia..]. set (g := get_shape_grads P f c q a j). change (mul (get2 ?z ?x ?y ?t) g) with (get2 z x y t * g).
        set (n := cell_node f c a) in *. rewrite sum3.
        destruct k as [|[|[|k]]]; [| | |lia]; unfold turn.
        + assert (X : nth 0 (nth n u' []) 0 = cos w * (nth 0 (nth n P []) 0 + nth 0 (nth n u []) 0) - sin w * (nth 1 (nth n P []) 0 + nth 1 (nth n u []) 0) - nth 0 (nth n P []) 0) by lra.
          etransitivity; [exact (f_equal (fun z => z * g) X)|]. req. cbn [mul Rops zero]. ring.
        + assert (X : nth 1 (nth n u' []) 0 = sin w * (nth 0 (nth n P []) 0 + nth 0 (nth n u []) 0) + cos w * (nth 1 (nth n P []) 0 + nth 1 (nth n u []) 0) - nth 1 (nth n P []) 0) by lra.
          etransitivity; [exact (f_equal (fun z => z * g) X)|]. req. cbn [mul Rops zero]. ring.
        + assert (X : nth 2 (nth n u' []) 0 = (nth 2 (nth n P []) 0 + nth 2 (nth n u []) 0) - nth 2 (nth n P []) 0) by lra.
          etransitivity; [exact (f_equal (fun z => z * g) X)|]. req. cbn [mul Rops zero]. ring.
      - rewrite Rsum_swap. transitivity (sum 3 (fun m => turn w k m * (sum (num_nodes f) (fun a => cell_sol_at f P c a m * get_shape_grads P f c q a j) + sum (num_nodes f) (fun a => cell_sol_at f u c a m * get_shape_grads P f c q a j))) + -1 * sum (num_nodes f) (fun a => cell_sol_at f P c a k * get_shape_grads P f c q a j)); [|req; cbn [mul Rops]; ring].
        f_equal. apply Rsum_ext. intros m Hm. rewrite Rsum_mul. f_equal. rewrite <- Rsum_plus. apply Rsum_ext. intros a Ha. req. ring. }
    unfold def_grad. rewrite E, (points_grad c q k j Hc HJ Hk Hj). unfold times.
    assert (F : sum 3 (fun m => turn w k m * (sol_to_grad P f P c q m j + sol_to_grad P f u c q m j)) = sum 3 (fun m => turn w k m * (sol_to_grad P f u c q m j + eye3 m j))).
    { apply Rsum_ext. intros m Hm. rewrite (points_grad c q m j Hc HJ Hm Hj). unfold eye3, ident. req. ring. }
    rewrite F. unfold eye3, ident. req. ring.
  Qed.
End Grad.

(** ** the stress is a function of the entries of the gradient *)
Section Stress.
  Variables (tb : list (list R)) (dt : R) (LS : tensor -> vect -> vect) (fuel : nat).
  Lemma pk_same G G' Fp g sl M S : G == G' -> PK_of tb dt G Fp g sl M S == PK_of tb dt G' Fp g sl M S.
  Proof.
    intros H. assert (HF : def_grad G == def_grad G') by (intros i j Hi Hj; unfold def_grad; now rewrite H).
    assert (HE : h_Fe (helper tb dt G Fp g sl M S) == h_Fe (helper tb dt G' Fp g sl M S)).
    { eapply s_trans; [apply Fe_lattice|]. eapply s_trans; [|apply s_sym, Fe_lattice]. apply lattice_ext; auto; intros ? ? ? ?; reflexivity. }
    unfold PK_of. cbv zeta. change (h_F (helper tb dt G Fp g sl M S)) with (def_grad G). change (h_F (helper tb dt G' Fp g sl M S)) with (def_grad G').
    rewrite (det_ext (K := Rops) 3 _ _ HF), (det_ext (K := Rops) 3 _ _ HE). unfold mul3, trans3. intros i j Hi Hj. apply Rsum_ext. intros k Hk. rewrite (inv_mat_ext (K := Rops) 3 _ _ j k Hj Hk HF). f_equal. f_equal.
    apply Rsum_ext. intros l Hl. rewrite (HE k l Hk Hl). f_equal. apply Rsum_ext. intros m Hm. now rewrite (HE i m Hi Hm).
  Qed.
  Lemma cp_maps_ok : maps_ok 3 3 (cp_maps tb dt LS fuel).
  Proof.
    split; [|split]; [|intros ? H; discriminate|intros ? ? H; discriminate]. intros tm H. injection H as <-. intros G G' iv HG k j Hk Hj. unfold cp_tensor_map.
    destruct iv as [|Fp [|g [|sl [|rot [|x iv]]]]]; try reflexivity. unfold cp_stress.
    assert (E : solved_S tb dt LS fuel G (as_t Fp) (as_v g) (as_v sl) (as_t rot) = solved_S tb dt LS fuel G' (as_t Fp) (as_v g) (as_v sl) (as_t rot)).
    { apply solved_same. intros S. apply gap_ext; auto; intros ? ? ? ?; try reflexivity. unfold def_grad. now rewrite HG. }
    rewrite E. clear E. destruct (solved_S _ _ _ _ _ _ _ _ _) as [S|]; [|reflexivity]. cbn [option_map]. exact (pk_same G G' _ _ _ _ S HG k j Hk Hj).
  Qed.
End Stress.

(** ** turned solutions *)
(** two states with the same values at all points *)
Definition agree (f : fe Rops) (ivs ivs' : list (list (nat -> cp_var))) : Prop := four_arrays f ivs /\ four_arrays f ivs' /\ forall c q, (c < num_cells f)%nat -> (q < num_quads f)%nat ->
  kept_Fp ivs' c q = kept_Fp ivs c q /\ kept_g ivs' c q = kept_g ivs c q /\ kept_slip ivs' c q = kept_slip ivs c q /\ kept_rot ivs' c q = kept_rot ivs c q.
Section Turned.
  Variables (tb : list (list R)) (dt : R) (LS : tensor -> vect -> vect) (fuel : nat) (s : string) (f0 f f' : fe Rops) (P u u' : list (list Rops)) (w : R) (ivs ivs' : list (list (nat -> cp_var))).
  Hypothesis B : built_element s 3 f0.
  Hypothesis SM : same_mesh f0 f.
  Hypothesis SM' : same_mesh f0 f'.
  Hypothesis LP : length P = length (points f0).
  Hypothesis LU : length u = length P.
  Hypothesis SP : spun w P u u'.
  Hypothesis AG : agree f ivs ivs'.
  Hypothesis NZ : forall c q, (c < num_cells f0)%nat -> (q < num_quads f0)%nat -> get_JxW P f0 c q <> 0.
  Lemma cells_same : num_cells f = num_cells f0. Proof. unfold num_cells. destruct SM as (_ & -> & _). reflexivity. Qed.
  Lemma quads_same : num_quads f = num_quads f0. Proof. destruct SM as (_ & _ & _ & _ & -> & _). reflexivity. Qed.
  Lemma cells_same' : num_cells f' = num_cells f. Proof. rewrite cells_same. unfold num_cells. destruct SM' as (_ & -> & _). reflexivity. Qed.
  Lemma quads_same' : num_quads f' = num_quads f. Proof. rewrite quads_same. destruct SM' as (_ & _ & _ & _ & -> & _). reflexivity. Qed.
  Lemma four' : four_arrays f' ivs'.
  Proof. destruct AG as (_ & F & _). unfold four_arrays in *. now rewrite cells_same'. Qed.
  Lemma grad_f c q : (c < num_cells f)%nat -> (q < num_quads f)%nat -> def_grad (sol_to_grad P f' u' c q) == times (turn w) (def_grad (sol_to_grad P f u c q)).
  Proof.
    intros Hc Hq. rewrite cells_same in Hc. rewrite quads_same in Hq. destruct SM as (_ & _ & _ & _ & _ & _ & G). destruct SM' as (_ & _ & _ & _ & _ & _ & G').
    pose proof (grad_turned s f0 P u u' w B LP LU SP c q Hc (NZ c q Hc Hq)) as T. intros i j Hi Hj. etransitivity; [|etransitivity; [exact (T i j Hi Hj)|]].
    - unfold def_grad. now rewrite G'.
    - unfold times, def_grad. apply Rsum_ext. intros k Hk. now rewrite G.
  Qed.
  Lemma S_turned c q : (c < num_cells f)%nat -> (q < num_quads f)%nat -> S_at tb dt LS f' P fuel u' ivs' c q = S_at tb dt LS f P fuel u ivs c q.
  Proof.
    intros Hc Hq. destruct AG as (_ & _ & K). destruct (K c q Hc Hq) as (K1 & K2 & K3 & K4). unfold S_at. rewrite K1, K2, K3, K4. apply solved_same. intros S. exact (gap_turn tb dt (turn w) _ _ _ _ _ S (turn_rotation w) (grad_f c q Hc Hq)).
  Qed.
  (** the new states agree *)
  Lemma update_turned iv1 : cp_update_gp tb dt LS f P fuel u ivs = Some (Ok iv1) -> exists iv1', cp_update_gp tb dt LS f' P fuel u' ivs' = Some (Ok iv1') /\ agree f iv1 iv1'.
  Proof.
    intros E. pose proof AG as (F & F' & K). destruct (update_cases tb dt LS f P fuel u ivs F) as [(X & _)|(i1 & X & F1 & U)]; rewrite X in E; [discriminate|]. injection E as <-.
    destruct (update_cases tb dt LS f' P fuel u' ivs' four') as [(X' & N)|(i1' & X' & F1' & U')].
    - exfalso. apply N. rewrite cells_same', quads_same'. intros c q Hc Hq. destruct (U c q Hc Hq) as (S & ES & _). exists S. now rewrite S_turned.
    - exists i1'. split; [exact X'|]. split; [exact F1|]. split; [unfold four_arrays in *; now rewrite <- cells_same'|]. intros c q Hc Hq. destruct (U c q Hc Hq) as (S & ES & U1 & U2 & U3 & U4). rewrite cells_same', quads_same' in U'. destruct (U' c q Hc Hq) as (S' & ES' & V1 & V2 & V3 & V4).
      rewrite S_turned in ES' by auto. rewrite ES in ES'. injection ES' as <-. destruct (K c q Hc Hq) as (K1 & K2 & K3 & K4). rewrite U1, U2, U3, U4, V1, V2, V3, V4. unfold new_at. rewrite K1, K2, K3, K4. repeat split; reflexivity.
  Qed.
  Hypothesis VF : forall c q, (c < num_cells f)%nat -> (q < num_quads f)%nat -> vol (def_grad (sol_to_grad P f u c q)) <> 0.
  Hypothesis VN : forall c q S, (c < num_cells f)%nat -> (q < num_quads f)%nat -> S_at tb dt LS f P fuel u ivs c q = Some S ->
    vol (times (kept_Fp ivs c q) (fun i j => ident i j - flow tb dt (kept_g ivs c q) (kept_rot ivs c q) S i j)) <> 0.
  Lemma PK_turned c q S : (c < num_cells f)%nat -> (q < num_quads f)%nat -> S_at tb dt LS f P fuel u ivs c q = Some S ->
    PK_at tb dt f' P u' ivs' c q S == times (turn w) (PK_at tb dt f P u ivs c q S).
  Proof.
    intros Hc Hq E. destruct AG as (_ & _ & K). destruct (K c q Hc Hq) as (K1 & K2 & K3 & K4). unfold PK_at. rewrite K1, K2, K3, K4.
    exact (pk_turn tb dt (turn w) _ _ _ _ _ _ S (turn_rotation w) (grad_f c q Hc Hq) (VF c q Hc Hq) (VN c q S Hc Hq E)).
  Qed.
  (** the Cauchy stress along the axis is the same *)
  Lemma sigma_turned A A' F F' : A' == times (turn w) A -> F' == times (turn w) F -> P_to_sigma A' F' 2%nat 2%nat = P_to_sigma A F 2%nat 2%nat.
  Proof.
    intros HA HF. unfold P_to_sigma, mul3, trans3. assert (D : det (K := Rops) 3 F' = det (K := Rops) 3 F).
    { change (vol F' = vol F). rewrite (vol_ext _ _ HF), vol_mul, (rot_vol _ (turn_rotation w)). apply Rmult_1_l. }
    rewrite D. rewrite !sum3. rewrite !(HA 2%nat _ ltac:(lia)), !(HF 2%nat _ ltac:(lia)) by lia. unfold times. rewrite !sum3. unfold turn. req. ring.
  Qed.
  Lemma zz_turned sg : compute_avg_stress tb dt LS f P fuel u ivs = Some (Ok sg) -> exists sg', compute_avg_stress tb dt LS f' P fuel u' ivs' = Some (Ok sg') /\
    forall c, (c < num_cells f)%nat -> nth c sg' (fun _ _ => 0) 2%nat 2%nat = nth c sg (fun _ _ => 0) 2%nat 2%nat.
  Proof.
    intros E. pose proof AG as (F & F' & K).
    assert (ALL : forall c q, (c < num_cells f)%nat -> (q < num_quads f)%nat -> exists S, S_at tb dt LS f P fuel u ivs c q = Some S).
    { destruct (update_cases tb dt LS f P fuel u ivs F) as [(_ & N)|(i1 & _ & _ & U)]; [|intros c q Hc Hq; destruct (U c q Hc Hq) as (S & ES & _); now exists S].
      exfalso. apply N. destruct F as (a & b & c0 & d & EQ & H1 & H2 & H3 & H4). unfold compute_avg_stress in E. rewrite EQ, (cunpack f a b c0 d H1 H2 H3 H4) in E. match type of E with context [all_done f ?g] => destruct (all_done f g) eqn:AD; [|discriminate] end.
      rewrite all_done_true in AD. intros c q Hc Hq. destruct (AD c q Hc Hq) as (x & Ex). unfold cp_stress, t_at, v_at in Ex. rewrite EQ. unfold S_at, kept_Fp, kept_g, kept_slip, kept_rot, ckept. cbn [nth]. change (cp_grads f P u c q) with (sol_to_grad P f u c q) in Ex. destruct (solved_S _ _ _ _ _ _ _ _ _) as [S|]; [now exists S|discriminate]. }
    destruct (avg_cases tb dt LS f P fuel u ivs F) as [(X & _)|(s1 & X & _ & U)]; rewrite X in E; [discriminate|]. injection E as <-.
    destruct (avg_cases tb dt LS f' P fuel u' ivs' four') as [(X' & N)|(s1' & X' & _ & U')].
    - exfalso. apply N. rewrite cells_same', quads_same'. intros c q Hc Hq. rewrite S_turned by auto. auto.
    - exists s1'. split; [exact X'|]. rewrite cells_same', quads_same' in U'. set (T := fun c q => match S_at tb dt LS f P fuel u ivs c q with Some S1 => S1 | None => fun _ _ => 0 end).
      assert (HT : forall c q, (c < num_cells f)%nat -> (q < num_quads f)%nat -> S_at tb dt LS f P fuel u ivs c q = Some (T c q)) by (intros c q Hc Hq; destruct (ALL c q Hc Hq) as (S & ES); unfold T; now rewrite ES).
      intros c Hc. rewrite (U T HT c 2%nat 2%nat Hc), (U' T ltac:(intros c' q' Hc' Hq'; rewrite S_turned by auto; auto) c 2%nat 2%nat Hc).
      assert (J : forall q, get_JxW P f' c q = get_JxW P f c q) by (intros q; destruct SM as (_ & _ & _ & _ & _ & -> & _); destruct SM' as (_ & _ & _ & _ & _ & -> & _); reflexivity).
      f_equal; apply Rsum_ext; intros q Hq; rewrite J; [|reflexivity]. f_equal. exact (sigma_turned _ _ _ _ (PK_turned c q _ Hc Hq (HT c q Hc Hq)) (grad_f c q Hc Hq)).
  Qed.
End Turned.

(** ** the residual turns *)
Section Residual.
  Variables (tb : list (list R)) (dt : R) (LS : tensor -> vect -> vect) (fuel : nat) (s : string) (f0 f : fe Rops) (P u u' : list (list Rops)) (w : R) (ivs ivs' : list (list (nat -> cp_var))).
  Hypothesis B : built_element s 3 f0.
  Hypothesis SM : same_mesh f0 f.
  Hypothesis MESH : mesh_ok f.
  Hypothesis VEC : vec f0 = 3%nat.
  Hypothesis LP : length P = length (points f0).
  Hypothesis LU : length u = length P.
  Hypothesis SP : spun w P u u'.
  Hypothesis AG : agree f ivs ivs'.
  Hypothesis NC : (0 < num_cells f0)%nat.
  Hypothesis NZ : forall c q, (c < num_cells f0)%nat -> (q < num_quads f0)%nat -> get_JxW P f0 c q <> 0.
  Hypothesis VF : forall c q, (c < num_cells f)%nat -> (q < num_quads f)%nat -> vol (def_grad (sol_to_grad P f u c q)) <> 0.
  Hypothesis VN : forall c q S, (c < num_cells f)%nat -> (q < num_quads f)%nat -> S_at tb dt LS f P fuel u ivs c q = Some S ->
    vol (times (kept_Fp ivs c q) (fun i j => ident i j - flow tb dt (kept_g ivs c q) (kept_rot ivs c q) S i j)) <> 0.
  Let p := ss_problem tb LS fuel f dt ivs.
  Let p' := ss_problem tb LS fuel f dt ivs'.
  Lemma vec_f : vec f = 3%nat. Proof. destruct SM as (_ & _ & -> & _). exact VEC. Qed.
  Lemma dim_f : dim f = 3%nat. Proof. destruct SM as (_ & _ & _ & -> & _). exact (dim3 s f0 B). Qed.
  Lemma stress_turned c q k j : (c < num_cells f)%nat -> (q < num_quads f)%nat -> (k < 3)%nat -> (j < 3)%nat -> stress p' f P u' c q k j = sum 3 (fun m => turn w k m * stress p f P u c q m j).
  Proof.
    intros Hc Hq Hk Hj. unfold stress. change (tensor_map (maps p)) with (Some (cp_tensor_map tb dt LS fuel)). change (tensor_map (maps p')) with (Some (cp_tensor_map tb dt LS fuel)).
    assert (EI : iv_at p c q = [ckept ivs 0 c q; ckept ivs 1 c q; ckept ivs 2 c q; ckept ivs 3 c q]) by exact (civ_kept f p ivs c q (proj1 AG) Hc). rewrite EI.
    assert (EI' : iv_at p' c q = [ckept ivs' 0 c q; ckept ivs' 1 c q; ckept ivs' 2 c q; ckept ivs' 3 c q]) by exact (civ_kept f p' ivs' c q (proj1 (proj2 AG)) Hc). rewrite EI'. unfold cp_tensor_map, cp_stress.
    pose proof (S_turned tb dt LS fuel s f0 f f P u u' w ivs ivs' B SM SM LP LU SP AG NZ c q Hc Hq) as ES.
    pose proof (fun S => PK_turned tb dt LS fuel s f0 f f P u u' w ivs ivs' B SM SM LP LU SP AG NZ VF VN c q S Hc Hq) as EP.
    unfold S_at, kept_Fp, kept_g, kept_slip, kept_rot in ES, EP. unfold PK_at, kept_Fp, kept_g, kept_slip, kept_rot in EP. rewrite ES. destruct (solved_S tb dt LS fuel (sol_to_grad P f u c q) _ _ _ _) as [S|]; cbn [option_map].
    - exact (EP S eq_refl k j Hk Hj).
    - rewrite sum3. req. ring.
  Qed.
  Lemma wf_p iv : wf_problem (ss_problem tb LS fuel f dt iv).
  Proof.
    split.
    - intros g [<-|[]]. reflexivity.
    - intros g cell [<-|[]] Hc. destruct (In_nth _ _ [] Hc) as (c & Lc & <-). exact (proj1 (MESH c Lc)).
    - intros g cell n [<-|[]] Hc Hn. destruct (In_nth _ _ [] Hc) as (c & Lc & E). apply (proj2 (MESH c Lc)). now rewrite E.
    - intros b c fc [].
  Qed.
  Lemma nc_p iv : (0 < p_num_cells (ss_problem tb LS fuel f dt iv))%nat. Proof. change (0 < num_cells f)%nat. unfold num_cells in *. destruct SM as (_ & -> & _). exact NC. Qed.
  Lemma std_p iv : standard_problem (ss_problem tb LS fuel f dt iv) f.
  Proof. split; [reflexivity|]. split; [reflexivity|]. split; [reflexivity|]. split; [left; discriminate|reflexivity]. Qed.
  Lemma ivs_p iv : four_arrays f iv -> ivs_ok (ss_problem tb LS fuel f dt iv).
  Proof.
    intros FOUR. split; [|split; [reflexivity|intros a b Ha; cbn in Ha; lia]]. destruct FOUR as (a & b & c & d & E & H1 & H2 & H3 & H4). intros z Hi. change (In z iv) in Hi. rewrite E in Hi. change (length z = num_cells f). destruct Hi as [<-|[<-|[<-|[<-|[]]]]]; assumption.
  Qed.
  Lemma maps_p iv : maps_ok (vec f) (dim f) (maps (ss_problem tb LS fuel f dt iv)). Proof. rewrite vec_f, dim_f. apply cp_maps_ok. Qed.
  Lemma residual_turned : sol_ok p [u] -> sol_ok p' [u'] -> exists r r', compute_residual sqrt p [P] [u] = Ok [r] /\ compute_residual sqrt p' [P] [u'] = Ok [r'] /\
    forall n k, (n < length (points f))%nat -> (k < 3)%nat -> get2 (@zero Rops) r' n k = sum 3 (fun m => turn w k m * get2 (@zero Rops) r n m).
  Proof.
    intros SU SU'. destruct (residual_weak Rops_ring sqrt p f P u (wf_p ivs) (nc_p ivs) (std_p ivs) SU (ivs_p ivs (proj1 AG)) (maps_p ivs)) as (r & E & _ & H). destruct (residual_weak Rops_ring sqrt p' f P u' (wf_p ivs') (nc_p ivs') (std_p ivs') SU' (ivs_p ivs' (proj1 (proj2 AG))) (maps_p ivs')) as (r' & E' & _ & H').
    exists r, r'. split; [exact E|]. split; [exact E'|]. intros n k Hn Hk. rewrite (H' n k Hn ltac:(rewrite vec_f; exact Hk)).
    assert (R0 : forall m, (m < 3)%nat -> get2 (@zero Rops) r n m = sum (p_num_cells p) (fun c => sum (num_nodes f) (fun a => if (cell_node f c a =? n)%nat then volume_term p f P u c a m else @zero Rops))).
    { intros m Hm. rewrite (H n m Hn ltac:(rewrite vec_f; exact Hm)). exact (Rplus_0_r _). }
    etransitivity; [exact (Rplus_0_r _)|]. symmetry. etransitivity; [apply Rsum_ext; intros m Hm; rewrite (R0 m Hm); reflexivity|].
    transitivity (sum 3 (fun m => sum (p_num_cells p) (fun c => turn w k m * sum (num_nodes f) (fun a => if (cell_node f c a =? n)%nat then volume_term p f P u c a m else @zero Rops)))); [apply Rsum_ext; intros m Hm; symmetry; apply Rsum_mul|].
    rewrite Rsum_swap. apply Rsum_ext. intros c Hc. transitivity (sum 3 (fun m => sum (num_nodes f) (fun a => turn w k m * (if (cell_node f c a =? n)%nat then volume_term p f P u c a m else @zero Rops)))); [apply Rsum_ext; intros m Hm; symmetry; apply Rsum_mul|].
    rewrite Rsum_swap. apply Rsum_ext. intros a Ha. destruct (cell_node f c a =? n)%nat; [|rewrite sum3; req; cbn [zero Rops]; ring].
    unfold volume_term. transitivity (sum 3 (fun m => sum (num_quads f) (fun q => turn w k m * ((sum (dim f) (fun j => stress p f P u c q m j * get_shape_grads P f c q a j) + @zero Rops * shape_vals f q a) * get_JxW P f c q)))); [apply Rsum_ext; intros m Hm; symmetry; apply Rsum_mul|].
    rewrite Rsum_swap. apply Rsum_ext. intros q Hq. rewrite dim_f. change (source p' f P u' c q k) with (@zero Rops).
    assert (T : sum 3 (fun j => stress p' f P u' c q k j * get_shape_grads P f c q a j) = sum 3 (fun m => turn w k m * sum 3 (fun j => stress p f P u c q m j * get_shape_grads P f c q a j))).
    { transitivity (sum 3 (fun j => sum 3 (fun m => turn w k m * (stress p f P u c q m j * get_shape_grads P f c q a j)))).
      - apply Rsum_ext. intros j Hj. rewrite (stress_turned c q k j Hc Hq Hk Hj). rewrite !sum3. req. cbn [mul Rops]. ring.
      - rewrite Rsum_swap. apply Rsum_ext. intros m Hm. apply Rsum_mul. }
    symmetry. etransitivity; [exact (f_equal (fun z => (z + @zero Rops * shape_vals f q a) * get_JxW P f c q) T)|]. rewrite !sum3. req. cbn [zero Rops mul]. ring.
  Qed.
  Hypothesis HP : forall n k, (n < length (points f))%nat -> (k < 2)%nat -> prescribed f n k = None -> prescribed f n 0 = None /\ prescribed f n 1 = None.
  Hypothesis HP3 : forall n k, (n < length (points f))%nat -> (3 <= k)%nat -> prescribed f n k = None.
  Lemma solves_turned : sol_ok p' [u'] -> (obeys f u -> obeys f u') -> solves p [P] [u] -> solves p' [P] [u'].
  Proof.
    intros SU' OB (SU & res & E & H). destruct (residual_turned SU SU') as (r & r' & E1 & E2 & T). rewrite E in E1. injection E1 as ->. split; [exact SU'|]. exists [r']. split; [exact E2|].
    change (fes p') with [f]. change (fes p) with [f] in H. change (fe_of p 0) with f in *.
    assert (H0 : forall n j, (n < length (points f))%nat -> (j < 3)%nat -> match prescribed f n j with Some b => get2 (@zero Rops) u n j = b | None => get2 (@zero Rops) r n j = 0 end).
    { intros n j Hn Hj. exact (H 0%nat n j ltac:(cbn; lia) Hn ltac:(change (fe_of p 0) with f; rewrite vec_f; exact Hj)). }
    assert (O : obeys f u').
    { apply OB. intros n k b Hn PR. destruct (lt_dec k 3) as [L|L]; [specialize (H0 n k Hn L); rewrite PR in H0; exact H0|]. rewrite (HP3 n k Hn ltac:(lia)) in PR. discriminate. }
    intros v n j Hv Hn Hj. destruct v as [|v]; [|cbn in Hv; lia]. change (fe_of p' 0) with f in *. rewrite vec_f in Hj. cbn [nth]. destruct (prescribed f n j) as [b|] eqn:PR; [exact (O n j b Hn PR)|].
    rewrite (T n j Hn Hj), sum3. destruct j as [|[|[|j]]]; [| | |lia].
    - destruct (HP n 0%nat Hn ltac:(lia) PR) as (A & A'). pose proof (H0 n 0%nat Hn ltac:(lia)) as X. pose proof (H0 n 1%nat Hn ltac:(lia)) as Y. rewrite A in X. rewrite A' in Y. rewrite X, Y. unfold turn. req. ring.
    - destruct (HP n 1%nat Hn ltac:(lia) PR) as (A & A'). pose proof (H0 n 0%nat Hn ltac:(lia)) as X. pose proof (H0 n 1%nat Hn ltac:(lia)) as Y. rewrite A in X. rewrite A' in Y. rewrite X, Y. unfold turn. req. ring.
    - pose proof (H0 n 2%nat Hn ltac:(lia)) as X. rewrite PR in X. rewrite X. unfold turn. req. ring.
  Qed.
End Residual.
