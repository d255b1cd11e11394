(** Proofs for C83: weak form, uniqueness and energy of a time step. *)
From Coq Require Import String Reals List Arith Lia Lra Bool.
From Verif Require Import Num Arr ArrFacts Fe Problem SpecAssembly ProblemFacts AssemblyFacts FeFacts SpecFe SpecWeak KernelFacts SpecBc SpecEnergy Elastic ElasticFacts LinAlg SpecLinear SpecPosed
  Wave Stokes SpecStokes SpecCoupled CoupledFacts CoupledLinear StokesMain ThermoMech SpecThermoMech.
Import ListNotations.
Local Open Scope R_scope.
Local Notation V := (nat -> nat -> Rops).

Section Form.
  Variables (M : material) (d : nat).
  Definition s_Go (s : point_state (K := Rops) (V := V)) : nat -> nat -> Rops := nth 0 (ivs s) (fun _ _ => 0).
  Definition s_To (s : point_state (K := Rops) (V := V)) (k : nat) : Rops := nth 1 (ivs s) (fun _ _ => 0) k 0%nat.
  Definition s_dt (s : point_state (K := Rops) (V := V)) : R := nth 2 (ivs s) (fun _ _ => 0) 0%nat 0%nat.
  Definition tm_form : coupled_form (K := Rops) (V := V) :=
    mkForm (fun s => thermal_stress M d (grad0 s) (val1 s 0%nat)) (fun _ _ => 0) (fun s k j => k_cond M * grad1 s k j)
      (fun s k => C M / s_dt s * (val1 s k - s_To s k) + kappa M * T0 M * sum_n (K := Rops) d (fun i => (strain (grad0 s) i i - strain (s_Go s) i i) / s_dt s)).
  (** the same without old values *)
  Definition tm_tangent : coupled_form (K := Rops) (V := V) :=
    mkForm (fun s => thermal_stress M d (grad0 s) (val1 s 0%nat)) (fun _ _ => 0) (fun s k j => k_cond M * grad1 s k j)
      (fun s k => C M / s_dt s * val1 s k + kappa M * T0 M * sum_n (K := Rops) d (fun i => strain (grad0 s) i i / s_dt s)).
  Lemma thermal_ext G G' t t' k j : (forall k j, (k < d)%nat -> (j < d)%nat -> G k j = G' k j) -> t = t' -> (k < d)%nat -> (j < d)%nat ->
    thermal_stress M d G t k j = thermal_stress M d G' t' k j.
  Proof.
    intros E -> Hk Hj. unfold thermal_stress, trace. cbv zeta. rewrite (strain_ext d G G' k j) by auto.
    rewrite (sum_n_ext (K := Rops) d (fun m => strain G m m) (fun m => strain G' m m)) by (intros; now apply (strain_ext d)). reflexivity.
  Qed.
  Lemma tm_form_ok m1 d1 : (1 <= m1)%nat -> form_ok d d m1 d1 tm_form.
  Proof.
    intros Hm s t (H1 & H2 & H3 & H4 & H5). unfold tm_form. cbn [flux0 source0 flux1 source1]. repeat split; auto.
    - intros k j Hk Hj. apply thermal_ext; auto.
    - intros k j Hk Hj. now rewrite H3.
    - intros k Hk. unfold s_dt, s_To, s_Go. rewrite H5, H4 by auto. f_equal. f_equal. apply Rsum_ext. intros i Hi. now rewrite (strain_ext d (grad0 s) (grad0 t) i i).
  Qed.
  Lemma tm_form_affine m1 d1 : form_affine d d m1 d1 tm_form tm_tangent.
  Proof.
    intros s e t E. unfold tm_form, tm_tangent, along_state. cbn [flux0 source0 flux1 source1 grad0 val0 grad1 val1]. repeat split; intros; try (cbn; req; ring).
    - unfold thermal_stress. cbv zeta. pose proof (trace_line d (grad0 s) (grad0 e) t) as TL. cbn [add mul Rops] in *. rewrite TL. unfold strain. destruct (k =? j)%nat; req; ring.
    - unfold s_dt, s_To, s_Go. rewrite E. set (Dt := nth 2 (ivs e) _ _ _). set (Go := nth 0 (ivs e) _).
      assert (S : sum_n (K := Rops) d (fun i => (strain (fun k0 j0 => grad0 s k0 j0 + t * grad0 e k0 j0) i i - strain Go i i) / Dt)
        = sum_n (K := Rops) d (fun i => (strain (grad0 s) i i - strain Go i i) / Dt) + t * sum_n (K := Rops) d (fun i => strain (grad0 e) i i / Dt)).
      { rewrite <- Rsum_mul, <- Rsum_plus. apply Rsum_ext. intros i Hi. unfold strain. unfold Rdiv. req; ring. }
      cbn [add mul Rops] in *. refine (eq_trans (f_equal (fun x : R => C M / Dt * (val1 s k + t * val1 e k - nth 1 (ivs e) (fun _ _ => 0) k 0%nat) + kappa M * T0 M * x) S) _). unfold Rdiv. req; ring.
  Qed.
End Form.

(** what set_params leaves in the problem *)
Definition tm_params (p : problem Rops V) (fu fT : fe Rops) (uo wo : list (list Rops)) (dt : R) : Prop :=
  internal_vars p = [map (fun c q => sol_to_grad (points fu) fu uo c q) (seq 0 (num_cells fu));
                     map (fun c q k _ => convert_from_dof_to_quad fT wo c q k) (seq 0 (num_cells fT));
                     map (fun _ _ _ _ => dt) (seq 0 (p_num_cells p))].
Lemma set_params_inv M p fu fT uo wo dt p' : tm_problem M p fu fT -> tm_set_params p uo wo dt = Ok p' ->
  tm_problem M p' fu fT /\ tm_params p' fu fT uo wo dt /\ fes p' = fes p /\ boundary_inds_list p' = boundary_inds_list p.
Proof.
  intros (F & TR) E. unfold tm_set_params in E. assert (PN : p_num_cells p = num_cells fu) by (unfold p_num_cells, fe0; now rewrite F). rewrite F, PN in E. injection E as <-.
  split; [exact (conj eq_refl TR)|]. split; [reflexivity|]. now rewrite F.
Qed.
Lemma nth_error_map_seq {A} (g : nat -> A) n c : (c < n)%nat -> nth_error (map g (seq 0 n)) c = Some (g c).
Proof. intros H. apply map_nth_error. rewrite (nth_error_nth' _ 0%nat) by now rewrite seq_length. now rewrite seq_nth. Qed.

Lemma tm_alg (c t N J b s : R) : c * (t * N * J) + b * (s * N * J) = (c * t + b * s) * N * J.
Proof. ring. Qed.

Section Step.
  Variables (M : material) (p : problem Rops V) (fu fT : fe Rops) (uo wo : list (list Rops)) (dt : R).
  Hypothesis TP : tm_problem M p fu fT.
  Hypothesis PA : tm_params p fu fT uo wo dt.
  Hypothesis WF : wf_problem p.
  Hypothesis NC : (0 < p_num_cells p)%nat.
  Local Notation Pu := (points fu).
  Local Notation PT := (points fT).
  Local Notation zr := (@zero Rops).
  Local Notation F := (tm_form M (dim fu)).
  Local Notation TF := (tm_tangent M (dim fu)).
  Let KR : ring_laws Rops := Rops_ring.
  Lemma t_fes : fes p = [fu; fT]. Proof. apply TP. Qed.
  Lemma t_vu : vec fu = dim fu. Proof. apply TP. Qed.
  Lemma t_vT : vec fT = 1%nat. Proof. apply TP. Qed.
  Lemma t_dT : dim fT = dim fu. Proof. apply TP. Qed.
  Lemma t_q : num_quads fT = num_quads fu. Proof. apply TP. Qed.
  Lemma t_cells : p_num_cells p = num_cells fu. Proof. unfold p_num_cells, fe0. now rewrite t_fes. Qed.
  Lemma t_nce : num_cells fT = num_cells fu.
  Proof. rewrite <- t_cells. apply (wf_cells p WF). rewrite t_fes. right. now left. Qed.
  Lemma t_iv c : (c < p_num_cells p)%nat -> flat_map (fun iv => match nth_error iv c with Some x => [x] | None => [] end) (internal_vars p) =
    [(fun q => sol_to_grad Pu fu uo c q); (fun q k _ => convert_from_dof_to_quad fT wo c q k); (fun _ _ _ => dt)].
  Proof.
    intros Hc. rewrite PA. cbn [flat_map]. rewrite !nth_error_map_seq by (rewrite ?t_nce, <- ?t_cells; auto). reflexivity.
  Qed.
  Lemma t_iv_at c q : (c < p_num_cells p)%nat -> iv_at p c q = [sol_to_grad Pu fu uo c q; (fun k _ => convert_from_dof_to_quad fT wo c q k); (fun _ _ => dt)].
  Proof.
    intros Hc. unfold iv_at. rewrite PA. cbn [flat_map]. rewrite !nth_error_map_seq by (rewrite ?t_nce, <- ?t_cells; auto). reflexivity.
  Qed.
  Lemma tm_len ci : List.length (tm_kernel M (mkProblem [fu; fT] [] (mkMaps None None None None None) [] []) ci) = (num_nodes fu * vec fu + num_nodes fT * vec fT)%nat.
  Proof. unfold tm_kernel. cbv zeta. rewrite app_length. cbn [fes nth]. now rewrite !flat_table_len. Qed.
  Lemma tm_coupled ci c : (c < p_num_cells p)%nat -> ci_iv ci = flat_map (fun iv => match nth_error iv c with Some x => [x] | None => [] end) (internal_vars p) ->
    tm_kernel M (mkProblem [fu; fT] [] (mkMaps None None None None None) [] []) ci = coupled_kernel fu fT F ci.
  Proof.
    intros Hc IV. rewrite t_iv in IV by auto. unfold tm_kernel, coupled_kernel. cbv zeta. cbn [fes nth dof_shapes map]. unfold internal2. rewrite IV.
    f_equal; apply flat_map_ext; intros a; apply map_ext_in; intros k Hk.
    - apply sum_n_ext. intros q _. unfold tm_form. cbn [flux0 source0]. unfold local_state. cbv zeta. cbn [grad0 val1].
      unfold nodes_from, num_nodes_cumsum. cbn [firstn map fold_right fes Nat.add]. cbn [add mul Rops]. req.
      rewrite Rmult_0_l, Rmult_0_l, Rplus_0_r. reflexivity.
    - unfold tm_form. cbn [flux1 source1]. unfold local_state. cbv zeta. cbn [grad0 grad1 val1]. unfold s_dt, s_To, s_Go. cbn [ivs]. rewrite IV. unfold at_quad. cbn [map nth].
      unfold nodes_from, num_nodes_cumsum. cbn [firstn map fold_right fes Nat.add]. rewrite Nat.add_0_r.
      cbn [add mul Rops]. req. rewrite <- !Rsum_mul, <- !Rsum_plus. apply Rsum_ext. intros q Hq. req. rewrite Rplus_comm. f_equal. exact (tm_alg _ _ _ _ _ _).
  Qed.
  Lemma tm_is_coupled : coupled_problem p fu fT F.
  Proof.
    destruct TP as (Ff & Mm & B & S & R). unfold coupled_problem. rewrite Mm. repeat split; auto.
    eexists. split; [reflexivity|]. split; [intros ci; apply tm_len|]. intros ci c Hc E. now apply (tm_coupled ci c).
  Qed.
  Let CP := tm_is_coupled.
  Lemma tm_ok : form_ok (vec fu) (dim fu) (vec fT) (dim fT) F.
  Proof. rewrite t_vu, t_vT. apply tm_form_ok. lia. Qed.
  Lemma tm_affine : form_affine (vec fu) (dim fu) (vec fT) (dim fT) F TF.
  Proof. rewrite t_vu. apply tm_form_affine. Qed.
  Lemma tm_ivs : forall iv, In iv (internal_vars p) -> List.length iv = p_num_cells p.
  Proof. rewrite PA. intros iv [<-|[<-|[<-|[]]]]; rewrite map_length, seq_length, ?t_nce; auto using t_cells; symmetry; apply t_cells. Qed.
  Lemma tm_ivs_ok : ivs_ok p.
  Proof. exact (cp_ivs p fu fT F CP tm_ivs). Qed.
  Lemma tm_kernels kf : kernels_ok p kf.
  Proof.
    split; [exact (proj1 (cp_kernels p fu fT F CP NC))|]. intros s Hs. replace (boundary_inds_list p) with (@nil (list (nat * nat))) in Hs by (symmetry; apply TP). cbn in Hs. lia.
  Qed.

  (** the densities *)
  Lemma thermal_dot G H t : dot2 (K := Rops) (dim fu) (dim fu) (thermal_stress M (dim fu) G t) H
    = dot2 (K := Rops) (dim fu) (dim fu) (elastic_stress (V := unit) (lmbda M) (mu M) (dim fu) G []) H - kappa M * t * trace (dim fu) H.
  Proof.
    unfold dot2, trace. set (d := dim fu).
    transitivity (sum_n (K := Rops) d (fun i => sum_n (K := Rops) d (fun j => elastic_stress (V := unit) (lmbda M) (mu M) d G [] i j * H i j) + - (kappa M * t) * H i i)).
    - apply Rsum_ext. intros i Hi.
      transitivity (sum_n (K := Rops) d (fun j => elastic_stress (V := unit) (lmbda M) (mu M) d G [] i j * H i j + (if (i =? j)%nat then 1 else 0) * (- (kappa M * t) * H i j))).
      + apply Rsum_ext. intros j Hj. unfold thermal_stress, elastic_stress. cbv zeta. cbn. req; ring.
      + rewrite Rsum_plus, Rsum_delta by auto. reflexivity.
    - rewrite Rsum_plus, Rsum_mul. cbn. req; ring.
  Qed.
  Lemma dot1_zero m (B : nat -> Rops) : dot1 (K := Rops) m (fun _ => 0) B = 0.
  Proof. unfold dot1. transitivity (sum_n (K := Rops) m (fun _ => 0 * 0)); [apply Rsum_ext; intros; cbn; req; ring|rewrite Rsum_mul; req; ring]. Qed.
  Lemma mech_density u w v c q :
    add (dot2 (K := Rops) (dim fu) (dim fu) (flux0 F (state_at p fu fT Pu PT u w c q)) (sol_to_grad Pu fu v c q))
        (dot1 (K := Rops) (dim fu) (source0 F (state_at p fu fT Pu PT u w c q)) (convert_from_dof_to_quad fu v c q))
    = dot2 (K := Rops) (dim fu) (dim fu) (elastic_stress (V := unit) (lmbda M) (mu M) (dim fu) (sol_to_grad Pu fu u c q) []) (sol_to_grad Pu fu v c q)
      - kappa M * temperature fT w c q * dilation fu v c q.
  Proof.
    unfold tm_form, state_at. cbn [flux0 source0 grad0 val1]. rewrite dot1_zero. etransitivity; [|apply thermal_dot]. exact (Rplus_0_r _).
  Qed.
  Lemma dot2_scale m d t (A B : nat -> nat -> Rops) : dot2 (K := Rops) m d (fun k j => t * A k j) B = t * dot2 (K := Rops) m d A B.
  Proof.
    unfold dot2. rewrite <- Rsum_mul. apply Rsum_ext. intros k Hk. rewrite <- Rsum_mul. apply Rsum_ext. intros j Hj. cbn. req; ring.
  Qed.
  Lemma trace_rate (G H : nat -> nat -> Rops) : sum_n (K := Rops) (dim fu) (fun i => (strain G i i - strain H i i) / dt) = (trace (dim fu) G - trace (dim fu) H) / dt.
  Proof.
    transitivity (/ dt * sum_n (K := Rops) (dim fu) (fun m => G m m) + - / dt * sum_n (K := Rops) (dim fu) (fun m => H m m)); [|unfold trace, Rdiv; req; ring].
    rewrite <- !Rsum_mul, <- Rsum_plus. apply Rsum_ext. intros i Hi. unfold strain, Rdiv.
    pose proof (Rhalves (G i i)) as A. pose proof (Rhalves (H i i)) as B. cbn [car Rops] in *. rewrite <- A, <- B. req; ring.
  Qed.
  Lemma dot_one (A B : nat -> Rops) : dot1 (K := Rops) 1 A B = A 0%nat * B 0%nat.
  Proof. unfold dot1. cbn. req; ring. Qed.
  Lemma heat_density u w z c q : (c < p_num_cells p)%nat ->
    add (dot2 (K := Rops) 1 (dim fT) (flux1 F (state_at p fu fT Pu PT u w c q)) (sol_to_grad PT fT z c q))
        (dot1 (K := Rops) 1 (source1 F (state_at p fu fT Pu PT u w c q)) (convert_from_dof_to_quad fT z c q))
    = (C M * (temperature fT w c q - temperature fT wo c q) / dt + kappa M * T0 M * (dilation fu u c q - dilation fu uo c q) / dt) * temperature fT z c q
      + k_cond M * dot2 (K := Rops) 1 (dim fT) (sol_to_grad PT fT w c q) (sol_to_grad PT fT z c q).
  Proof.
    intros Hc. unfold tm_form, state_at. cbn [flux1 source1 grad0 grad1 val1]. rewrite dot_one. unfold s_dt, s_To, s_Go. cbn [ivs]. rewrite t_iv_at by auto. cbn [nth].
    rewrite trace_rate. rewrite dot2_scale. unfold temperature, dilation. cbn [add Rops]. unfold Rdiv. req; ring.
  Qed.
  Theorem tm_weak sqrtK u w v z : sol_ok p [u; w] -> sol_ok p [v; z] -> exists r0 r1, compute_residual sqrtK p [Pu; PT] [u; w] = Ok [r0; r1] /\
    work (K := Rops) (List.length Pu) (vec fu) v r0 = mech_work M p fu fT u w v /\ work (K := Rops) (List.length PT) 1 z r1 = heat_work M p fu fT uo wo dt u w z.
  Proof.
    intros SU SV.
    destruct (coupled_residual KR sqrtK p fu fT F Pu PT CP WF NC tm_ok tm_ivs u w SU) as (r0 & r1 & E & _). exists r0, r1. split; [exact E|].
    pose proof (coupled_weak0 KR sqrtK p fu fT F Pu PT CP WF NC tm_ok tm_ivs u w SU v z r0 r1 SV E) as W0.
    pose proof (coupled_weak1 KR sqrtK p fu fT F Pu PT CP WF NC tm_ok tm_ivs u w SU v z r0 r1 SV E) as W1.
    rewrite t_vT in W1. rewrite W0, W1, t_vu. unfold mech_work, heat_work, over_cells. split; apply Rsum_ext; intros c Hc; apply Rsum_ext; intros q _; f_equal.
    - apply mech_density.
    - now apply heat_density.
  Qed.
  Lemma tm_work u w v z : coupled_work (K := Rops) p fu fT Pu PT F u w v z = mech_work M p fu fT u w v + heat_work M p fu fT uo wo dt u w z.
  Proof.
    unfold coupled_work, mech_work, heat_work, over_cells. rewrite t_vT, t_vu. cbn [add Rops]. f_equal; apply Rsum_ext; intros c Hc; apply Rsum_ext; intros q _; f_equal.
    - apply mech_density.
    - now apply heat_density.
  Qed.
  Lemma mech_nil u w N m : mech_work M p fu fT u w (nil_field N m) = 0.
  Proof.
    unfold mech_work. apply over_zero. intros c q Hc Hq. assert (GZ : forall k j, sol_to_grad Pu fu (nil_field N m) c q k j = 0) by (intros; apply zero_grad; intros; apply nil_cell).
    unfold dilation. rewrite <- thermal_dot. unfold dot2. transitivity (sum_n (K := Rops) (dim fu) (fun _ => 0 * 0)); [|rewrite Rsum_mul; req; ring]. apply Rsum_ext. intros k _.
    transitivity (sum_n (K := Rops) (dim fu) (fun _ => 0 * 0)); [|rewrite Rsum_mul; req; ring]. apply Rsum_ext. intros j _. rewrite GZ. cbn; req; ring.
  Qed.
  Lemma dot2_zero_r m d (A B : nat -> nat -> Rops) : (forall k j, (k < m)%nat -> (j < d)%nat -> B k j = 0) -> dot2 (K := Rops) m d A B = 0.
  Proof.
    intros H. unfold dot2. transitivity (sum_n (K := Rops) m (fun _ => 0 * 0)); [|rewrite Rsum_mul; req; ring]. apply Rsum_ext. intros k Hk.
    transitivity (sum_n (K := Rops) d (fun _ => 0 * 0)); [|rewrite Rsum_mul; req; ring]. apply Rsum_ext. intros j Hj. rewrite H by auto. cbn; req; ring.
  Qed.
  Lemma heat_nil u w N m : heat_work M p fu fT uo wo dt u w (nil_field N m) = 0.
  Proof.
    unfold heat_work. apply over_zero. intros c q Hc Hq. unfold temperature at 3. rewrite (zero_val fT) by (intros; apply nil_cell).
    rewrite dot2_zero_r by (intros; apply zero_grad; intros; apply nil_cell). req; ring.
  Qed.
  Lemma tm_fields v z : sol_ok p [v; z] <-> shaped (List.length Pu) (vec fu) v /\ shaped (List.length PT) 1 z.
  Proof. rewrite <- t_vT. exact (c_fields p fu fT F CP NC v z). Qed.
  Theorem tm_solves u w : solves p [Pu; PT] [u; w] <->
    sol_ok p [u; w] /\ meets fu u /\ meets fT w /\
    (forall v, shaped (List.length Pu) (vec fu) v -> held_zero fu v -> mech_work M p fu fT u w v = 0) /\
    (forall z, shaped (List.length PT) 1 z -> held_zero fT z -> heat_work M p fu fT uo wo dt u w z = 0).
  Proof.
    pose proof (solves_weak p fu fT F Pu PT CP WF NC tm_ok tm_ivs u w) as SW. rewrite SW. clear SW. split.
    - intros (SO & H0 & H1 & H). split; [exact SO|]. split; [exact H0|]. split; [exact H1|]. split.
      + intros v Sv Hv. specialize (H v (nil_field (List.length PT) 1)). rewrite tm_work, heat_nil in H.
        refine (eq_trans (eq_sym (Rplus_0_r _)) _). apply H; auto; [apply tm_fields; split; auto; apply fld_shaped|].
        intros n k b Hn Hk _. rewrite t_vT in Hk. now apply nil_get.
      + intros z Sz Hz. specialize (H (nil_field (List.length Pu) (vec fu)) z). rewrite tm_work, mech_nil in H.
        refine (eq_trans (eq_sym (Rplus_0_l _)) _). apply H; auto; [apply tm_fields; split; auto; apply fld_shaped|].
        intros n k b Hn Hk _. now apply nil_get.
    - intros (SO & H0 & H1 & HM & HC). split; [exact SO|]. split; [exact H0|]. split; [exact H1|].
      intros v z SV Hv Hz. apply tm_fields in SV as (Sv & Sz). rewrite tm_work, HM, HC by auto. req; ring.
  Qed.
End Step.
