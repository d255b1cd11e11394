(** Elastic range, energy and load histories, for C90. *)
From Coq Require Import Reals List Arith Lia Lra Bool.
From Verif Require Import Num Arr ArrFacts Fe FeFacts SpecFe Problem SpecAssembly SpecWeak SpecEnergy Elastic ElasticFacts Plasticity SpecPlasticity PlasticityFacts
  Lagrangian SpecLagrangian LagrangianFacts LagrangianMain FinPlast SpecFinPlast FinPlastFacts FinPlastMain.
Import ListNotations.
Local Open Scope R_scope.

(** the elastic strain of a body that never yielded *)
Definition free_b (F : tensor) : tensor := conj3 (shape_of F) ident.
Lemma free_next Fo f F bo : 0 < vol Fo -> 0 < vol f -> f ** Fo == F -> bo == free_b Fo -> conj3 (shape_of f) bo == free_b F.
Proof.
  intros V W H B. eapply s_trans; [apply conj_ext; [apply s_refl|exact B]|]. eapply s_trans; [apply conj_conj|]. apply conj_ext; [|apply s_refl].
  eapply s_trans; [apply s_sym, shape_mul; assumption|]. now apply shape_ext.
Qed.
Lemma free_entries F : free_b F == (fun i j => Rpower (vol F) (- (2 / 3)) * (F ** F^T) i j).
Proof.
  intros i j Hi Hj. unfold free_b, shape_of. rewrite (conj_scale _ F ident i j Hi Hj), rpow2. f_equal. rewrite (conj_mul F ident i j Hi Hj).
  apply (m_l _ _ F^T (m_1r F) i j Hi Hj).
Qed.
Lemma free_rest : free_b eye3 == ident.
Proof.
  intros i j Hi Hj. rewrite (free_entries eye3 i j Hi Hj), vol_1. unfold Rpower. rewrite ln_1, Rmult_0_r, exp_0, Rmult_1_l.
  rewrite (m_1l _ i j Hi Hj). exact (t_1 i j Hi Hj).
Qed.

Section Energy.
  Variable F : tensor.
  Hypothesis V : 0 < vol F.
  Let q0 := sum_n (K := Rops) 3 (fun i => sum_n (K := Rops) 3 (fun j => F i j * F i j)).
  Lemma energy_form : finite_energy F = 82000 * ((vol F * vol F - 1) / 2 - ln (vol F)) + 40000 * (Rpower (vol F) (- (2 / 3)) * q0 - 3).
  Proof.
    unfold finite_energy. fold (free_b F). rewrite (trace_ext 3 _ _ (free_entries F)). unfold q0, trace, mul3, trans3. rewrite !sum3. req. field.
  Qed.
  Lemma free_P (T : tensor) : T == kirchhoff (vol F) (free_b F) -> T ** (inv_mat (K := Rops) 3 F)^T == (fun i j =>
    (82000 * (vol F * vol F - 1) - 80000 * Rpower (vol F) (- (2 / 3)) * q0 / 3) * inv_mat (K := Rops) 3 F j i + 80000 * Rpower (vol F) (- (2 / 3)) * F i j).
  Proof.
    intros HT. eapply s_trans; [apply m_l; exact HT|]. set (r := Rpower (vol F) (- (2 / 3))).
    set (c := 82000 * (vol F * vol F - 1) - 80000 * r * q0 / 3).
    assert (TR : trace 3 (free_b F) = r * q0) by (rewrite (trace_ext 3 _ _ (free_entries F)); unfold q0, trace, mul3, trans3, r; rewrite !sum3; req; ring).
    assert (E : kirchhoff (vol F) (free_b F) == (fun i j => c * eye3 i j + 80000 * r * (F ** F^T) i j)).
    { intros i j Hi Hj. unfold kirchhoff, shear_part. rewrite TR, three, (free_entries F i j Hi Hj). fold r. unfold c, eye3. destruct (i =? j)%nat; req; field. }
    eapply s_trans; [apply m_l; exact E|]. intros i j Hi Hj.
    transitivity (c * (eye3 ** (inv_mat (K := Rops) 3 F)^T) i j + 80000 * r * ((F ** F^T) ** (inv_mat (K := Rops) 3 F)^T) i j).
    - unfold mul3. rewrite !sum3. req; ring.
    - f_equal; [f_equal; exact (m_1l _ i j Hi Hj)|]. f_equal. rewrite (m_assoc F F^T _ i j Hi Hj).
      assert (X : F^T ** (inv_mat (K := Rops) 3 F)^T == eye3).
      { eapply s_trans; [apply s_sym, t_mul|]. eapply s_trans; [apply t_ext, m_inv_l; lra|]. apply t_1. }
      rewrite (m_r F _ _ X i j Hi Hj). exact (m_1r F i j Hi Hj).
  Qed.
  Variable H : tensor.
  Lemma energy_line : derivable_pt_lim (fun t => finite_energy (fun i j => F i j + t * H i j)) 0
    (sum_n (K := Rops) 3 (fun i => sum_n (K := Rops) 3 (fun j =>
      ((82000 * (vol F * vol F - 1) - 80000 * Rpower (vol F) (- (2 / 3)) * q0 / 3) * inv_mat (K := Rops) 3 F j i + 80000 * Rpower (vol F) (- (2 / 3)) * F i j) * H i j))).
  Proof.
    set (d0 := vol F) in *.
    set (d1 := sum_n (K := Rops) 3 (fun i => sum_n (K := Rops) 3 (fun j => cof (K := Rops) 3 F j i * H i j))).
    set (d2 := sum_n (K := Rops) 3 (fun i => sum_n (K := Rops) 3 (fun j => cof (K := Rops) 3 H j i * F i j))).
    set (d3 := det (K := Rops) 3 H).
    set (q1 := sum_n (K := Rops) 3 (fun i => sum_n (K := Rops) 3 (fun j => F i j * H i j))).
    set (q2 := sum_n (K := Rops) 3 (fun i => sum_n (K := Rops) 3 (fun j => H i j * H i j))).
    set (dt := fun t => d0 + (d1 * t + d2 * (t * t) + d3 * (t * (t * t)))). set (qt := fun t => q0 + (2 * q1 * t + q2 * (t * t))).
    assert (DD : derivable_pt_lim dt 0 d1) by apply dlim_cubic.
    assert (D0 : dt 0 = d0) by (unfold dt; ring). assert (Q0 : qt 0 = q0) by (unfold qt; ring).
    assert (DL : derivable_pt_lim (fun t => ln (dt t)) 0 (/ d0 * d1)).
    { apply (derivable_pt_lim_comp dt ln); [exact DD|]. rewrite D0. now apply derivable_pt_lim_ln. }
    assert (DQ : derivable_pt_lim qt 0 (2 * q1)) by apply dlim_quad.
    assert (DR : derivable_pt_lim (fun t => Rpower (dt t) (- (2 / 3))) 0 (- (2 / 3) * Rpower d0 (- (2 / 3) - 1) * d1)).
    { apply (derivable_pt_lim_comp dt (fun x => Rpower x (- (2 / 3)))); [exact DD|]. rewrite D0. now apply derivable_pt_lim_power. }
    apply (dlim_ext _ (fun t => 82000 * ((dt t * dt t + -1) * / 2 + - ln (dt t)) + 40000 * (Rpower (dt t) (- (2 / 3)) * qt t + -3))).
    { intros t. unfold finite_energy. fold (free_b (fun i j => F i j + t * H i j)). rewrite (trace_ext 3 _ _ (free_entries _)).
      assert (EV : vol (fun i j => F i j + t * H i j) = dt t) by exact (det_line F H t). rewrite EV.
      unfold qt, q0, q1, q2, trace, mul3, trans3. rewrite !sum3. req. field. }
    match goal with |- derivable_pt_lim _ _ ?v => replace v with (82000 * (((d1 * dt 0 + dt 0 * d1) + 0) * / 2 + - (/ d0 * d1))
      + 40000 * ((- (2 / 3) * Rpower d0 (- (2 / 3) - 1) * d1 * qt 0 + Rpower (dt 0) (- (2 / 3)) * (2 * q1)) + 0)) end.
    - apply (derivable_pt_lim_plus (fun t => 82000 * ((dt t * dt t + -1) * / 2 + - ln (dt t))) (fun t => 40000 * (Rpower (dt t) (- (2 / 3)) * qt t + -3))).
      + apply (derivable_pt_lim_scal (fun t => (dt t * dt t + -1) * / 2 + - ln (dt t))).
        apply (derivable_pt_lim_plus (fun t => (dt t * dt t + -1) * / 2) (fun t => - ln (dt t))); [|apply (derivable_pt_lim_opp (fun t => ln (dt t))); exact DL].
        apply (dlim_ext _ (fun t => / 2 * (dt t * dt t + -1))); [intros; ring|].
        rewrite (Rmult_comm _ (/ 2)). apply (derivable_pt_lim_scal (fun t => dt t * dt t + -1)).
        apply (derivable_pt_lim_plus (fun t => dt t * dt t) (fun _ => -1)); [|apply derivable_pt_lim_const].
        apply (derivable_pt_lim_mult dt dt); exact DD.
      + apply (derivable_pt_lim_scal (fun t => Rpower (dt t) (- (2 / 3)) * qt t + -3)).
        apply (derivable_pt_lim_plus (fun t => Rpower (dt t) (- (2 / 3)) * qt t) (fun _ => -3)); [|apply derivable_pt_lim_const].
        apply (derivable_pt_lim_mult (fun t => Rpower (dt t) (- (2 / 3))) qt); [exact DR|exact DQ].
    - rewrite D0, Q0. assert (RP : Rpower d0 (- (2 / 3) - 1) = Rpower d0 (- (2 / 3)) * / d0).
      { unfold Rminus. rewrite Rpower_plus, (Rpower_Ropp d0 1), Rpower_1 by exact V. reflexivity. }
      rewrite RP. set (r := Rpower d0 (- (2 / 3))).
      assert (IC : forall i j, inv_mat (K := Rops) 3 F i j = cof (K := Rops) 3 F i j * / d0) by (intros; apply (inv_mat_cof Rops_field)).
      transitivity ((82000 * (d0 * d0 - 1) - 80000 * r * q0 / 3) * (/ d0 * d1) + 80000 * r * q1); [field; lra|].
      unfold q1, d1. rewrite !sum3. rewrite !IC. clearbody q0 r d0. req; ring.
  Qed.
End Energy.
Lemma finite_energy_ext A B : A == B -> finite_energy A = finite_energy B.
Proof.
  intros X. unfold finite_energy. rewrite (vol_ext _ _ X). rewrite (trace_ext 3 _ (conj3 (shape_of B) ident)); [reflexivity|].
  apply conj_ext; [now apply shape_ext|apply s_refl].
Qed.
(** the stress of a body that has not yielded is the gradient of the energy *)
Lemma free_gradient G Fo bo a : vol (def_grad G) > 0 -> snd (return_map G Fo bo a) == kirchhoff (vol (def_grad G)) (free_b (def_grad G)) ->
  gradient2 3 3 (fun H => finite_energy (def_grad H)) G (first_PK_stress Fo bo a G).
Proof.
  intros V T H. pose proof (energy_line (def_grad G) V H) as E. pose proof (free_P (def_grad G) V _ T) as P.
  apply (dlim_ext _ (fun t => finite_energy (fun i j => def_grad G i j + t * H i j))).
  { intros t. unfold def_grad. assert (X : (fun i j => G i j + t * H i j + eye3 i j) == (fun i j => G i j + eye3 i j + t * H i j)) by (intros i j _ _; req; ring).
    exact (finite_energy_ext _ _ X). }
  refine (eq_ind _ (fun w => derivable_pt_lim _ 0 w) E _ _). unfold dot2. apply sum_n_ext. intros i Hi. apply sum_n_ext. intros j Hj.
  apply (f_equal2 Rmult); [|reflexivity]. symmetry. exact (P i j Hi Hj).
Qed.

(** ** rigid motions, volume changes *)
Lemma rigid_step G Fo bo a Q : 0 < vol Fo -> sound_state bo a -> shear_stress bo <= strength a -> rotation Q -> def_grad G == Q ** Fo ->
  snd (fst (return_map G Fo bo a)) = a /\ fst (fst (return_map G Fo bo a)) == conj3 Q bo.
Proof.
  intros V SS A HQ E. assert (W : 0 < vol (def_grad G)) by (rewrite (vol_ext _ _ E), vol_mul, (rot_vol Q HQ); lra).
  assert (SQ : conj3 (shape_of Q) bo == conj3 Q bo).
  { apply conj_ext; [|apply s_refl]. intros i j _ _. unfold shape_of. rewrite (rot_vol Q HQ). unfold Rpower. rewrite ln_1, Rmult_0_r, exp_0. req; ring. }
  destruct (st_elastic G Fo bo Q a V W SS (s_sym _ _ E)) as (H1 & H2).
  - rewrite (shear_stress_ext _ _ SQ), (shear_stress_conj Q bo HQ). exact A.
  - split; [exact H1|]. eapply s_trans; [exact H2|exact SQ].
Qed.
Lemma volume_step G Fo bo a c : 0 < vol Fo -> sound_state bo a -> shear_stress bo <= strength a -> 0 < c -> def_grad G == (fun i j => c * Fo i j) ->
  snd (fst (return_map G Fo bo a)) = a /\ fst (fst (return_map G Fo bo a)) == bo.
Proof.
  intros V SS A C E. assert (W : 0 < vol (def_grad G)) by (rewrite (vol_ext _ _ E), vol_scale; repeat apply Rmult_lt_0_compat; assumption).
  assert (EF : (fun i j => c * eye3 i j) ** Fo == def_grad G).
  { eapply s_trans; [|apply s_sym, E]. intros i j Hi Hj. rewrite <- (m_1l Fo i j Hi Hj). unfold mul3. rewrite !sum3. req; ring. }
  assert (SQ : conj3 (shape_of (fun i j => c * eye3 i j)) bo == bo).
  { eapply s_trans; [|apply conj_1]. apply conj_ext; [|apply s_refl]. eapply s_trans; [apply shape_scale; [exact C|rewrite vol_1; lra]|].
    intros i j _ _. unfold shape_of. rewrite vol_1. unfold Rpower. rewrite ln_1, Rmult_0_r, exp_0. req; ring. }
  destruct (st_elastic G Fo bo _ a V W SS EF) as (H1 & H2).
  - rewrite (shear_stress_ext _ _ SQ). exact A.
  - split; [exact H1|]. eapply s_trans; [exact H2|exact SQ].
Qed.

(** ** load histories *)
Section Loop.
  Variables (f : fe Rops) (P : list (list Rops)) (solve : nat -> problem Rops ul_var -> list (list Rops) -> result (list (list Rops))).
  Definition three_arrays (ivs : list (list (nat -> ul_var))) : Prop :=
    exists Fs bs als, ivs = [Fs; bs; als] /\ length Fs = num_cells f /\ length bs = num_cells f /\ length als = num_cells f.
  Lemma init_arrays ivs : fp_init f = Ok ivs -> dim f = 3%nat /\ three_arrays ivs /\ forall c q, (c < num_cells f)%nat -> kept_F ivs c q = eye3 /\ kept_b ivs c q = eye3 /\ kept_a ivs c q = 0.
  Proof.
    unfold fp_init. destruct (dim f =? 3)%nat eqn:E; [|discriminate]. apply Nat.eqb_eq in E. intros H. injection H as <-. split; [exact E|]. split.
    - do 3 eexists. split; [reflexivity|]. now rewrite !repeat_length.
    - intros c q Hc. unfold kept_F, kept_b, kept_a, kept. cbn [nth].
      assert (N : forall (x : nat -> ul_var), nth c (repeat x (length (cells f))) (fun _ => Scal 0) = x) by (intros x; apply nth_repeat_lt || (rewrite (nth_indep _ _ x) by (rewrite repeat_length; exact Hc); apply nth_repeat)).
      now rewrite !N.
  Qed.
  Lemma unpack_ok Fs bs als : length Fs = num_cells f -> length bs = num_cells f -> length als = num_cells f -> fp_unpack f [Fs; bs; als] = Ok (Fs, bs, als).
  Proof. intros H1 H2 H3. unfold fp_unpack. now rewrite H1, H2, H3, !Nat.eqb_refl. Qed.
  Lemma nth_cells {A} (g : nat -> A) c d : (c < num_cells f)%nat -> nth c (map g (seq 0 (num_cells f))) d = g c.
  Proof. intros H. rewrite (nth_indep _ d (g 0%nat)) by (rewrite map_length, seq_length; exact H). rewrite map_nth, seq_nth by exact H. reflexivity. Qed.
  Lemma update_ok sol ivs : three_arrays ivs -> exists ivs', update_int_vars_gp f P sol ivs = Ok ivs' /\ three_arrays ivs' /\
    forall c q, (c < num_cells f)%nat -> let G := sol_to_grad P f sol c q in
      kept_F ivs' c q = def_grad G /\ kept_b ivs' c q = fst (fst (return_map G (kept_F ivs c q) (kept_b ivs c q) (kept_a ivs c q))) /\
      kept_a ivs' c q = snd (fst (return_map G (kept_F ivs c q) (kept_b ivs c q) (kept_a ivs c q))).
  Proof.
    intros (Fs & bs & als & -> & H1 & H2 & H3). unfold update_int_vars_gp. rewrite (unpack_ok Fs bs als H1 H2 H3). cbn [bind]. eexists. split; [reflexivity|]. split.
    - do 3 eexists. split; [reflexivity|]. now rewrite !map_length, seq_length.
    - intros c q Hc. unfold kept_F, kept_b, kept_a, kept. cbn [nth]. rewrite !nth_cells by exact Hc. cbn [as_tens as_scal]. auto.
  Qed.
  Lemma stress_ok sol ivs : three_arrays ivs -> exists s, compute_stress f P sol ivs = Ok s /\ length s = num_cells f /\
    forall c q, (c < num_cells f)%nat -> nth c s (fun _ _ _ => 0) q = compute_cauchy_stress (kept_F ivs c q) (kept_b ivs c q) (kept_a ivs c q) (sol_to_grad P f sol c q).
  Proof.
    intros (Fs & bs & als & -> & H1 & H2 & H3). unfold compute_stress. rewrite (unpack_ok Fs bs als H1 H2 H3). cbn [bind]. eexists. split; [reflexivity|].
    split; [now rewrite map_length, seq_length|]. intros c q Hc. rewrite nth_cells by exact Hc. reflexivity.
  Qed.
  Lemma iv_kept (p : problem Rops ul_var) ivs c q : three_arrays ivs -> (c < num_cells f)%nat ->
    iv_at (with_vars p ivs) c q = [kept ivs 0 c q; kept ivs 1 c q; kept ivs 2 c q].
  Proof.
    intros (Fs & bs & als & -> & H1 & H2 & H3) Hc. unfold iv_at, kept. cbn [internal_vars with_vars flat_map nth].
    rewrite (nth_error_nth' Fs (fun _ => Scal 0)) by lia. rewrite (nth_error_nth' bs (fun _ => Scal 0)) by lia. rewrite (nth_error_nth' als (fun _ => Scal 0)) by lia. reflexivity.
  Qed.
  Definition no_fp : fp_step := mkFp (mkProblem [] [] fp_maps [] []) [] [] [].
  Lemma loop_spec n : forall k p sol ivs h, three_arrays ivs -> fp_loop f P solve n k p sol ivs = Ok h -> length h = n /\
    forall i, (i < n)%nat -> let before := nth i (ivs :: map fp_vars h) [] in let s := nth i h no_fp in
      three_arrays before /\ three_arrays (fp_vars s) /\ (exists p0, fp_problem s = with_vars p0 before /\ fes p0 = fes p /\ maps p0 = maps p /\ boundary_inds_list p0 = boundary_inds_list p) /\
      solve (k + i)%nat (fp_problem s) (nth i (sol :: map fp_sol h) []) = Ok (fp_sol s) /\
      update_int_vars_gp f P (fp_sol s) before = Ok (fp_vars s) /\ compute_stress f P (fp_sol s) before = Ok (fp_sigmas s).
  Proof.
    induction n as [|n IH]; intros k p sol ivs h T L.
    - injection L as <-. split; [reflexivity|]. intros i Hi. lia.
    - cbn in L. destruct (solve k (with_vars p ivs) sol) as [sol'|e] eqn:ES; [|discriminate]. cbn in L.
      destruct (update_ok sol' ivs T) as (ivs' & EU & T' & _). rewrite EU in L. cbn in L.
      destruct (stress_ok sol' ivs T) as (sg & EG & _). rewrite EG in L. cbn in L.
      destruct (fp_loop f P solve n (Datatypes.S k) (with_vars p ivs) sol' ivs') as [rest|e] eqn:EL; [|discriminate]. injection L as <-.
      destruct (IH _ _ _ _ _ T' EL) as (LN & HI). split; [cbn; f_equal; exact LN|]. intros [|i] Hi.
      + cbn. rewrite Nat.add_0_r. split; [exact T|]. split; [exact T'|]. split; [exists p; auto|]. auto.
      + specialize (HI i ltac:(lia)). cbv zeta in HI. cbv zeta. cbn [map fp_vars fp_sol nth]. replace (k + Datatypes.S i)%nat with (Datatypes.S k + i)%nat by lia.
        exact HI.
  Qed.
  Lemma loop_runs n : forall k p sol ivs, three_arrays ivs -> (forall i p' s, exists s', solve i p' s = Ok s') -> exists h, fp_loop f P solve n k p sol ivs = Ok h.
  Proof.
    induction n as [|n IH]; intros k p sol ivs T A; [now eexists|]. cbn. destruct (A k (with_vars p ivs) sol) as (s & ->). cbn.
    destruct (update_ok s ivs T) as (ivs' & -> & T' & _). cbn. destruct (stress_ok s ivs T) as (sg & -> & _). cbn.
    destruct (IH (Datatypes.S k) (with_vars p ivs) s ivs' T' A) as (h & ->). now eexists.
  Qed.

  (** what is true of the kept state of a point *)
  Definition good (F b : tensor) (a : R) : Prop := 0 < vol F /\ sound_state b a /\ shear_stress b <= strength a /\ (a = 0 -> b == free_b F).
  Lemma good_rest : good eye3 eye3 0.
  Proof.
    split; [rewrite vol_1; lra|]. split; [split; [exact eye_symmetric|split; [exact eye_positive|lra]]|]. split; [|intros _; apply s_sym, free_rest].
    assert (Z : shear_part 3 eye3 == (fun _ _ => 0)) by exact (shear_teye 1).
    unfold shear_stress. rewrite (ddot_ext 3 _ _ _ _ Z Z). unfold ddot. rewrite !sum3. match goal with |- 80000 * sqrt ?x <= _ => replace x with 0 by (req; ring) end.
    rewrite sqrt_0. pose proof (strength_pos 0 (Rle_refl 0)). lra.
  Qed.
  Lemma good_step G F b a : good F b a -> 0 < vol (def_grad G) -> good (def_grad G) (fst (fst (return_map G F b a))) (snd (fst (return_map G F b a))) /\ a <= snd (fst (return_map G F b a)).
  Proof.
    intros (V & SS & A & FR) W. set (q := def_grad G ** inv_mat (K := Rops) 3 F). assert (E : q ** F == def_grad G) by (apply quot_mul; lra).
    pose proof (quot_vol F _ q V W E) as VQ.
    pose proof (st_sound G F b q a V W SS E) as S'. pose proof (st_within G F b q a V W SS E) as W'.
    assert (DIS : (snd (fst (return_map G F b a)) = a /\ fst (fst (return_map G F b a)) == conj3 (shape_of q) b) \/ a < snd (fst (return_map G F b a))).
    { destruct (Rle_lt_dec (shear_stress (conj3 (shape_of q) b)) (strength a)) as [C|C];
        [left; exact (st_elastic G F b q a V W SS E C)|right; exact (proj1 (st_plastic G F b q a V W SS E C))]. }
    split; [|destruct DIS as [(-> & _)|D]; lra]. split; [exact W|]. split; [exact S'|]. split; [exact W'|]. intros Z. destruct DIS as [(E1 & E2)|D].
    - eapply s_trans; [exact E2|]. rewrite E1 in Z. exact (free_next F q (def_grad G) b V VQ E (FR Z)).
    - destruct SS as (_ & _ & A0). lra.
  Qed.
  Lemma loop_good n k p sol ivs h c q : three_arrays ivs -> fp_loop f P solve n k p sol ivs = Ok h -> (c < num_cells f)%nat ->
    good (kept_F ivs c q) (kept_b ivs c q) (kept_a ivs c q) ->
    forall m, (m <= n)%nat -> (forall i, (i < m)%nat -> 0 < vol (def_grad (sol_to_grad P f (fp_sol (nth i h no_fp)) c q))) ->
    let s := nth m (ivs :: map fp_vars h) [] in good (kept_F s c q) (kept_b s c q) (kept_a s c q).
  Proof.
    intros T L Hc G0. destruct (loop_spec n k p sol ivs h T L) as (LN & H). induction m as [|m IH]; intros Hm HV; [exact G0|].
    specialize (IH ltac:(lia) ltac:(intros; apply HV; lia)). cbv zeta in *. destruct (H m ltac:(lia)) as (T1 & T2 & _ & _ & EU & _).
    assert (EN : nth (S m) (ivs :: map fp_vars h) [] = fp_vars (nth m h no_fp)).
    { cbn [nth]. rewrite (nth_indep _ [] (fp_vars no_fp)) by (rewrite map_length; lia). apply map_nth. }
    rewrite EN. destruct (update_ok (fp_sol (nth m h no_fp)) _ T1) as (ivs' & EU' & _ & K). rewrite EU' in EU. injection EU as ->.
    destruct (K c q Hc) as (K1 & K2 & K3). rewrite K1, K2, K3. apply good_step; [exact IH|apply HV; lia].
  Qed.
End Loop.

(** ** the volume of the elastic strain *)
Section Volume.
  Variable b : tensor.
  Hypothesis SB : symmetric 3 b.
  Hypothesis PB : positive b.
  Let D := shear_part 3 b.
  Let m := mean b.
  Let q := ddot 3 D D.
  Lemma sh_sym : D 1%nat 0%nat = D 0%nat 1%nat /\ D 2%nat 0%nat = D 0%nat 2%nat /\ D 2%nat 1%nat = D 1%nat 2%nat.
  Proof. unfold D, shear_part. cbn [Nat.eqb]. rewrite (SB 1%nat 0%nat), (SB 2%nat 0%nat), (SB 2%nat 1%nat) by lia. auto. Qed.
  Lemma sh_tr : D 2%nat 2%nat = - D 0%nat 0%nat - D 1%nat 1%nat.
  Proof. pose proof (shear_trace 3 (Nat.lt_0_succ 2) b) as T. fold D in T. unfold trace in T. rewrite sum3 in T. change (D 0%nat 0%nat + (D 1%nat 1%nat + (D 2%nat 2%nat + 0)) = 0) in T. lra. Qed.
  Lemma vol_line k : vol (fun i j => k * D i j + (if (i =? j)%nat then m else 0)) = m * m * m - / 2 * m * q * (k * k) + k * k * k * vol D.
  Proof.
    rewrite !vol_formula. unfold q, ddot. rewrite !sum3. destruct sh_sym as (S1 & S2 & S3). cbn [Nat.eqb]. rewrite S1, S2, S3, sh_tr. req; field.
  Qed.
  Lemma disc : 9 * (vol D * vol D) <= q * (q * q) / 6.
  Proof.
    set (E := fun i j => (D ** D) i j - (if (i =? j)%nat then q / 3 else 0)).
    assert (DE : ddot 3 D E = 3 * vol D).
    { rewrite vol_formula. unfold ddot, E, q, ddot, mul3. rewrite !sum3. cbn [Nat.eqb]. destruct sh_sym as (S1 & S2 & S3). rewrite S1, S2, S3, sh_tr. req; field. }
    assert (EE : ddot 3 E E = q * q / 6).
    { unfold E, q, ddot, mul3. rewrite !sum3. cbn [Nat.eqb]. destruct sh_sym as (S1 & S2 & S3). rewrite S1, S2, S3, sh_tr. req; field. }
    assert (NN : forall x y, 0 <= x * x * q + 2 * x * y * ddot 3 D E + y * y * ddot 3 E E).
    { intros x y. replace (x * x * q + 2 * x * y * ddot 3 D E + y * y * ddot 3 E E) with (ddot 3 (tcomb x D y E) (tcomb x D y E)); [apply ddot_nonneg|].
      rewrite ddot_comb_l, !ddot_comb_r, (ddot_sym 3 E D). fold q. req; ring. }
    pose proof (ddot_nonneg 3 D) as Q0. fold q in Q0. rewrite DE, EE in NN. specialize (NN (3 * vol D) (- q)).
    destruct (Rle_lt_or_eq_dec _ _ Q0) as [Q1|Q1].
    - apply (Rmult_le_reg_l q); [exact Q1|]. nra.
    - assert (Z : D == (fun _ _ => 0)) by (apply ddot_zero; first [lia|symmetry; exact Q1]). rewrite (vol_ext _ _ Z), <- Q1, vol_formula. lra.
  Qed.
  Lemma q_bound : q <= 6 * (m * m).
  Proof.
    assert (MN : forall x y, (x < 3)%nat -> (y < 3)%nat -> x <> y -> b x y * b x y <= b x x * b y y).
    { intros x y Hx Hy Hxy. assert (DX : 0 < b x x).
      { specialize (PB (fun i => if (i =? x)%nat then 1 else 0)). rewrite !sum3 in PB.
        assert (X : exists i, (i < 3)%nat /\ (if (i =? x)%nat then 1 else 0) <> 0) by (exists x; rewrite Nat.eqb_refl; split; [exact Hx|lra]). specialize (PB X).
        destruct x as [|[|[|x]]]; [| | |lia]; cbn [Nat.eqb] in PB; match type of PB with 0 < ?x => match goal with |- 0 < ?y => replace y with x by (req; ring) end end; exact PB. }
      specialize (PB (fun i => if (i =? x)%nat then b x y else if (i =? y)%nat then - b x x else 0)). rewrite !sum3 in PB.
      assert (X : exists i, (i < 3)%nat /\ (if (i =? x)%nat then b x y else if (i =? y)%nat then - b x x else 0) <> 0).
      { exists y. split; [exact Hy|]. assert (N : (y =? x)%nat = false) by (apply Nat.eqb_neq; congruence). rewrite N, Nat.eqb_refl. lra. }
      specialize (PB X). pose proof (SB x y Hx Hy) as SXY.
      assert (Y : 0 < b x x * (b x x * b y y - b x y * b x y)); [|destruct (Rle_lt_dec (b x y * b x y) (b x x * b y y)); [assumption|nra]].
      destruct x as [|[|[|x]]]; [| | |lia]; (destruct y as [|[|[|y]]]; [| | |lia]); try (exfalso; apply Hxy; reflexivity); cbn [Nat.eqb] in PB; rewrite <- SXY in PB;
      match type of PB with 0 < ?x => match goal with |- 0 < ?y => replace y with x by (req; ring) end end; exact PB. }
    pose proof (MN 0%nat 1%nat ltac:(lia) ltac:(lia) ltac:(lia)) as M1. pose proof (MN 0%nat 2%nat ltac:(lia) ltac:(lia) ltac:(lia)) as M2. pose proof (MN 1%nat 2%nat ltac:(lia) ltac:(lia) ltac:(lia)) as M3.
    assert (E : 6 * (m * m) - q = 2 * (b 0%nat 0%nat * b 1%nat 1%nat - b 0%nat 1%nat * b 0%nat 1%nat + (b 0%nat 0%nat * b 2%nat 2%nat - b 0%nat 2%nat * b 0%nat 2%nat) + (b 1%nat 1%nat * b 2%nat 2%nat - b 1%nat 2%nat * b 1%nat 2%nat))).
    { unfold q, D, m, mean, ddot, shear_part, trace. rewrite three, !sum3. cbn [Nat.eqb]. rewrite (SB 1%nat 0%nat), (SB 2%nat 0%nat), (SB 2%nat 1%nat) by lia. req; field. }
    lra.
  Qed.
  Lemma m_pos : 0 < m. Proof. unfold m, mean. pose proof (positive_trace b PB). lra. Qed.
  Lemma det_bound : 3 * vol D <= m * q.
  Proof.
    pose proof disc as H1. pose proof q_bound as H2. pose proof (ddot_nonneg 3 D) as Q0. fold q in Q0. pose proof m_pos as M0.
    destruct (Rle_lt_dec (3 * vol D) (m * q)) as [H|H]; [exact H|]. exfalso.
    assert (X : (m * q) * (m * q) < (3 * vol D) * (3 * vol D)) by (assert (0 <= m * q) by (apply Rmult_le_pos; lra); nra).
    assert (Y : q * (q * q) / 6 <= (m * q) * (m * q)) by nra. lra.
  Qed.
  Lemma vol_drift k : 0 < k <= 1 -> vol b + (1 - k) * (1 - k) * (1 + 2 * k) * (m * q) / 6 <= vol (fun i j => k * D i j + (if (i =? j)%nat then m else 0)).
  Proof.
    intros K. assert (E : vol b = vol (fun i j => 1 * D i j + (if (i =? j)%nat then m else 0))).
    { apply vol_ext. intros i j _ _. unfold D, shear_part, m, mean. rewrite three. generalize (trace 3 b). generalize (b i j). intros x t. change (car Rops) with R in *. destruct (i =? j)%nat; [change (x = 1 * (x - t / 3) + t / 3)|change (x = 1 * (x - 0) + 0)]; field. }
    rewrite E, !vol_line. pose proof det_bound as DB. pose proof (ddot_nonneg 3 D) as Q0. fold q in Q0. pose proof m_pos as M0. set (dd := vol D) in *. set (mq := m * q) in *.
    assert (MQ : 0 <= mq) by (unfold mq; apply Rmult_le_pos; lra).
    replace (/ 2 * m * q * (k * k)) with (/ 2 * mq * (k * k)) by (unfold mq; ring). replace (/ 2 * m * q * (1 * 1)) with (/ 2 * mq * (1 * 1)) by (unfold mq; ring).
    assert (Z : 0 <= (1 - k * k * k) * (mq / 3 - dd)); [|nra]. apply Rmult_le_pos; [|lra]. assert (k * k <= 1) by nra. nra.
  Qed.
End Volume.
