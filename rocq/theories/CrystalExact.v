(** Exact cases of the local solve of crystal plasticity and a case with slip, for C92 and C93. *)
From Coq Require Import Reals List Arith Lia Lra Bool FunctionalExtensionality.
From Coquelicot Require Derive.
From Verif Require Import Num Arr ArrFacts Fe FeFacts SpecFe Problem SpecAssembly SpecWeak SpecEnergy Elastic ElasticFacts Plasticity SpecPlasticity PlasticityFacts
  Lagrangian SpecLagrangian LagrangianFacts LagrangianMain FinPlast SpecFinPlast FinPlastFacts FinPlastMain CrystalPlast SpecCrystal CrystalFacts CrystalSolve CrystalDeriv CrystalMain.
Import ListNotations.
Local Open Scope R_scope.

(** ** functions flat at 0 *)
Definition flat (f : R -> R) : Prop := derivable_pt_lim f 0 0.
Lemma flat_const c : flat (fun _ => c). Proof. apply derivable_pt_lim_const. Qed.
Lemma flat_plus f g : flat f -> flat g -> flat (fun t => f t + g t).
Proof. intros H H'. pose proof (derivable_pt_lim_plus _ _ _ _ _ H H') as P. rewrite Rplus_0_l in P. exact P. Qed.
Lemma flat_mult f g : flat f -> flat g -> flat (fun t => f t * g t).
Proof. intros H H'. pose proof (derivable_pt_lim_mult _ _ _ _ _ H H') as P. rewrite Rmult_0_l, Rmult_0_r, Rplus_0_l in P. exact P. Qed.
Lemma flat_minus f g : flat f -> flat g -> flat (fun t => f t - g t).
Proof. intros H H'. apply (dlim_ext _ (fun t => f t + (-1) * g t)); [intros; ring|]. apply flat_plus; [exact H|]. apply flat_mult; [apply flat_const|exact H']. Qed.
Lemma flat_sum k (f : nat -> R -> R) : (forall i, (i < k)%nat -> flat (f i)) -> flat (fun t => sum_n (K := Rops) k (fun i => f i t)).
Proof.
  induction k as [|k IH]; intros H; [exact (flat_const 0)|]. apply (dlim_ext _ (fun t => sum_n (K := Rops) k (fun i => f i t) + f k t)); [intros t; exact (sum_n_S Rops_ring k (fun i => f i t))|].
  apply flat_plus; [apply IH; intros i Hi; apply H; lia|apply H; lia].
Qed.
Lemma flat_conj M (B : R -> tensor) : (forall i j, (i < 3)%nat -> (j < 3)%nat -> flat (fun t => B t i j)) -> forall i j, (i < 3)%nat -> (j < 3)%nat -> flat (fun t => conj3 M (B t) i j).
Proof.
  intros HB i j Hi Hj. unfold conj3. apply (flat_sum 3 (fun k t => _)). intros k Hk. apply (flat_sum 3 (fun l t => _)). intros l Hl.
  apply flat_mult; [apply flat_mult; [apply flat_const|now apply HB]|apply flat_const].
Qed.
Lemma flat_mul (A B : R -> tensor) : (forall i j, (i < 3)%nat -> (j < 3)%nat -> flat (fun t => A t i j)) -> (forall i j, (i < 3)%nat -> (j < 3)%nat -> flat (fun t => B t i j)) ->
  forall i j, (i < 3)%nat -> (j < 3)%nat -> flat (fun t => times (A t) (B t) i j).
Proof. intros HA HB i j Hi Hj. unfold times. apply (flat_sum 3 (fun k t => _)). intros k Hk. apply flat_mult; [now apply HA|now apply HB]. Qed.

(** ** the first Jacobian *)
Section First.
  Variables (tb : list (list R)) (dt : R).
  Lemma resolved_line M j s t : resolved tb M (unflatten_fn (fun k => if (k =? j)%nat then t else 0)) s = t * resolved tb M (unflatten_fn (basis j)) s.
  Proof.
    unfold resolved, ddot. assert (E : forall a b, unflatten_fn (fun k => if (k =? j)%nat then t else 0) a b = t * unflatten_fn (basis j) a b).
    { intros a b. unfold unflatten_fn, basis. destruct (3 * a + b =? j)%nat; req; ring. }
    transitivity (sum_n (K := Rops) 3 (fun a => t * sum_n (K := Rops) 3 (fun b => unflatten_fn (basis j) a b * slip_frame tb M s a b))); [|exact (Rsum_mul 3 t _)].
    apply sum_n_ext. intros a _. rewrite <- Rsum_mul. apply sum_n_ext. intros b _. rewrite E. req; ring.
  Qed.
  Lemma flat_slip g M j s : flat (fun t => slip_by dt (resolved tb M (unflatten_fn (fun k => if (k =? j)%nat then t else 0)) s) (g s)).
  Proof.
    set (r := resolved tb M (unflatten_fn (basis j)) s).
    apply (dlim_ext _ (fun t => dt / 1000 * (psi10 (t * r) * (/ g s) ^ 10))); [intros t; rewrite slip_psi, resolved_line; reflexivity|].
    apply flat_mult; [apply flat_const|]. apply flat_mult; [|apply flat_const].
    assert (D : derivable_pt_lim (fun t => t * r) 0 r).
    { pose proof (derivable_pt_lim_mult id (fct_cte r) 0 1 0 (derivable_pt_lim_id 0) (derivable_pt_lim_const r 0)) as P. unfold fct_cte, id in P. replace (1 * r + 0 * 0) with r in P by ring. exact P. }
    pose proof (derivable_pt_lim_comp (fun t => t * r) psi10 0 r (10 * Rabs (0 * r) * (0 * r) ^ 8) D (psi10_deriv (0 * r))) as P.
    replace (10 * Rabs (0 * r) * (0 * r) ^ 8 * r) with 0 in P by (rewrite Rmult_0_l; ring). exact P.
  Qed.
  Lemma flat_law F Fp g M j i' j' : (i' < 3)%nat -> (j' < 3)%nat ->
    flat (fun t => turned_law M (green (lattice tb dt F Fp g M (unflatten_fn (fun k => if (k =? j)%nat then t else 0)))) i' j').
  Proof.
    set (S := fun t => unflatten_fn (fun k => if (k =? j)%nat then t else 0)).
    assert (HL : forall a b, (a < 3)%nat -> (b < 3)%nat -> flat (fun t => lattice tb dt F Fp g M (S t) a b)).
    { unfold lattice. apply (flat_mul (fun _ => F)); [intros; apply flat_const|]. apply (flat_mul (fun _ => Fp)); [intros; apply flat_const|].
      intros a b Ha Hb. apply flat_minus; [apply flat_const|]. unfold flow. apply (flat_sum (length tb) (fun s t => _)). intros s _. apply flat_mult; [apply flat_slip|apply flat_const]. }
    assert (HE : forall a b, (a < 3)%nat -> (b < 3)%nat -> flat (fun t => conj3 (transp M) (green (lattice tb dt F Fp g M (S t))) a b)).
    { apply flat_conj. intros a b Ha Hb. unfold green, Rdiv. apply flat_mult; [|apply flat_const]. apply flat_minus; [|apply flat_const].
      apply (flat_sum 3 (fun k t => _)). intros k Hk. apply flat_mult; now apply HL. }
    revert i' j'. unfold turned_law. apply (flat_conj M (fun t => cubic_law (conj3 (transp M) (green (lattice tb dt F Fp g M (S t)))))).
    intros a b Ha Hb. unfold cubic_law. destruct (a =? b)%nat.
    - apply flat_plus; (apply flat_mult; [apply flat_const|]); [now apply HE|]. unfold trace. apply (flat_sum 3 (fun k t => _)). intros k Hk. now apply HE.
    - apply flat_mult; [apply flat_const|]. apply flat_plus; now apply HE.
  Qed.
  Lemma div_mod9 k : (k < 9)%nat -> (k / 3 < 3)%nat /\ (k mod 3 < 3)%nat /\ (3 * (k / 3) + k mod 3 = k)%nat.
  Proof. intros H. split; [apply Nat.div_lt_upper_bound; lia|]. split; [apply Nat.mod_upper_bound; lia|]. symmetry. apply Nat.div_mod. lia. Qed.
  Lemma jac_zero x : identity9 (jacfwd (implicit_residual tb dt x) (fun _ => 0)).
  Proof.
    intros k j Hk Hj. unfold jacfwd. apply Derive.is_derive_unique, Derive.is_derive_Reals. destruct (div_mod9 k Hk) as (H1 & H2 & H3).
    apply (dlim_ext _ (fun t => unflatten_fn (fun k => if (k =? j)%nat then t else 0) (k / 3)%nat (k mod 3)%nat
       - turned_law (x_rot tb x) (green (lattice tb dt (def_grad (x_u_grad x)) (x_Fp_inv x) (x_g x) (x_rot tb x) (unflatten_fn (fun k => if (k =? j)%nat then t else 0)))) (k / 3)%nat (k mod 3)%nat)).
    - intros t. rewrite residual_gap. unfold ravel9. apply Nat.ltb_lt in Hk. rewrite Hk. reflexivity.
    - assert (D : derivable_pt_lim (fun t => unflatten_fn (fun k => if (k =? j)%nat then t else 0) (k / 3)%nat (k mod 3)%nat) 0 (if (k =? j)%nat then 1 else 0)).
      { unfold unflatten_fn. rewrite H3. destruct (k =? j)%nat; [apply derivable_pt_lim_id|apply derivable_pt_lim_const]. }
      pose proof (derivable_pt_lim_minus _ _ 0 _ 0 D (flat_law (def_grad (x_u_grad x)) (x_Fp_inv x) (x_g x) (x_rot tb x) j _ _ H1 H2)) as P. rewrite Rminus_0_r in P. exact P.
  Qed.
  Lemma identity_apply A u k : identity9 A -> (k < 9)%nat -> apply9 A u k = u k.
  Proof.
    intros H Hk. unfold apply9. transitivity (sum_n (K := Rops) 9 (fun j => basis k j * u j)); [|now apply sum_basis]. apply sum_n_ext. intros j Hj. rewrite (H k j Hk Hj). unfold basis. rewrite Nat.eqb_sym. reflexivity.
  Qed.
  Lemma identity_regular A : identity9 A -> regular9 A.
  Proof. intros H u Z k Hk. rewrite <- (identity_apply A u k H Hk). now apply Z. Qed.

  (** ** no stress *)
  Definition no_stress : tensor := fun _ _ => 0.
  Lemma flow_zero g M S : S == no_stress -> flow tb dt g M S == no_stress.
  Proof. intros H. apply slip_none. intros s _. now apply resolved_zero. Qed.
  Lemma keep_Fp Fp g M S : flow tb dt g M S == no_stress -> times Fp (fun i j => ident i j - flow tb dt g M S i j) == Fp.
  Proof.
    intros H. rewrite times_mul. eapply s_trans; [apply m_r|apply m_1r]. intros i j Hi Hj. rewrite (H i j Hi Hj). unfold no_stress. change (ident i j) with (eye3 i j). req; ring.
  Qed.
  Lemma lattice_elastic F Fp g M S : flow tb dt g M S == no_stress -> lattice tb dt F Fp g M S == times F Fp.
  Proof. intros H. unfold lattice. apply m_r. exact (keep_Fp Fp g M S H). Qed.
  Lemma green_rot A : rotation A -> green A == no_stress.
  Proof. intros H i j Hi Hj. rewrite (green_mul A i j Hi Hj), (rot_l A H i j Hi Hj). unfold no_stress. req; lra. Qed.
  Lemma turned_zero M E : E == no_stress -> turned_law M E == no_stress.
  Proof.
    intros H. eapply s_trans; [apply turned_ext; [apply s_refl|exact H]|]. intros i j _ _. unfold turned_law, conj3, no_stress. rewrite !sum3.
    assert (Z : forall a b, cubic_law (fun i j => sum_n (K := Rops) 3 (fun k => sum_n (K := Rops) 3 (fun l => transp M i k * 0 * transp M j l))) a b = 0).
    { intros a b. unfold cubic_law, trace. rewrite !sum3. destruct (a =? b)%nat; req; ring. }
    rewrite !Z. req; ring.
  Qed.
  Lemma rotation_ext A B : A == B -> rotation A -> rotation B.
  Proof.
    intros H (V & O). split; [change (vol B = 1); rewrite <- (vol_ext _ _ H); exact V|]. intros i j Hi Hj. etransitivity; [|exact (O i j Hi Hj)].
    rewrite !sum3. rewrite !(H i), !(H j) by lia. reflexivity.
  Qed.
  Lemma gap_unloaded F Fp g M : rotation (times F Fp) -> law_gap tb dt F Fp g M no_stress == no_stress.
  Proof.
    intros H i j Hi Hj. unfold law_gap. rewrite turned_zero; [unfold no_stress; req; ring| |exact Hi|exact Hj].
    eapply s_trans; [apply green_ext, lattice_elastic, flow_zero, s_refl|]. now apply green_rot.
  Qed.
  Variable LS : tensor -> vect -> vect.
  Lemma tol_pos : 0 < tol. Proof. unfold tol. apply Rinv_0_lt_compat, pow_lt. lra. Qed.
  Lemma unloaded fuel G Fp g sl M : rotation (times (def_grad G) Fp) -> solved_S tb dt LS fuel G Fp g sl M = Some no_stress.
  Proof.
    intros H. unfold solved_S, newton_solver.
    pose proof (loop_found LS (implicit_residual tb dt (ravel_params tb G Fp g sl M)) 0 fuel 0) as L. cbn [iter Nat.add] in L. cbv zeta. rewrite L; [reflexivity|intros; lia| |lia].
    cbn [iter Nat.add]. rewrite residual_params, norm9_size. change (unflatten_fn (fun _ => 0)) with no_stress. rewrite (size_zero _ (gap_unloaded _ _ g M H)). pose proof tol_pos. lra.
  Qed.
  Lemma pk_zero G Fp g sl M S : S == no_stress -> vol (def_grad G) <> 0 -> vol Fp <> 0 -> PK_of tb dt G Fp g sl M S == no_stress.
  Proof.
    intros H V W. pose proof (keep_Fp Fp g M S (flow_zero g M S H)) as K.
    assert (W' : vol (times Fp (fun i j => ident i j - flow tb dt g M S i j)) <> 0) by (rewrite (vol_ext _ _ K); exact W).
    apply (pk_cancel _ _ (def_grad G) V). intros i j Hi Hj. apply (Rmult_eq_reg_l (vol (times Fp (fun i j => ident i j - flow tb dt g M S i j)))); [|exact W'].
    etransitivity; [exact (pk_form tb dt G Fp g sl M S V W' i j Hi Hj)|]. rewrite (conj_ext _ _ _ _ (s_refl _) H i j Hi Hj).
    unfold conj3, mul3, no_stress. generalize (lattice tb dt (def_grad G) Fp g M S). intros A. rewrite !sum3. req; ring.
  Qed.

  (** ** equal stretch in all directions *)
  Section Volume.
    Variables (c : R) (G Fp : tensor) (g sl : vect) (M : tensor).
    Hypothesis HG : def_grad G == (fun i j => c * ident i j).
    Hypothesis HFp : Fp == ident.
    Hypothesis HM : rotation M.
    Hypothesis HT : in_plane tb.
    Let p := 205600 * (c * c - 1).
    Definition pressure : tensor := fun i j => p * ident i j.
    Lemma pressure_slip s : (s < length tb)%nat -> resolved tb M pressure s = 0.
    Proof.
      intros Hs. transitivity (p * trace 3 (slip_frame tb M s)); [|rewrite (frame_trace tb M s HM HT Hs); ring].
      unfold resolved, ddot, trace, pressure, ident. rewrite !sum3. cbn [Nat.eqb]. req; ring.
    Qed.
    Lemma flow_pressure : flow tb dt g M pressure == no_stress.
    Proof. apply slip_none, pressure_slip. Qed.
    Lemma turned_ident E a : E == (fun i j => a * ident i j) -> turned_law M E == (fun i j => 411200 * a * ident i j).
    Proof.
      intros H. eapply s_trans; [apply turned_ext; [apply s_refl|exact H]|]. unfold turned_law.
      assert (R1 : forall Q b, rotation Q -> conj3 Q (fun i j => b * ident i j) == (fun i j => b * ident i j)).
      { intros Q b HQ i j Hi Hj. transitivity (b * conj3 Q eye3 i j); [|rewrite (conj_eye Q HQ i j Hi Hj); reflexivity]. unfold conj3. change ident with eye3. generalize eye3. intros B. rewrite !sum3. req; ring. }
      eapply s_trans; [apply conj_ext; [apply s_refl|]|exact (R1 M (411200 * a) HM)].
      eapply s_trans; [apply cubic_ext, R1, transp_rot, HM|]. intros i j Hi Hj. unfold cubic_law, trace. rewrite !sum3. revert i Hi. apply three_cases; revert j Hj; apply three_cases; unfold ident; cbn [Nat.eqb]; req; ring.
    Qed.
    Lemma green_scaled A : A == (fun i j => c * ident i j) -> green A == (fun i j => (c * c - 1) / 2 * ident i j).
    Proof.
      intros H. eapply s_trans; [apply green_ext, H|]. intros i j Hi Hj. unfold green. rewrite !sum3. revert i Hi. apply three_cases; revert j Hj; apply three_cases; unfold ident; cbn [Nat.eqb]; req; field.
    Qed.
    Lemma law_pressure S : flow tb dt g M S == no_stress -> turned_law M (green (lattice tb dt (def_grad G) Fp g M S)) == pressure.
    Proof.
      intros H. eapply s_trans; [apply turned_ident, green_scaled|].
      - eapply s_trans; [apply lattice_elastic, H|]. rewrite times_mul. eapply s_trans; [apply m_ext; [exact HG|exact HFp]|]. apply m_1r.
      - intros i j _ _. unfold pressure, p. req; field.
    Qed.
    Lemma gap_pressure : law_gap tb dt (def_grad G) Fp g M pressure == no_stress.
    Proof. intros i j Hi Hj. unfold law_gap. rewrite (law_pressure _ flow_pressure i j Hi Hj). unfold no_stress. req; ring. Qed.
    Lemma pressure_solved fuel : (forall A, identity9 A -> exact_on LS A) -> exists S, solved_S tb dt LS (Datatypes.S fuel) G Fp g sl M = Some S /\ (S == pressure \/ (S == no_stress /\ Rabs p <= / 10 ^ 8)).
    Proof.
      intros HL. set (x := ravel_params tb G Fp g sl M). set (fr := implicit_residual tb dt x).
      assert (F0 : fr (fun _ => 0) = ravel9 (fun i j => - pressure i j)).
      { unfold fr, x. rewrite residual_params. apply ravel_ext. intros i j Hi Hj. change (unflatten_fn (fun _ => 0)) with no_stress. unfold law_gap.
        rewrite (law_pressure no_stress (flow_zero g M _ (s_refl _)) i j Hi Hj). unfold no_stress. req; ring. }
      unfold solved_S, newton_solver. fold x. fold fr. destruct (Rlt_dec tol (norm9 (fr (fun _ => 0)))) as [T|T].
      - pose (d := LS (jacfwd fr (fun _ => 0)) (fun k => - fr (fun _ => 0) k)).
        assert (D : unflatten_fn d == pressure).
        { intros i j Hi Hj. unfold unflatten_fn. pose proof (jac_zero x) as I. pose proof (HL _ I (fun k => - fr (fun _ => 0) k) (3 * i + j)%nat ltac:(lia)) as E.
          rewrite (identity_apply _ _ _ I) in E by lia. etransitivity; [exact E|]. rewrite F0, ravel_entry by assumption. req; ring. }
        assert (ZR : forall y, unflatten_fn y == pressure -> norm9 (fr y) = 0).
        { intros y Hy. unfold fr, x. rewrite residual_params, norm9_size. apply size_zero. eapply s_trans; [apply gap_ext; [apply s_refl|apply s_refl|reflexivity|apply s_refl|exact Hy]|]. exact gap_pressure. }
        assert (DH : unflatten_fn (half_step (fun _ => 0) d 0) == pressure).
        { intros i j Hi Hj. rewrite <- (D i j Hi Hj). unfold half_step, unflatten_fn. cbn [pow]. req; field. }
        destruct (body_spec LS fr (fun _ => 0)) as (k & Hk & EN & _ & B & _). fold d in EN, B.
        assert (k = 0)%nat. { destruct k; [reflexivity|]. specialize (B 0%nat ltac:(lia)). rewrite (ZR _ DH) in B. pose proof tol_pos. lra. }
        subst k. exists (unflatten_fn (iter LS fr 1)). split; [|left; cbn [iter]; rewrite EN; exact DH].
        pose proof (loop_found LS fr 1 (Datatypes.S fuel) 0) as L. change (iter LS fr 0) with (fun _ : nat => 0) in L. change (0 + 1)%nat with 1%nat in L. cbv zeta. rewrite L; [reflexivity| | |lia].
        + intros j Hj. replace (0 + j)%nat with 0%nat by lia. exact T.
        + cbn [iter Nat.add]. rewrite EN, (ZR _ DH). pose proof tol_pos. lra.
      - exists no_stress. split; [|right; split; [apply s_refl|]].
        + pose proof (loop_found LS fr 0 (Datatypes.S fuel) 0) as L. cbn [iter Nat.add] in L. cbv zeta. rewrite L; [reflexivity|intros; lia| |lia]. cbn [iter Nat.add]. lra.
        + rewrite F0, norm9_size in T. pose proof (entry_size (fun i j => - pressure i j) 0 0 ltac:(lia) ltac:(lia)) as E. cbv beta in E. rewrite Rabs_Ropp in E.
          unfold pressure at 1, ident in E. cbn [Nat.eqb] in E. rewrite Rmult_1_r in E. unfold tol in T. lra.
    Qed.
  End Volume.

  (** ** the derivative rule *)
  Lemma jvp_right x y cx cy v w (eps : posreal) : (forall s, (s < length tb)%nat -> x_g x s <> 0) -> cx 0 = x -> cy 0 = y ->
    (forall k, (k < num_params tb)%nat -> derivable_pt_lim (fun t => cx t k) 0 (v k)) -> (forall k, (k < 9)%nat -> derivable_pt_lim (fun t => cy t k) 0 (w k)) ->
    (forall t k, Rabs t < eps -> (k < 9)%nat -> implicit_residual tb dt (cx t) (cy t) k = 0) ->
    regular9 (jacfwd (implicit_residual tb dt x) y) -> exact_on LS (jacfwd (implicit_residual tb dt x) y) -> forall k, (k < 9)%nat -> f_jvp tb dt LS x v y k = w k.
  Proof.
    intros G0 C1 C2 D1 D2 Z RG EX k Hk. pose proof (implicit_velocity tb dt x y G0 cx cy v w C1 C2 D1 D2 eps Z) as IV.
    assert (E : forall k, (k < 9)%nat -> f_jvp tb dt LS x v y k - w k = 0); [|specialize (E k Hk); lra].
    apply RG. intros i Hi. transitivity (apply9 (jacfwd (implicit_residual tb dt x) y) (f_jvp tb dt LS x v y) i - apply9 (jacfwd (implicit_residual tb dt x) y) w i).
    - unfold apply9. transitivity (sum_n (K := Rops) 9 (fun j => jacfwd (implicit_residual tb dt x) y i j * f_jvp tb dt LS x v y j) + (-1) * sum_n (K := Rops) 9 (fun j => jacfwd (implicit_residual tb dt x) y i j * w j)); [|ring].
      rewrite <- Rsum_mul, <- Rsum_plus. apply sum_n_ext. intros j _. req; ring.
    - assert (A1 : apply9 (jacfwd (implicit_residual tb dt x) y) w i = - sum_n (K := Rops) (num_params tb) (fun j => jacfwd (fun x' => implicit_residual tb dt x' y) x i j * v j)) by exact (IV i Hi).
      assert (A2 : apply9 (jacfwd (implicit_residual tb dt x) y) (f_jvp tb dt LS x v y) i = - sum_n (K := Rops) (num_params tb) (fun j => jacfwd (fun x' => implicit_residual tb dt x' y) x i j * v j)) by exact (EX _ i Hi).
      rewrite A1, A2. ring.
  Qed.
End First.

(** ** the Jacobian as the slopes of the gap *)
Section Slopes.
  Variables (tb : list (list R)) (dt : R) (G Fp : tensor) (g sl : vect) (M : tensor).
  Let fr := implicit_residual tb dt (ravel_params tb G Fp g sl M).
  Lemma upd_put (y : vect) j t : (j < 9)%nat -> unflatten_fn (fun k => if (k =? j)%nat then t else y k) == put (unflatten_fn y) (j / 3) (j mod 3) t.
  Proof.
    intros Hj a b Ha Hb. destruct (div_mod9 j Hj) as (_ & _ & H3). unfold unflatten_fn, put. destruct ((a =? j / 3) && (b =? j mod 3))%nat eqn:E.
    - apply andb_true_iff in E as (E1 & E2). apply Nat.eqb_eq in E1, E2. subst a b. now rewrite H3, Nat.eqb_refl.
    - destruct (3 * a + b =? j)%nat eqn:E'; [|reflexivity]. apply Nat.eqb_eq in E'. exfalso. destruct (div_mod3 a b Hb) as (D1 & D2). rewrite E' in D1, D2. rewrite D1, D2, !Nat.eqb_refl in E. discriminate.
  Qed.
  Lemma jac_matrix y : jacfwd fr y = gap_matrix tb dt (def_grad G) Fp g M (unflatten_fn y).
  Proof.
    apply functional_extensionality. intros k. apply functional_extensionality. intros j. unfold jacfwd, gap_matrix.
    destruct (k <? 9)%nat eqn:Ek; cbn [andb].
    - pose proof Ek as Hk. apply Nat.ltb_lt in Hk. destruct (div_mod9 k Hk) as (K1 & K2 & K3). destruct (j <? 9)%nat eqn:Ej.
      + apply Nat.ltb_lt in Ej. destruct (div_mod9 j Ej) as (_ & _ & J3). unfold gap_slope.
        replace (unflatten_fn y (j / 3)%nat (j mod 3)%nat) with (y j) by (unfold unflatten_fn; now rewrite J3). apply Derive.Derive_ext. intros t. unfold fr. rewrite residual_params. unfold ravel9. rewrite Ek.
        apply gap_ext; [apply s_refl|apply s_refl|reflexivity|apply s_refl|now apply upd_put|exact K1|exact K2].
      + apply Nat.ltb_ge in Ej. rewrite (Derive.Derive_ext _ (fun _ => fr y k)); [apply Derive.Derive_const|]. intros t. unfold fr. rewrite !residual_params. unfold ravel9. rewrite Ek.
        apply gap_ext; [apply s_refl|apply s_refl|reflexivity|apply s_refl| |exact K1|exact K2]. intros a b Ha Hb. unfold unflatten_fn. destruct (3 * a + b =? j)%nat eqn:E; [apply Nat.eqb_eq in E; lia|reflexivity].
    - rewrite (Derive.Derive_ext _ (fun _ => 0)); [apply Derive.Derive_const|]. intros t. unfold fr. rewrite residual_params. unfold ravel9. now rewrite Ek.
  Qed.
  Lemma matrix_sum S u i j : (i < 3)%nat -> (j < 3)%nat -> apply9 (gap_matrix tb dt (def_grad G) Fp g M S) u (3 * i + j) =
    sum_n (K := Rops) 3 (fun a => sum_n (K := Rops) 3 (fun b => gap_slope tb dt (def_grad G) Fp g M S i j a b * unflatten_fn u a b)).
  Proof.
    intros Hi Hj. unfold apply9, gap_matrix, unflatten_fn. assert (E : (3 * i + j <? 9)%nat = true) by (apply Nat.ltb_lt; lia). rewrite E. destruct (div_mod3 i j Hj) as (-> & ->).
    rewrite sum9, !sum3. cbn [Nat.ltb Nat.leb Nat.div Nat.divmod Nat.modulo Nat.mul Nat.add Nat.sub fst snd andb]. req; ring.
  Qed.
  (** the sequence of the local solve *)
  Variable LS : tensor -> vect -> vect.
  Let gap := law_gap tb dt (def_grad G) Fp g M.
  Definition trial (m : nat) : tensor := unflatten_fn (iter LS fr m).
  Lemma fr_gap y : norm9 (fr y) = size3 (gap (unflatten_fn y)).
  Proof. unfold fr. rewrite residual_params. apply norm9_size. Qed.
  Lemma trial_next m : exists k (d : tensor), (k <= 4)%nat /\ trial (Datatypes.S m) = (fun i j => trial m i j + / 2 ^ k * d i j) /\
    (exact_on LS (gap_matrix tb dt (def_grad G) Fp g M (trial m)) -> forall i j, (i < 3)%nat -> (j < 3)%nat ->
      sum_n (K := Rops) 3 (fun a => sum_n (K := Rops) 3 (fun b => gap_slope tb dt (def_grad G) Fp g M (trial m) i j a b * d a b)) = - gap (trial m) i j) /\
    (forall l, (l < k)%nat -> size3 (gap (trial m)) <= size3 (gap (fun i j => trial m i j + / 2 ^ l * d i j))) /\ (k = 4%nat \/ size3 (gap (trial (Datatypes.S m))) < size3 (gap (trial m))).
  Proof.
    destruct (body_spec LS fr (iter LS fr m)) as (k & Hk & EN & _ & B & D). set (y := iter LS fr m) in *. set (d := LS (jacfwd fr y) (fun k => - fr y k)) in *.
    exists k, (unflatten_fn d). split; [exact Hk|]. split; [unfold trial; cbn [iter]; fold y; rewrite EN; reflexivity|]. split; [|split].
    - intros EX i j Hi Hj. unfold trial. fold y. rewrite <- (matrix_sum (unflatten_fn y) d i j Hi Hj). unfold trial in EX. fold y in EX. unfold d. rewrite (jac_matrix y).
      rewrite (EX _ (3 * i + j)%nat) by lia. unfold fr. rewrite residual_params, ravel_entry by assumption. reflexivity.
    - intros l Hl. specialize (B l Hl). rewrite !fr_gap in B. exact B.
    - unfold trial. cbn [iter]. fold y. rewrite <- !fr_gap. exact D.
  Qed.
  Lemma trial_found fuel m : (m <= fuel)%nat -> (forall j, (j < m)%nat -> / 10 ^ 8 < size3 (gap (trial j))) -> size3 (gap (trial m)) <= / 10 ^ 8 -> solved_S tb dt LS fuel G Fp g sl M = Some (trial m).
  Proof.
    intros Hm H1 H2. unfold solved_S, newton_solver. fold fr. pose proof (loop_found LS fr m fuel 0) as L. cbn [iter Nat.add] in L. cbv zeta. rewrite L; [reflexivity| | |exact Hm].
    - intros j Hj. rewrite fr_gap. now apply H1.
    - now rewrite fr_gap.
  Qed.
  Lemma trial_running fuel : (forall j, (j <= fuel)%nat -> / 10 ^ 8 < size3 (gap (trial j))) -> solved_S tb dt LS fuel G Fp g sl M = None.
  Proof.
    intros H1. unfold solved_S, newton_solver. fold fr. pose proof (loop_running LS fr fuel 0) as L. cbn [iter Nat.add] in L. cbv zeta. rewrite L; [reflexivity|]. intros j Hj. rewrite fr_gap. now apply H1.
  Qed.
  Lemma solved_gap fuel S : solved_S tb dt LS fuel G Fp g sl M = Some S -> size3 (gap S) <= / 10 ^ 8.
  Proof.
    unfold solved_S, newton_solver. cbv zeta. match goal with |- context [newton_loop ?a ?b ?c ?d] => destruct (newton_loop a b c d) as [y|] eqn:E end; cbn [option_map]; intros H; [|discriminate H]. injection H as <-.
    apply loop_tol in E. change (norm9 (fr y) <= tol) in E. rewrite fr_gap in E. exact E.
  Qed.
End Slopes.
Lemma loop_more LS f k : forall fuel st y, newton_loop LS f fuel st = Some y -> newton_loop LS f (fuel + k) st = Some y.
Proof.
  induction fuel as [|fuel IH]; intros st y; cbn [Nat.add newton_loop].
  - destruct (Rlt_dec tol (norm9 (fst st))) as [T|T]; [discriminate|]. intros E. destruct k; cbn [newton_loop]; (destruct (Rlt_dec tol (norm9 (fst st))); [contradiction|exact E]).
  - destruct (Rlt_dec tol (norm9 (fst st))); [apply IH|auto].
Qed.
Lemma solved_more tb dt LS fuel k G Fp g sl M S : solved_S tb dt LS fuel G Fp g sl M = Some S -> solved_S tb dt LS (fuel + k) G Fp g sl M = Some S.
Proof.
  unfold solved_S, newton_solver. cbv zeta. match goal with |- context [newton_loop ?a ?b fuel ?d] => destruct (newton_loop a b fuel d) as [y|] eqn:E end; cbn [option_map]; intros H; [|discriminate H]. rewrite (loop_more _ _ k _ _ _ E). exact H.
Qed.

(** ** the tangent along curves of data *)
Section Curves.
  Variables (tb : list (list R)) (dt : R) (LS : tensor -> vect -> vect) (G Fp M S : R -> tensor) (g sl : R -> vect) (G' Fp' M' S' : tensor) (g' sl' : vect).
  Hypothesis HG : forall i j, (i < 3)%nat -> (j < 3)%nat -> derivable_pt_lim (fun t => G t i j) 0 (G' i j).
  Hypothesis HFp : forall i j, (i < 3)%nat -> (j < 3)%nat -> derivable_pt_lim (fun t => Fp t i j) 0 (Fp' i j).
  Hypothesis HM : forall i j, (i < 3)%nat -> (j < 3)%nat -> derivable_pt_lim (fun t => M t i j) 0 (M' i j).
  Hypothesis HS : forall i j, (i < 3)%nat -> (j < 3)%nat -> derivable_pt_lim (fun t => S t i j) 0 (S' i j).
  Hypothesis Hg : forall s, (s < length tb)%nat -> derivable_pt_lim (fun t => g t s) 0 (g' s).
  Hypothesis Hsl : forall s, (s < length tb)%nat -> derivable_pt_lim (fun t => sl t s) 0 (sl' s).
  Lemma ravel_deriv (T : R -> tensor) (T' : tensor) : (forall i j, (i < 3)%nat -> (j < 3)%nat -> derivable_pt_lim (fun t => T t i j) 0 (T' i j)) -> forall k, derivable_pt_lim (fun t => ravel9 (T t) k) 0 (ravel9 T' k).
  Proof.
    intros H k. unfold ravel9. destruct (k <? 9)%nat eqn:E; [|apply derivable_pt_lim_const]. apply Nat.ltb_lt in E. destruct (div_mod9 k E) as (H1 & H2 & _). now apply H.
  Qed.
  Lemma params_deriv k : derivable_pt_lim (fun t => ravel_params tb (G t) (Fp t) (g t) (sl t) (M t) k) 0 (ravel_params tb G' Fp' g' sl' M' k).
  Proof.
    unfold ravel_params. cbv zeta. destruct (k <? 9)%nat; [now apply ravel_deriv|]. destruct (k <? 18)%nat eqn:E18; [now apply ravel_deriv|]. apply Nat.ltb_ge in E18.
    destruct (k <? 18 + num_slip_sys tb)%nat eqn:E1; [apply Nat.ltb_lt in E1; apply Hg; unfold num_slip_sys in E1; lia|]. apply Nat.ltb_ge in E1.
    destruct (k <? 18 + num_slip_sys tb + num_slip_sys tb)%nat eqn:E2; [apply Nat.ltb_lt in E2; apply Hsl; unfold num_slip_sys in *; lia|]. now apply ravel_deriv.
  Qed.
  Lemma tangent_right (y : vect) (eps : posreal) : unflatten_fn y == S 0 -> (forall s, (s < length tb)%nat -> g 0 s <> 0) ->
    (forall t, Rabs t < eps -> law_gap tb dt (def_grad (G t)) (Fp t) (g t) (M t) (S t) == no_stress) ->
    regular9 (gap_matrix tb dt (def_grad (G 0)) (Fp 0) (g 0) (M 0) (S 0)) -> exact_on LS (gap_matrix tb dt (def_grad (G 0)) (Fp 0) (g 0) (M 0) (S 0)) ->
    unflatten_fn (f_jvp tb dt LS (ravel_params tb (G 0) (Fp 0) (g 0) (sl 0) (M 0)) (ravel_params tb G' Fp' g' sl' M') y) == S'.
  Proof.
    intros HY G0 HZ RG EX i j Hi Hj.
    assert (MX : gap_matrix tb dt (def_grad (G 0)) (Fp 0) (g 0) (M 0) (unflatten_fn y) = gap_matrix tb dt (def_grad (G 0)) (Fp 0) (g 0) (M 0) (S 0)).
    { apply functional_extensionality. intros k. apply functional_extensionality. intros l. unfold gap_matrix. destruct ((k <? 9) && (l <? 9))%nat eqn:E; [|reflexivity].
      apply andb_true_iff in E as (E1 & E2). apply Nat.ltb_lt in E1, E2. destruct (div_mod9 k E1) as (K1 & K2 & _). destruct (div_mod9 l E2) as (L1 & L2 & _). unfold gap_slope.
      rewrite (HY (l / 3)%nat (l mod 3)%nat L1 L2). apply Derive.Derive_ext. intros t. apply gap_ext; [apply s_refl|apply s_refl|reflexivity|apply s_refl| |exact K1|exact K2].
      intros a b Ha Hb. unfold put. destruct ((a =? l / 3) && (b =? l mod 3))%nat; [reflexivity|now apply HY]. }
    set (x := ravel_params tb (G 0) (Fp 0) (g 0) (sl 0) (M 0)). rewrite <- MX, <- (jac_matrix tb dt (G 0) (Fp 0) (g 0) (sl 0) (M 0) y) in RG, EX. fold x in RG, EX.
    set (cy := fun t k => if (k <? 9)%nat then ravel9 (S t) k else y k). unfold unflatten_fn at 1.
    rewrite <- (ravel_entry S' i j Hi Hj).
    apply (jvp_right tb dt LS x y (fun t => ravel_params tb (G t) (Fp t) (g t) (sl t) (M t)) cy (ravel_params tb G' Fp' g' sl' M') (ravel9 S') eps).
    - intros s Hs. unfold x. rewrite params_g by exact Hs. now apply G0.
    - reflexivity.
    - apply functional_extensionality. intros k. unfold cy. destruct (k <? 9)%nat eqn:E; [|reflexivity]. unfold ravel9. rewrite E. apply Nat.ltb_lt in E. destruct (div_mod9 k E) as (K1 & K2 & K3).
      rewrite <- (HY _ _ K1 K2). unfold unflatten_fn. now rewrite K3.
    - intros k _. apply params_deriv.
    - intros k Hk. unfold cy. apply Nat.ltb_lt in Hk. rewrite Hk. now apply ravel_deriv.
    - intros t k Ht Hk. rewrite residual_params. assert (E : unflatten_fn (cy t) == S t).
      { intros a b Ha Hb. unfold unflatten_fn, cy. assert (Q : (3 * a + b <? 9)%nat = true) by (apply Nat.ltb_lt; lia). rewrite Q. now apply ravel_entry. }
      rewrite (ravel_ext _ no_stress); [unfold ravel9, no_stress; destruct (k <? 9)%nat; reflexivity|]. eapply s_trans; [apply gap_ext; [apply s_refl|apply s_refl|reflexivity|apply s_refl|exact E]|]. now apply HZ.
    - exact RG.
    - exact EX.
    - lia.
  Qed.
End Curves.
