(** Stress, flow, hardening and frames of crystal plasticity, for C92 and C93. *)
From Coq Require Import Reals List Arith Lia Lra Bool FunctionalExtensionality.
From Coquelicot Require Derive.
From Verif Require Import Num Arr ArrFacts Fe FeFacts SpecFe Problem SpecAssembly SpecWeak SpecEnergy Elastic ElasticFacts Plasticity SpecPlasticity PlasticityFacts
  Lagrangian SpecLagrangian LagrangianFacts LagrangianMain FinPlast SpecFinPlast FinPlastFacts FinPlastMain CrystalPlast SpecCrystal CrystalFacts CrystalSolve CrystalDeriv.
Import ListNotations.
Local Open Scope R_scope.

(** ** sizes *)
Lemma entry_size A i j : (i < 3)%nat -> (j < 3)%nat -> Rabs (A i j) <= size3 A.
Proof.
  intros Hi Hj. unfold size3. rewrite <- sqrt_Rsqr_abs. apply sqrt_le_1_alt. unfold ddot, Rsqr. rewrite !sum3.
  assert (Q : forall a b, 0 <= A a b * A a b) by (intros; apply Rle_0_sqr).
  pose proof (Q 0 0)%nat; pose proof (Q 0 1)%nat; pose proof (Q 0 2)%nat; pose proof (Q 1 0)%nat; pose proof (Q 1 1)%nat; pose proof (Q 1 2)%nat; pose proof (Q 2 0)%nat; pose proof (Q 2 1)%nat; pose proof (Q 2 2)%nat.
  match goal with |- _ <= ?x => assert (E : x = A 0%nat 0%nat * A 0%nat 0%nat + A 0%nat 1%nat * A 0%nat 1%nat + A 0%nat 2%nat * A 0%nat 2%nat + A 1%nat 0%nat * A 1%nat 0%nat
    + A 1%nat 1%nat * A 1%nat 1%nat + A 1%nat 2%nat * A 1%nat 2%nat + A 2%nat 0%nat * A 2%nat 0%nat + A 2%nat 1%nat * A 2%nat 1%nat + A 2%nat 2%nat * A 2%nat 2%nat) by (req; ring); rewrite E; clear E end.
  revert i Hi. apply three_cases; revert j Hj; apply three_cases; lra.
Qed.
Lemma size_ext A B : A == B -> size3 A = size3 B.
Proof. intros H. unfold size3. now rewrite (ddot_ext 3 _ _ _ _ H H). Qed.
Lemma size_zero A : A == (fun _ _ => 0) -> size3 A = 0.
Proof. intros H. rewrite (size_ext _ _ H). unfold size3, ddot. rewrite !sum3. transitivity (sqrt 0); [f_equal; req; ring|exact sqrt_0]. Qed.
Lemma size_conj Q A : rotation Q -> size3 (conj3 Q A) = size3 A.
Proof. intros H. unfold size3. now rewrite ddot_conj. Qed.

(** ** stress *)
Section Stress.
  Variables (tb : list (list R)) (dt : R) (G Fp : tensor) (g sl : vect) (M S : tensor).
  Let F := def_grad G.
  Let Fn := times Fp (fun i j => ident i j - flow tb dt g M S i j).
  Let Fe := lattice tb dt F Fp g M S.
  Lemma pk_form : vol F <> 0 -> vol Fn <> 0 -> (fun i j => vol Fn * (PK_of tb dt G Fp g sl M S ** F^T) i j) == conj3 Fe S.
  Proof.
    intros V W. set (h := helper tb dt G Fp g sl M S). assert (HF : h_Fe h == Fe) by exact (Fe_lattice tb dt G Fp g sl M S).
    assert (VE : vol Fe = vol F * vol Fn) by (unfold Fe, lattice; rewrite times_mul; apply vol_mul).
    assert (VH : det (K := Rops) 3 (h_Fe h) = vol F * vol Fn) by (change (vol (h_Fe h) = vol F * vol Fn); rewrite (vol_ext _ _ HF); exact VE).
    intros i j Hi Hj. unfold PK_of. fold h. rewrite VH. change (h_F h) with F. change (det (K := Rops) 3 F) with (vol F).
    set (B := h_Fe h ** S ** (h_Fe h)^T).
    transitivity (vol Fn * (((fun a b => / vol Fn * B a b) ** (inv_mat (K := Rops) 3 F)^T) ** F^T) i j).
    - f_equal. apply m_l; [|exact Hi|exact Hj]. apply m_l. intros a b _ _. unfold B, mul3. rewrite !sum3. req; field. split; assumption.
    - rewrite (m_assoc _ _ _ i j Hi Hj).
      assert (X : (inv_mat (K := Rops) 3 F)^T ** F^T == eye3).
      { eapply s_trans; [apply s_sym, t_mul|]. eapply s_trans; [apply t_ext, m_inv_r; exact V|]. apply t_1. }
      rewrite (m_r _ _ _ X i j Hi Hj), (m_1r _ i j Hi Hj). rewrite <- Rmult_assoc, Rinv_r, Rmult_1_l by exact W.
      unfold B. rewrite <- (conj_mul (h_Fe h) S i j Hi Hj). apply conj_ext; [exact HF|apply s_refl|exact Hi|exact Hj].
  Qed.
  Lemma gap_symmetry i j : (i < 3)%nat -> (j < 3)%nat -> Rabs (S i j - S j i) <= 2 * size3 (law_gap tb dt F Fp g M S).
  Proof.
    intros Hi Hj. pose proof (entry_size (law_gap tb dt F Fp g M S) i j Hi Hj) as A. pose proof (entry_size (law_gap tb dt F Fp g M S) j i Hj Hi) as B.
    unfold law_gap at 1 in A. unfold law_gap at 1 in B. rewrite (turned_symmetric M _ i j Hi Hj) in A.
    set (t := turned_law M (green (lattice tb dt F Fp g M S)) j i) in *. replace (S i j - S j i) with ((S i j - t) - (S j i - t)) by ring.
    eapply Rle_trans; [apply Rabs_triang|]. rewrite Rabs_Ropp. lra.
  Qed.
End Stress.

(** ** flow *)
Section Flow.
  Variables (tb : list (list R)) (dt : R).
  Lemma dot_rot M u v : rotation M -> dot3 (at_vec M u) (at_vec M v) = dot3 u v.
  Proof.
    intros H. transitivity (sum_n (K := Rops) 3 (fun k => sum_n (K := Rops) 3 (fun l => (M^T ** M) k l * (u k * v l)))).
    - unfold dot3, at_vec, mul3, trans3. rewrite !sum3. req; ring.
    - rewrite !sum3. rewrite !(rot_l M H) by lia. unfold dot3, eye3. rewrite sum3. cbn [Nat.eqb]. req; ring.
  Qed.
  Lemma unit_dot u v : dot3 u v = 0 -> dot3 (unit u) (unit v) = 0.
  Proof.
    intros H. unfold unit. transitivity (/ sqrt (dot3 u u) * / sqrt (dot3 v v) * dot3 u v); [|rewrite H; ring]. unfold dot3, Rdiv. rewrite !sum3.
    generalize (/ sqrt (u 0%nat * u 0%nat + (u 1%nat * u 1%nat + (u 2%nat * u 2%nat + 0)))). generalize (/ sqrt (v 0%nat * v 0%nat + (v 1%nat * v 1%nat + (v 2%nat * v 2%nat + 0)))).
    intros a b. req; ring.
  Qed.
  Lemma frame_trace M s : rotation M -> in_plane tb -> (s < length tb)%nat -> trace 3 (slip_frame tb M s) = 0.
  Proof.
    intros H P Hs. change (trace 3 (slip_frame tb M s)) with (dot3 (at_vec M (unit (direction tb s))) (at_vec M (unit (normal tb s)))).
    rewrite (dot_rot M _ _ H). apply unit_dot, P, Hs.
  Qed.
  Lemma flow_trace g M S : rotation M -> in_plane tb -> trace 3 (flow tb dt g M S) = 0.
  Proof.
    intros H P. unfold trace, flow. rewrite (Rsum_swap 3 (length tb)).
    transitivity (sum_n (K := Rops) (length tb) (fun _ => 0)); [|rewrite Rsum_const; req; ring]. apply sum_n_ext. intros s Hs.
    rewrite Rsum_mul. pose proof (frame_trace M s H P Hs) as E. unfold trace in E. rewrite E. req; ring.
  Qed.
  Lemma even10 z : 0 <= z ^ 10.
  Proof. replace (z ^ 10) with (Rsqr (z ^ 5)) by (unfold Rsqr; ring). apply Rle_0_sqr. Qed.
  Lemma slip_sign t g : 0 <= dt -> 0 <= t * slip_by dt t g.
  Proof.
    intros H. unfold slip_by. pose proof (even10 (t / g)). destruct (Rle_dec 0 t) as [T|T].
    - apply Rmult_le_pos; [exact T|]. apply Rmult_le_pos; lra.
    - replace (t * (dt / 1000 * - (t / g) ^ 10)) with ((- t) * (dt / 1000 * (t / g) ^ 10)) by ring. apply Rmult_le_pos; [lra|]. apply Rmult_le_pos; lra.
  Qed.
  Lemma slip_pos t g : 0 < dt -> g <> 0 -> t <> 0 -> 0 < t * slip_by dt t g.
  Proof.
    intros H Hg Ht. assert (P : 0 < (t / g) ^ 10).
    { destruct (even10 (t / g)) as [P|P]; [exact P|]. exfalso. symmetry in P. revert P. apply pow_nonzero. unfold Rdiv. intros C. apply Rmult_integral in C as [C|C]; [contradiction|]. revert C. now apply Rinv_neq_0_compat. }
    unfold slip_by. destruct (Rle_dec 0 t) as [T|T].
    - apply Rmult_lt_0_compat; [lra|]. apply Rmult_lt_0_compat; lra.
    - replace (t * (dt / 1000 * - (t / g) ^ 10)) with ((- t) * (dt / 1000 * (t / g) ^ 10)) by ring. apply Rmult_lt_0_compat; [lra|]. apply Rmult_lt_0_compat; lra.
  Qed.
  Lemma slip_zero g : slip_by dt 0 g = 0.
  Proof. unfold slip_by, Rdiv. rewrite Rmult_0_l. destruct (Rle_dec 0 0); cbn; ring. Qed.
  Lemma flow_power g M S : ddot 3 S (flow tb dt g M S) = sum_n (K := Rops) (length tb) (fun s => resolved tb M S s * slip_by dt (resolved tb M S s) (g s)).
  Proof.
    unfold ddot, flow. transitivity (sum_n (K := Rops) 3 (fun i => sum_n (K := Rops) (length tb) (fun s => sum_n (K := Rops) 3 (fun j => S i j * (slip_by dt (resolved tb M S s) (g s) * slip_frame tb M s i j))))).
    - apply sum_n_ext. intros i _. rewrite <- (Rsum_swap 3 (length tb)). apply sum_n_ext. intros j _. symmetry. exact (Rsum_mul (length tb) (S i j) _).
    - rewrite (Rsum_swap 3 (length tb)). apply sum_n_ext. intros s _. unfold resolved at 2. set (c := slip_by dt (resolved tb M S s) (g s)). unfold ddot. rewrite !sum3. req; ring.
  Qed.
  Lemma Rsum_pos n (a : nat -> R) i : (forall k, (k < n)%nat -> 0 <= a k) -> (i < n)%nat -> 0 < a i -> 0 < sum_n (K := Rops) n a.
  Proof.
    revert i. induction n as [|n IH]; intros i H Hi P; [lia|]. rewrite (sum_n_S Rops_ring). change (0 < sum_n (K := Rops) n a + a n).
    assert (N : 0 <= sum_n (K := Rops) n a) by (apply Rsum_nonneg; intros k Hk; apply H; lia). pose proof (H n ltac:(lia)) as N2.
    destruct (Nat.eq_dec i n) as [->|D]; [lra|]. pose proof (IH i ltac:(intros; apply H; lia) ltac:(lia) P). lra.
  Qed.
  Lemma slip_none g M S : (forall s, (s < length tb)%nat -> resolved tb M S s = 0) -> flow tb dt g M S == (fun _ _ => 0).
  Proof.
    intros H i j _ _. unfold flow. transitivity (sum_n (K := Rops) (length tb) (fun _ => 0)); [|rewrite Rsum_const; req; ring]. apply sum_n_ext. intros s Hs.
    rewrite (H s Hs), slip_zero. req; ring.
  Qed.
  Lemma resolved_zero M S s : S == (fun _ _ => 0) -> resolved tb M S s = 0.
  Proof. intros H. rewrite (resolved_ext tb M M S _ s (s_refl M) H). unfold resolved, ddot. rewrite !sum3. req; ring. Qed.
  (** one system *)
  Lemma flow_single g M S s0 : (s0 < length tb)%nat -> (forall s, (s < length tb)%nat -> s <> s0 -> resolved tb M S s = 0) ->
    flow tb dt g M S == (fun i j => slip_by dt (resolved tb M S s0) (g s0) * slip_frame tb M s0 i j).
  Proof.
    intros H0 H i j _ _. unfold flow. rewrite (sum_n_single Rops_ring (length tb) s0 _ H0); [reflexivity|]. intros s Hs D. rewrite (H s Hs D), slip_zero. change (0 * slip_frame tb M s i j = 0). ring.
  Qed.
  Lemma det_rank1 c (u v : vect) : vol (fun i j => ident i j - c * (u i * v j)) = 1 - c * dot3 u v.
  Proof. rewrite vol_formula. unfold ident, dot3. rewrite sum3. cbn [Nat.eqb]. req; ring. Qed.
  Lemma single_volume Fp g M S s0 : rotation M -> in_plane tb -> (s0 < length tb)%nat -> (forall s, (s < length tb)%nat -> s <> s0 -> resolved tb M S s = 0) ->
    vol (times Fp (fun i j => ident i j - flow tb dt g M S i j)) = vol Fp.
  Proof.
    intros HM P H0 H. rewrite times_mul, vol_mul.
    assert (E : (fun i j => ident i j - flow tb dt g M S i j) == (fun i j => ident i j - slip_by dt (resolved tb M S s0) (g s0) * (at_vec M (unit (direction tb s0)) i * at_vec M (unit (normal tb s0)) j))).
    { intros i j Hi Hj. rewrite (flow_single g M S s0 H0 H i j Hi Hj). reflexivity. }
    rewrite (vol_ext _ _ E), det_rank1, (dot_rot M _ _ HM), (unit_dot _ _ (P s0 H0)). ring.
  Qed.

  (** ** hardening *)
  Lemma pow_sat x : hard_h * Rabs x * 0 = 0. Proof. ring. Qed.
  Lemma tmp_spec g M S s : h_tmp tb dt g M S s = 5415 / 10 * (Rabs (slip_by dt (resolved tb M S s) (g s)) * to_saturation (g s)).
  Proof.
    unfold h_tmp. rewrite gamma_slip. unfold hard_h, to_saturation, t_sat, pow_a, sign. set (z := 1 - g s / (1098 / 10)). set (a := Rabs (slip_by dt (resolved tb M S s) (g s))).
    destruct (Rle_dec 0 z) as [H|H]; destruct (Rlt_dec 0 z) as [H1|H1]; try lra; (destruct (Rlt_dec z 0) as [H2|H2]; try lra).
    - rewrite (Rabs_pos_eq z) by lra. ring.
    - replace z with 0 by lra. rewrite Rabs_R0. ring.
    - rewrite (Rabs_left z) by lra. ring.
  Qed.
  Lemma q_one i j : q_mat i j = 1.
  Proof. unfold q_mat. cbv zeta. destruct ((i / 3 * 3 <=? j) && (j <? i / 3 * 3 + 3))%nat; [reflexivity|apply Rmult_1_l]. Qed.
  Lemma hardening G Fp g sl M S s : slip_resistance_new (helper tb dt G Fp g sl M S) s =
    g s + 5415 / 10 * sum_n (K := Rops) (length tb) (fun j => Rabs (slip_by dt (resolved tb M S j) (g j)) * to_saturation (g j)).
  Proof.
    cbn [helper slip_resistance_new]. unfold h_g_inc, num_slip_sys. f_equal. rewrite <- Rsum_mul. apply sum_n_ext. intros j _. rewrite q_one, tmp_spec. req; ring.
  Qed.
  Lemma slip_total G Fp g sl M S s : slip_new (helper tb dt G Fp g sl M S) s = sl s + slip_by dt (resolved tb M S s) (g s).
  Proof. cbn [helper slip_new]. now rewrite gamma_slip. Qed.
  Lemma saturation_nonneg g : g <= 1098 / 10 -> 0 <= to_saturation g.
  Proof.
    intros H. unfold to_saturation. cbv zeta. destruct (Rle_dec 0 (1 - g / (1098 / 10))) as [Z|Z]; [apply Rmult_le_pos; [now apply Rmult_le_pos|apply sqrt_pos]|].
    exfalso. apply Z. lra.
  Qed.
End Flow.

(** ** frames *)
Section Frames.
  Variables (tb : list (list R)) (dt : R).
  Lemma green_mul A : green A == (fun i j => ((A^T ** A) i j - eye3 i j) / 2).
  Proof. intros i j _ _. reflexivity. Qed.
  Lemma green_turn Q A : rotation Q -> green (Q ** A) == green A.
  Proof.
    intros H i j Hi Hj. rewrite (green_mul (Q ** A) i j Hi Hj), (green_mul A i j Hi Hj). do 2 f_equal.
    rewrite (m_l _ _ (Q ** A) (t_mul Q A) i j Hi Hj), (m_assoc A^T Q^T (Q ** A) i j Hi Hj). apply m_r; [|exact Hi|exact Hj].
    eapply s_trans; [apply s_sym, m_assoc|]. eapply s_trans; [apply m_l, rot_l, H|]. apply m_1l.
  Qed.
  Lemma lattice_turn Q F F' Fp g M S : F' == Q ** F -> lattice tb dt F' Fp g M S == Q ** lattice tb dt F Fp g M S.
  Proof. intros H. unfold lattice. rewrite !times_mul. eapply s_trans; [apply m_l, H|]. apply m_assoc. Qed.
  Lemma gap_turn Q F F' Fp g M S : rotation Q -> F' == Q ** F -> law_gap tb dt F' Fp g M S == law_gap tb dt F Fp g M S.
  Proof.
    intros HQ H i j Hi Hj. unfold law_gap. f_equal. apply turned_ext; [apply s_refl| |exact Hi|exact Hj].
    eapply s_trans; [apply green_ext, (lattice_turn Q F F' Fp g M S H)|]. now apply green_turn.
  Qed.
  Variable LS : tensor -> vect -> vect.
  Lemma solved_same fuel G G' Fp Fp' g g' sl sl' M M' : (forall S, law_gap tb dt (def_grad G') Fp' g' M' S == law_gap tb dt (def_grad G) Fp g M S) ->
    solved_S tb dt LS fuel G' Fp' g' sl' M' = solved_S tb dt LS fuel G Fp g sl M.
  Proof.
    intros H. unfold solved_S, newton_solver. f_equal.
    assert (E : implicit_residual tb dt (ravel_params tb G' Fp' g' sl' M') = implicit_residual tb dt (ravel_params tb G Fp g sl M)).
    { apply functional_extensionality. intros y. rewrite !residual_params. apply ravel_ext, H. }
    now rewrite E.
  Qed.
  Lemma pk_cancel A B F : vol F <> 0 -> A ** F^T == B ** F^T -> A == B.
  Proof. intros V H. apply (m_cancel A B F^T); [rewrite vol_t; exact V|exact H]. Qed.
  Lemma pk_turn Q G G' Fp g sl M S : rotation Q -> def_grad G' == Q ** def_grad G -> vol (def_grad G) <> 0 -> vol (times Fp (fun i j => ident i j - flow tb dt g M S i j)) <> 0 ->
    PK_of tb dt G' Fp g sl M S == Q ** PK_of tb dt G Fp g sl M S.
  Proof.
    intros HQ H V W. set (Fn := times Fp (fun i j => ident i j - flow tb dt g M S i j)) in *.
    assert (V' : vol (def_grad G') <> 0) by (rewrite (vol_ext _ _ H), vol_mul, (rot_vol Q HQ), Rmult_1_l; exact V).
    apply (pk_cancel _ _ (def_grad G') V'). pose proof (pk_form tb dt G' Fp g sl M S V' W) as P'. pose proof (pk_form tb dt G Fp g sl M S V W) as P. fold Fn in P, P'.
    set (Pk := PK_of tb dt G Fp g sl M S) in *. set (Fe := lattice tb dt (def_grad G) Fp g M S) in *.
    assert (X : Q ** Pk ** (def_grad G')^T == conj3 Q (Pk ** (def_grad G)^T)).
    { eapply s_trans; [apply m_r, t_ext, H|]. eapply s_trans; [apply m_r, t_mul|]. eapply s_trans; [|apply s_sym, conj_mul]. eapply s_trans; [apply s_sym, m_assoc|]. apply m_l, m_assoc. }
    intros i j Hi Hj. apply (Rmult_eq_reg_l (vol Fn)); [|exact W]. rewrite (X i j Hi Hj). etransitivity; [exact (P' i j Hi Hj)|].
    rewrite (conj_ext _ _ _ _ (lattice_turn Q _ _ Fp g M S H) (s_refl S) i j Hi Hj). fold Fe. rewrite <- (conj_conj Q Fe S i j Hi Hj).
    transitivity (conj3 Q (fun a b => vol Fn * (Pk ** (def_grad G)^T) a b) i j); [apply conj_ext; [apply s_refl|apply s_sym, P|exact Hi|exact Hj]|].
    unfold conj3. rewrite !sum3. req; ring.
  Qed.

  (** *** turning the crystal in the body *)
  Lemma conj_rot_cancel Q A : rotation Q -> conj3 (transp Q) (conj3 Q A) == A.
  Proof.
    intros H. eapply s_trans; [apply conj_conj|]. eapply s_trans; [apply conj_ext; [exact (rot_l Q H)|apply s_refl]|]. apply conj_1.
  Qed.
  Lemma at_vec_mul A B v i : at_vec (A ** B) v i = at_vec A (at_vec B v) i.
  Proof. unfold at_vec, mul3. rewrite !sum3. req; ring. Qed.
  Lemma frame_turn Q M M' s : M' == Q ** M -> slip_frame tb M' s == conj3 Q (slip_frame tb M s).
  Proof.
    intros H. eapply s_trans; [apply frame_ext, H|]. intros i j _ _. unfold slip_frame. rewrite !at_vec_mul. unfold at_vec at 1 3. unfold conj3.
    generalize (at_vec M (unit (direction tb s))) (at_vec M (unit (normal tb s))). intros a b. rewrite !sum3. req; ring.
  Qed.
  Lemma resolved_turn Q M M' S S' s : rotation Q -> M' == Q ** M -> S' == conj3 Q S -> resolved tb M' S' s = resolved tb M S s.
  Proof.
    intros HQ H1 H2. unfold resolved. rewrite (ddot_ext 3 _ _ _ _ H2 (frame_turn Q M M' s H1)), ddot_conj_adjoint.
    apply ddot_ext; [apply s_refl|now apply conj_rot_cancel].
  Qed.
  Lemma flow_turn Q g M M' S S' : rotation Q -> M' == Q ** M -> S' == conj3 Q S -> flow tb dt g M' S' == conj3 Q (flow tb dt g M S).
  Proof.
    intros HQ H1 H2 i j Hi Hj. unfold flow at 1.
    transitivity (sum_n (K := Rops) (length tb) (fun s => slip_by dt (resolved tb M S s) (g s) * conj3 Q (slip_frame tb M s) i j)).
    - apply sum_n_ext. intros s _. now rewrite (resolved_turn Q M M' S S' s HQ H1 H2), (frame_turn Q M M' s H1 i j Hi Hj).
    - unfold conj3, flow. symmetry.
      transitivity (sum_n (K := Rops) 3 (fun k => sum_n (K := Rops) (length tb) (fun s => sum_n (K := Rops) 3 (fun l => Q i k * (slip_by dt (resolved tb M S s) (g s) * slip_frame tb M s k l) * Q j l)))).
      + apply sum_n_ext. intros k _. rewrite <- (Rsum_swap 3 (length tb)). apply sum_n_ext. intros l _.
        transitivity (Q i k * Q j l * sum_n (K := Rops) (length tb) (fun s => slip_by dt (resolved tb M S s) (g s) * slip_frame tb M s k l)); [req; ring|].
        rewrite <- Rsum_mul. apply sum_n_ext. intros s _. req; ring.
      + rewrite (Rsum_swap 3 (length tb)). apply sum_n_ext. intros s _. set (c := slip_by dt (resolved tb M S s) (g s)). rewrite !sum3. req; ring.
  Qed.
  Lemma conj_prod Q A B : rotation Q -> conj3 Q A ** conj3 Q B == conj3 Q (A ** B).
  Proof.
    intros H. eapply s_trans; [apply m_ext; apply conj_mul|]. eapply s_trans; [|apply s_sym, conj_mul].
    eapply s_trans; [apply m_assoc|]. eapply s_trans; [apply m_r; eapply s_trans; [apply m_r, m_assoc|]; eapply s_trans; [apply s_sym, m_assoc|]; eapply s_trans; [apply m_l, rot_l, H|]; apply m_1l|].
    eapply s_trans; [apply s_sym, m_assoc|]. apply m_l, m_assoc.
  Qed.
  Lemma conj_eye Q : rotation Q -> conj3 Q eye3 == eye3.
  Proof. intros H. eapply s_trans; [apply conj_mul|]. eapply s_trans; [apply m_l, m_1r|]. now apply rot_r. Qed.
  Lemma Fn_turn Q Fp Fp' g M M' S S' : rotation Q -> Fp' == conj3 Q Fp -> M' == Q ** M -> S' == conj3 Q S ->
    times Fp' (fun i j => ident i j - flow tb dt g M' S' i j) == conj3 Q (times Fp (fun i j => ident i j - flow tb dt g M S i j)).
  Proof.
    intros HQ HF H1 H2. rewrite !times_mul. eapply s_trans; [|now apply conj_prod]. apply m_ext; [exact HF|]. intros i j Hi Hj.
    rewrite (flow_turn Q g M M' S S' HQ H1 H2 i j Hi Hj). change (ident i j) with (eye3 i j). rewrite <- (conj_eye Q HQ i j Hi Hj).
    unfold conj3. change ident with eye3. generalize (flow tb dt g M S) eye3. intros A B. rewrite !sum3. req; ring.
  Qed.
  Lemma lattice_body Q F F' Fp Fp' g M M' S S' : rotation Q -> F' ** Q == F -> Fp' == conj3 Q Fp -> M' == Q ** M -> S' == conj3 Q S ->
    lattice tb dt F' Fp' g M' S' == lattice tb dt F Fp g M S ** Q^T.
  Proof.
    intros HQ HF H0 H1 H2. unfold lattice. rewrite (times_mul F'), (times_mul F). eapply s_trans; [apply m_r, (Fn_turn Q Fp Fp' g M M' S S' HQ H0 H1 H2)|].
    set (Fn := times Fp (fun i j => ident i j - flow tb dt g M S i j)). eapply s_trans; [apply m_r, conj_mul|]. eapply s_trans; [apply s_sym, m_assoc|]. apply m_l.
    eapply s_trans; [apply s_sym, m_assoc|]. apply m_l, HF.
  Qed.
  Lemma green_body Q A : rotation Q -> green (A ** Q^T) == conj3 Q (green A).
  Proof.
    intros H i j Hi Hj. rewrite (green_mul _ i j Hi Hj).
    assert (E : (A ** Q^T)^T ** (A ** Q^T) == conj3 Q (A^T ** A)).
    { eapply s_trans; [apply m_l, t_mul|]. eapply s_trans; [|apply s_sym, conj_mul]. eapply s_trans; [apply m_assoc|].
      eapply s_trans; [apply m_r; apply s_sym, m_assoc|]. apply s_sym, m_assoc. }
    rewrite (E i j Hi Hj). rewrite <- (conj_eye Q H i j Hi Hj). unfold conj3, green. change ident with eye3.
    change (fun i0 j0 => (sum_n (K := Rops) 3 (fun k => A k i0 * A k j0) - eye3 i0 j0) / 2) with (fun i0 j0 => ((A^T ** A) i0 j0 - eye3 i0 j0) / 2).
    transitivity (sum_n (K := Rops) 3 (fun k => sum_n (K := Rops) 3 (fun l => Q i k * (((A^T ** A) k l - eye3 k l) / 2) * Q j l))); [|reflexivity].
    generalize (A^T ** A) eye3. intros X Y. rewrite !sum3. req; field.
  Qed.
  Lemma turned_body Q M M' E E' : rotation Q -> M' == Q ** M -> E' == conj3 Q E -> turned_law M' E' == conj3 Q (turned_law M E).
  Proof.
    intros HQ H1 H2. eapply s_trans; [apply turned_ext; [exact H1|exact H2]|]. unfold turned_law. eapply s_trans; [|apply s_sym, conj_conj].
    apply conj_ext; [apply s_refl|]. apply cubic_ext. eapply s_trans; [apply conj_conj|]. apply conj_ext; [|apply s_refl].
    change (transp (Q ** M)) with ((Q ** M)^T). eapply s_trans; [apply m_l, t_mul|]. eapply s_trans; [apply m_assoc|]. eapply s_trans; [apply m_r, rot_l, HQ|]. apply m_1r.
  Qed.
  Lemma gap_body Q F F' Fp Fp' g M M' S S' : rotation Q -> F' ** Q == F -> Fp' == conj3 Q Fp -> M' == Q ** M -> S' == conj3 Q S ->
    law_gap tb dt F' Fp' g M' S' == conj3 Q (law_gap tb dt F Fp g M S).
  Proof.
    intros HQ HF H0 H1 H2 i j Hi Hj. unfold law_gap at 1.
    rewrite (turned_body Q M M' _ _ HQ H1 (s_trans _ _ _ (green_ext _ _ (lattice_body Q F F' Fp Fp' g M M' S S' HQ HF H0 H1 H2)) (green_body Q _ HQ)) i j Hi Hj).
    rewrite (H2 i j Hi Hj). unfold law_gap, conj3. generalize (turned_law M (green (lattice tb dt F Fp g M S))). intros A. rewrite !sum3. req; ring.
  Qed.
  Lemma pk_body Q G G' Fp Fp' g sl M M' S S' : rotation Q -> def_grad G' ** Q == def_grad G -> Fp' == conj3 Q Fp -> M' == Q ** M -> S' == conj3 Q S ->
    vol (def_grad G) <> 0 -> vol (times Fp (fun i j => ident i j - flow tb dt g M S i j)) <> 0 ->
    PK_of tb dt G' Fp' g sl M' S' ** Q == PK_of tb dt G Fp g sl M S.
  Proof.
    intros HQ HF H0 H1 H2 V W. pose proof (Fn_turn Q Fp Fp' g M M' S S' HQ H0 H1 H2) as EN.
    set (Fn := times Fp (fun i j => ident i j - flow tb dt g M S i j)) in *. set (Fn' := times Fp' (fun i j => ident i j - flow tb dt g M' S' i j)) in *.
    assert (VN : vol Fn' = vol Fn) by (rewrite (vol_ext _ _ EN), vol_conj, (rot_vol Q HQ); ring).
    assert (V' : vol (def_grad G') <> 0). { intros C. apply V. rewrite <- (vol_ext _ _ HF), vol_mul, C. ring. }
    assert (W' : vol Fn' <> 0) by (rewrite VN; exact W).
    pose proof (pk_form tb dt G' Fp' g sl M' S' V' W') as P'. pose proof (pk_form tb dt G Fp g sl M S V W) as P. fold Fn in P. fold Fn' in P'. rewrite VN in P'.
    apply (pk_cancel _ _ (def_grad G) V). intros i j Hi Hj. apply (Rmult_eq_reg_l (vol Fn)); [|exact W].
    etransitivity; [|symmetry; exact (P i j Hi Hj)].
    assert (X : PK_of tb dt G' Fp' g sl M' S' ** Q ** (def_grad G)^T == PK_of tb dt G' Fp' g sl M' S' ** (def_grad G')^T).
    { eapply s_trans; [apply m_assoc|]. apply m_r. eapply s_trans; [apply m_r, t_ext, s_sym, HF|]. eapply s_trans; [apply m_r, t_mul|]. eapply s_trans; [apply s_sym, m_assoc|].
      eapply s_trans; [apply m_l, rot_r, HQ|]. apply m_1l. }
    rewrite (X i j Hi Hj). etransitivity; [exact (P' i j Hi Hj)|].
    eapply (s_trans _ (conj3 (lattice tb dt (def_grad G) Fp g M S ** Q^T) (conj3 Q S))); [apply conj_ext; [now apply (lattice_body Q _ _ Fp Fp')|exact H2]| |exact Hi|exact Hj].
    eapply s_trans; [apply conj_conj|]. apply conj_ext; [|apply s_refl]. eapply s_trans; [apply m_assoc|]. eapply s_trans; [apply m_r, rot_l, HQ|]. apply m_1r.
  Qed.
End Frames.

Lemma ident_rotation : rotation ident.
Proof.
  split; [exact vol_1|]. intros i j Hi Hj. rewrite sum3. revert i Hi. apply three_cases; revert j Hj; apply three_cases; unfold ident; cbn [Nat.eqb]; req; ring.
Qed.
