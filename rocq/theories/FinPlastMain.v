(** Trial state, frames, elastic range and energy, for C90. *)
From Coq Require Import Reals List Arith Lia Lra Bool.
From Verif Require Import Num Arr ArrFacts Fe FeFacts SpecFe Problem SpecAssembly SpecWeak SpecEnergy Elastic ElasticFacts Plasticity SpecPlasticity PlasticityFacts
  Lagrangian SpecLagrangian LagrangianFacts LagrangianMain FinPlast SpecFinPlast FinPlastFacts.
Import ListNotations.
Local Open Scope R_scope.

(** ** A B A^T *)
Lemma conj_ext A A' B B' : A == A' -> B == B' -> conj3 A B == conj3 A' B'.
Proof.
  intros HA HB. eapply s_trans; [apply conj_mul|]. eapply s_trans; [|apply s_sym, conj_mul]. apply m_ext; [now apply m_ext|now apply t_ext].
Qed.
Lemma conj_conj A B C : conj3 A (conj3 B C) == conj3 (A ** B) C.
Proof. intros i j _ _. unfold conj3, mul3. rewrite !sum3. req; ring. Qed.
Lemma conj_1 B : conj3 eye3 B == B.
Proof.
  eapply s_trans; [apply conj_mul|]. eapply s_trans; [apply m_ext; [apply m_1l|apply t_1]|]. apply m_1r.
Qed.
Lemma conj_scale c A B : conj3 (fun i j => c * A i j) B == (fun i j => c * c * conj3 A B i j).
Proof. intros i j _ _. unfold conj3. rewrite !sum3. req; ring. Qed.
Lemma conj_symmetric A B : symmetric 3 B -> symmetric 3 (conj3 A B).
Proof.
  intros S i j _ _. unfold conj3. rewrite !sum3. rewrite (S 1%nat 0%nat), (S 2%nat 0%nat), (S 2%nat 1%nat) by lia. req; ring.
Qed.
Lemma vol_conj A B : vol (conj3 A B) = vol A * vol A * vol B.
Proof. rewrite (vol_ext _ _ (conj_mul A B)), !vol_mul, vol_t. ring. Qed.
Lemma vec_zero (A : tensor) (v : nat -> R) : vol A <> 0 -> (forall k, (k < 3)%nat -> sum_n (K := Rops) 3 (fun i => v i * A i k) = 0) -> forall i, (i < 3)%nat -> v i = 0.
Proof.
  intros V H i Hi. pose proof (m_inv_r A V) as I.
  assert (E : (fun (_ i : nat) => v i) ** (A ** inv_mat (K := Rops) 3 A) == (fun _ _ => 0)).
  { eapply s_trans; [apply s_sym, m_assoc|]. intros p q Hp Hq. unfold mul3 at 1.
    transitivity (sum_n (K := Rops) 3 (fun j => 0 * inv_mat (K := Rops) 3 A j q)); [|rewrite sum3; req; ring].
    apply sum_n_ext. intros k Hk. f_equal. exact (H k Hk). }
  specialize (E 0%nat i ltac:(lia) Hi). rewrite <- E. symmetry. etransitivity; [apply (m_r (fun (_ i : nat) => v i) _ _ I 0%nat i); lia|].
  exact (m_1r (fun (_ i : nat) => v i) 0%nat i (Nat.lt_0_succ 2) Hi).
Qed.
Lemma conj_positive A B : vol A <> 0 -> positive B -> positive (conj3 A B).
Proof.
  intros V PB v (i0 & I1 & I2). set (w := fun k => sum_n (K := Rops) 3 (fun i => v i * A i k)).
  replace (sum_n (K := Rops) 3 (fun i => sum_n (K := Rops) 3 (fun j => v i * conj3 A B i j * v j)))
    with (sum_n (K := Rops) 3 (fun i => sum_n (K := Rops) 3 (fun j => w i * B i j * w j))) by (unfold w, conj3; rewrite !sum3; req; ring).
  apply PB. destruct (Req_dec (w 0%nat) 0) as [W0|W0]; [|exists 0%nat; auto]. destruct (Req_dec (w 1%nat) 0) as [W1|W1]; [|exists 1%nat; auto].
  exists 2%nat. split; [lia|]. intros W2. apply I2. apply (vec_zero A v V); [|exact I1]. intros [|[|[|k]]] Hk; [exact W0|exact W1|exact W2|lia].
Qed.
Lemma eye_positive : positive eye3.
Proof.
  intros v (i & Hi & V). rewrite !sum3. unfold eye3. cbn [Nat.eqb].
  assert (S : 0 < v i * v i) by nra. pose proof (Rle_0_sqr (v 0%nat)). pose proof (Rle_0_sqr (v 1%nat)). pose proof (Rle_0_sqr (v 2%nat)). unfold Rsqr in *.
  destruct i as [|[|[|i]]]; [| | |lia]; match goal with |- 0 < ?x => replace x with (v 0%nat * v 0%nat + v 1%nat * v 1%nat + v 2%nat * v 2%nat) by (req; ring) end; lra.
Qed.
Lemma eye_symmetric : symmetric 3 eye3.
Proof. intros i j _ _. unfold eye3. now rewrite Nat.eqb_sym. Qed.
Lemma positive_trace B : positive B -> 0 < trace 3 B.
Proof.
  intros PB. assert (D : forall k, (k < 3)%nat -> 0 < B k k).
  { intros k Hk. specialize (PB (fun i => if (i =? k)%nat then 1 else 0)). rewrite !sum3 in PB.
    assert (X : exists i, (i < 3)%nat /\ (if (i =? k)%nat then 1 else 0) <> 0) by (exists k; rewrite Nat.eqb_refl; split; [exact Hk|lra]).
    specialize (PB X). destruct k as [|[|[|k]]]; [| | |lia]; cbn [Nat.eqb] in PB; match type of PB with 0 < ?x => match goal with |- 0 < ?y => replace y with x by (req; ring) end end; exact PB. }
  unfold trace. rewrite sum3. pose proof (D 0%nat ltac:(lia)). pose proof (D 1%nat ltac:(lia)). pose proof (D 2%nat ltac:(lia)).
  match goal with |- 0 < ?x => change (0 < B 0%nat 0%nat + (B 1%nat 1%nat + (B 2%nat 2%nat + 0))) end. lra.
Qed.

(** ** cube roots *)
Lemma rpow3 x : 0 < x -> Rpower x (- (1 / 3)) * Rpower x (- (1 / 3)) * Rpower x (- (1 / 3)) = / x.
Proof.
  intros H. rewrite <- !Rpower_plus. replace (- (1 / 3) + - (1 / 3) + - (1 / 3)) with (Ropp 1) by field. rewrite Rpower_Ropp. now rewrite Rpower_1.
Qed.
Lemma rpow2 x : Rpower x (- (1 / 3)) * Rpower x (- (1 / 3)) = Rpower x (- (2 / 3)).
Proof. rewrite <- Rpower_plus. f_equal. field. Qed.
Lemma shape_vol f : 0 < vol f -> vol (shape_of f) = 1.
Proof. intros H. unfold shape_of. rewrite vol_scale, rpow3 by exact H. field. lra. Qed.
Lemma shape_ext f g : f == g -> shape_of f == shape_of g.
Proof. intros H i j Hi Hj. unfold shape_of. rewrite (vol_ext f g H). now rewrite (H i j Hi Hj). Qed.
Lemma shape_mul f g : 0 < vol f -> 0 < vol g -> shape_of (f ** g) == shape_of f ** shape_of g.
Proof.
  intros F G i j _ _. unfold shape_of. rewrite vol_mul, <- Rpower_mult_distr by assumption. unfold mul3. rewrite !sum3. req; ring.
Qed.
Lemma shape_scale c f : 0 < c -> 0 < vol f -> shape_of (fun i j => c * f i j) == shape_of f.
Proof.
  intros C F i j _ _. unfold shape_of. rewrite vol_scale. rewrite <- !Rpower_mult_distr by (repeat apply Rmult_lt_0_compat; assumption).
  replace (Rpower c (- (1 / 3)) * Rpower c (- (1 / 3)) * Rpower c (- (1 / 3))) with (/ c) by (symmetry; now apply rpow3). req; field. lra.
Qed.

(** ** the trial state *)
Lemma quot_unique Fo F f : vol Fo <> 0 -> f ** Fo == F -> f == F ** inv_mat (K := Rops) 3 Fo.
Proof.
  intros V H. apply (m_cancel _ _ Fo V). eapply s_trans; [exact H|]. eapply s_trans; [|apply s_sym, m_assoc].
  eapply s_trans; [apply s_sym, m_1r|]. apply m_r, s_sym, m_inv_l, V.
Qed.
Lemma quot_mul Fo F : vol Fo <> 0 -> F ** inv_mat (K := Rops) 3 Fo ** Fo == F.
Proof. intros V. eapply s_trans; [apply m_assoc|]. eapply s_trans; [apply m_r, m_inv_l, V|]. apply m_1r. Qed.
Lemma trial_conj G Fo bo f : vol Fo <> 0 -> f ** Fo == def_grad G -> be_trial G Fo bo == conj3 (shape_of f) bo.
Proof.
  intros V H. pose proof (quot_unique Fo (def_grad G) f V H) as Q. apply s_sym. eapply s_trans; [apply conj_ext; [exact (shape_ext _ _ Q)|apply s_refl]|].
  eapply s_trans; [apply conj_mul|]. apply s_refl.
Qed.
Lemma quot_vol Fo F f : 0 < vol Fo -> 0 < vol F -> f ** Fo == F -> 0 < vol f.
Proof.
  intros V W H. rewrite <- (vol_ext _ _ H), vol_mul in W. destruct (Rle_lt_dec (vol f) 0); [|assumption]. nra.
Qed.
Lemma trial_sound G Fo bo a : 0 < vol Fo -> 0 < vol (def_grad G) -> sound_state bo a -> symmetric 3 (be_trial G Fo bo) /\ positive (be_trial G Fo bo).
Proof.
  intros V W (S & PB & _). set (f := def_grad G ** inv_mat (K := Rops) 3 Fo).
  assert (Q : f ** Fo == def_grad G) by (apply quot_mul; lra). pose proof (quot_vol Fo _ f V W Q) as VF.
  assert (E : be_trial G Fo bo == conj3 (shape_of f) bo) by (apply trial_conj; [lra|exact Q]). split.
  - intros i j Hi Hj. rewrite (E i j Hi Hj), (E j i Hj Hi). now apply conj_symmetric.
  - intros v X. replace (sum_n (K := Rops) 3 (fun i => sum_n (K := Rops) 3 (fun j => v i * be_trial G Fo bo i j * v j)))
      with (sum_n (K := Rops) 3 (fun i => sum_n (K := Rops) 3 (fun j => v i * conj3 (shape_of f) bo i j * v j))).
    + apply conj_positive; [rewrite shape_vol by exact VF; lra|exact PB|exact X].
    + apply sum_n_ext. intros i Hi. apply sum_n_ext. intros j Hj. now rewrite (E i j Hi Hj).
Qed.

(** everything depends on the trial value's entries only *)
Lemma over_ext b b' a : b == b' -> over b a = over b' a.
Proof. intros H. unfold over. now rewrite (shear_stress_ext _ _ H). Qed.
Lemma mean_ext b b' : b == b' -> mean b = mean b'.
Proof. intros H. unfold mean. now rewrite (trace_ext 3 _ _ H). Qed.
Lemma gain_of b b' a : shear_stress b = shear_stress b' -> mean b = mean b' -> gain b a = gain b' a.
Proof. intros H1 H2. unfold gain, over. now rewrite H1, H2. Qed.
Lemma keep_of b b' a : shear_stress b = shear_stress b' -> mean b = mean b' -> keep b a = keep b' a.
Proof. intros H1 H2. unfold keep, over. now rewrite H1, H2. Qed.
Lemma b_new_ext b b' a : b == b' -> b_new b a == b_new b' a.
Proof.
  intros H i j Hi Hj. unfold b_new. rewrite (keep_of b b' a (shear_stress_ext _ _ H) (mean_ext _ _ H)), (mean_ext _ _ H).
  now rewrite (shear_ext 3 _ _ H i j Hi Hj).
Qed.

(** ** rotations *)
Lemma rot_r Q : rotation Q -> Q ** Q^T == eye3. Proof. intros [_ O] i j Hi Hj. exact (O i j Hi Hj). Qed.
Lemma rot_vol Q : rotation Q -> vol Q = 1. Proof. intros [D _]. exact D. Qed.
Lemma rot_l Q : rotation Q -> Q^T ** Q == eye3.
Proof.
  intros H. pose proof (rot_vol Q H) as V. apply s_sym. apply (m_cancel _ _ Q^T); [rewrite vol_t; lra|].
  eapply s_trans; [apply m_1l|]. apply s_sym. eapply s_trans; [apply m_assoc|]. eapply s_trans; [apply m_r, rot_r, H|]. apply m_1r.
Qed.
Lemma trace_conj Q b : rotation Q -> trace 3 (conj3 Q b) = trace 3 b.
Proof.
  intros H. transitivity (sum_n (K := Rops) 3 (fun k => sum_n (K := Rops) 3 (fun l => (Q^T ** Q) k l * b k l))).
  - unfold trace, conj3, mul3, trans3. rewrite !sum3. req; ring.
  - pose proof (rot_l Q H) as L. unfold trace. rewrite !sum3. rewrite !L by lia. unfold eye3. cbn [Nat.eqb]. req; ring.
Qed.
Lemma shear_conj Q b : rotation Q -> shear_part 3 (conj3 Q b) == conj3 Q (shear_part 3 b).
Proof.
  intros H i j Hi Hj. unfold shear_part at 1. rewrite (trace_conj Q b H).
  transitivity (conj3 Q b i j - trace 3 b / INR 3 * (Q ** Q^T) i j).
  - rewrite (rot_r Q H i j Hi Hj). unfold eye3. destruct (i =? j)%nat; req; ring.
  - unfold conj3, shear_part, mul3, trans3. rewrite !sum3. cbn [Nat.eqb]. req; ring.
Qed.
Lemma ddot_trace A : ddot 3 A A = trace 3 (A ** A^T). Proof. unfold ddot, trace, mul3, trans3. rewrite !sum3. req; ring. Qed.
Lemma ddot_conj Q A : rotation Q -> ddot 3 (conj3 Q A) (conj3 Q A) = ddot 3 A A.
Proof.
  intros H. rewrite !ddot_trace. rewrite <- (trace_conj Q (A ** A^T) H). apply trace_ext.
  apply (s_trans _ ((Q ** A) ** (Q ** A)^T)).
  - eapply s_trans; [apply m_ext; [apply conj_mul|eapply s_trans; [apply t_ext, conj_mul|apply t_mul]]|]. eapply s_trans; [apply m_assoc|]. apply m_r.
    eapply s_trans; [apply s_sym, m_assoc|]. eapply s_trans; [apply m_l; exact (rot_l Q H)|]. apply m_1l.
  - apply s_sym. eapply s_trans; [apply conj_mul|]. eapply s_trans; [apply m_l, s_sym, m_assoc|]. eapply s_trans; [apply m_assoc|]. apply m_r, s_sym, t_mul.
Qed.
Lemma shear_stress_conj Q b : rotation Q -> shear_stress (conj3 Q b) = shear_stress b.
Proof.
  intros H. unfold shear_stress. rewrite (ddot_ext 3 _ _ _ _ (shear_conj Q b H) (shear_conj Q b H)). now rewrite (ddot_conj Q _ H).
Qed.
Lemma mean_conj Q b : rotation Q -> mean (conj3 Q b) = mean b.
Proof. intros H. unfold mean. now rewrite (trace_conj Q b H). Qed.
Lemma conj_comb Q x A y B : conj3 Q (tcomb x A y B) == tcomb x (conj3 Q A) y (conj3 Q B).
Proof. intros i j _ _. unfold conj3, tcomb. rewrite !sum3. req; ring. Qed.
Lemma conj_teye Q x : rotation Q -> conj3 Q (teye x) == teye x.
Proof.
  intros H i j Hi Hj. transitivity (x * (Q ** Q^T) i j); [unfold conj3, teye, mul3, trans3; rewrite !sum3; cbn [Nat.eqb]; req; ring|].
  rewrite (rot_r Q H i j Hi Hj). unfold eye3, teye. destruct (i =? j)%nat; req; ring.
Qed.
Lemma tcomb_ext x A A' y B B' : A == A' -> B == B' -> tcomb x A y B == tcomb x A' y B'.
Proof. intros HA HB i j Hi Hj. unfold tcomb. now rewrite (HA i j Hi Hj), (HB i j Hi Hj). Qed.
Lemma b_new_conj Q b a : rotation Q -> b_new (conj3 Q b) a == conj3 Q (b_new b a).
Proof.
  intros H. eapply s_trans; [apply b_new_split|]. rewrite (keep_of _ b a (shear_stress_conj Q b H) (mean_conj Q b H)), (mean_conj Q b H).
  apply s_sym. eapply s_trans; [apply conj_ext; [apply s_refl|apply b_new_split]|]. eapply s_trans; [apply conj_comb|].
  apply tcomb_ext; [apply s_sym, shear_conj, H|now apply conj_teye].
Qed.
Lemma kirchhoff_conj Q J b : rotation Q -> kirchhoff J (conj3 Q b) == conj3 Q (kirchhoff J b).
Proof.
  intros H. assert (S : forall c, kirchhoff J c == tcomb 80000 (shear_part 3 c) 1 (teye (164000 / 2 * (J ^ 2 - 1)))).
  { intros c i j _ _. unfold kirchhoff, tcomb, teye. destruct (i =? j)%nat; req; ring. }
  eapply s_trans; [apply S|]. apply s_sym. eapply s_trans; [apply conj_ext; [apply s_refl|apply S]|]. eapply s_trans; [apply conj_comb|].
  apply tcomb_ext; [apply s_sym, shear_conj, H|now apply conj_teye].
Qed.
Lemma gain_conj Q b a : rotation Q -> gain (conj3 Q b) a = gain b a.
Proof. intros H. apply gain_of; [now apply shear_stress_conj|now apply mean_conj]. Qed.
Lemma gain_ext b b' a : b == b' -> gain b a = gain b' a.
Proof. intros H. apply gain_of; [now apply shear_stress_ext|now apply mean_ext]. Qed.

(** ** a frame rotated by Q now and by Q0 before *)
Section Frame.
  Variables (G G' Fo Fo' bo bo' Q Q0 : tensor) (a : R).
  Hypothesis V : 0 < vol Fo.
  Hypothesis W : 0 < vol (def_grad G).
  Hypothesis SS : sound_state bo a.
  Hypothesis HQ : rotation Q.
  Hypothesis HR : rotation Q0.
  Hypothesis EG : def_grad G' == Q ** def_grad G.
  Hypothesis EF : Fo' == Q0 ** Fo.
  Hypothesis EB : bo' == conj3 Q0 bo.
  Lemma V' : vol Fo' = vol Fo. Proof. rewrite (vol_ext _ _ EF), vol_mul, (rot_vol Q0 HR). ring. Qed.
  Lemma W' : vol (def_grad G') = vol (def_grad G). Proof. rewrite (vol_ext _ _ EG), vol_mul, (rot_vol Q HQ). ring. Qed.
  Let f := def_grad G ** inv_mat (K := Rops) 3 Fo.
  Lemma f_ok : f ** Fo == def_grad G. Proof. apply quot_mul. lra. Qed.
  Lemma f_vol : 0 < vol f. Proof. exact (quot_vol Fo _ f V W f_ok). Qed.
  Lemma f'_ok : (Q ** (f ** Q0^T)) ** Fo' == def_grad G'.
  Proof.
    apply s_sym. eapply s_trans; [exact EG|]. apply s_sym. eapply s_trans; [apply m_r; exact EF|]. eapply s_trans; [apply m_assoc|]. apply m_r.
    eapply s_trans; [apply m_assoc|]. eapply s_trans; [apply m_r, s_sym, m_assoc|]. eapply s_trans; [apply m_r, m_l, rot_l, HR|].
    eapply s_trans; [apply m_r, m_1l|]. exact f_ok.
  Qed.
  Lemma frame_trial : be_trial G' Fo' bo' == conj3 Q (be_trial G Fo bo).
  Proof.
    assert (RV : vol Q0^T = 1) by (rewrite vol_t; exact (rot_vol Q0 HR)). pose proof f_vol as FV.
    eapply s_trans; [apply (trial_conj G' Fo' bo' _ ltac:(rewrite V'; lra) f'_ok)|]. apply s_sym.
    eapply s_trans; [apply conj_ext; [apply s_refl|apply (trial_conj G Fo bo f ltac:(lra) f_ok)]|]. eapply s_trans; [apply conj_conj|].
    apply s_sym. eapply s_trans; [apply conj_ext; [apply s_refl|exact EB]|]. eapply s_trans; [apply conj_conj|]. apply conj_ext; [|apply s_refl].
    assert (SE : shape_of (Q ** (f ** Q0^T)) == Q ** (shape_of f ** Q0^T)).
    { intros i j _ _. unfold shape_of. rewrite !vol_mul, RV, (rot_vol Q HQ), Rmult_1_l, Rmult_1_r. unfold mul3. rewrite !sum3. req; ring. }
    eapply s_trans; [apply m_l; exact SE|]. eapply s_trans; [apply m_assoc|]. apply m_r. eapply s_trans; [apply m_assoc|].
    eapply s_trans; [apply m_r, rot_l, HR|]. apply m_1r.
  Qed.
  Lemma trial_trace : 0 < trace 3 (be_trial G Fo bo).
  Proof. exact (positive_trace _ (proj2 (trial_sound G Fo bo a V W SS))). Qed.
  Lemma trial_trace' : 0 < trace 3 (be_trial G' Fo' bo').
  Proof. rewrite (trace_ext 3 _ _ frame_trial), (trace_conj Q _ HQ). exact trial_trace. Qed.
  Let A0 : 0 <= a := proj2 (proj2 SS).
  Lemma frame_a : snd (fst (return_map G' Fo' bo' a)) = snd (fst (return_map G Fo bo a)).
  Proof. rewrite (map_a G' Fo' bo' a trial_trace'), (map_a G Fo bo a trial_trace). now rewrite (gain_ext _ _ a frame_trial), gain_conj. Qed.
  Lemma frame_b : fst (fst (return_map G' Fo' bo' a)) == conj3 Q (fst (fst (return_map G Fo bo a))).
  Proof.
    eapply s_trans; [exact (map_b G' Fo' bo' a A0 trial_trace')|]. eapply s_trans; [exact (b_new_ext _ _ a frame_trial)|].
    eapply s_trans; [exact (b_new_conj Q _ a HQ)|]. apply conj_ext; [apply s_refl|]. apply s_sym. exact (map_b G Fo bo a A0 trial_trace).
  Qed.
  Lemma frame_tau : snd (return_map G' Fo' bo' a) == conj3 Q (snd (return_map G Fo bo a)).
  Proof.
    eapply s_trans; [exact (map_tau G' Fo' bo' a A0 trial_trace')|]. rewrite W'.
    eapply s_trans; [apply kirchhoff_ext; exact (b_new_ext _ _ a frame_trial)|]. eapply s_trans; [apply kirchhoff_ext; exact (b_new_conj Q _ a HQ)|].
    eapply s_trans; [exact (kirchhoff_conj Q _ _ HQ)|]. apply conj_ext; [apply s_refl|]. apply s_sym. exact (map_tau G Fo bo a A0 trial_trace).
  Qed.
End Frame.

(** ** stresses *)
Lemma pk_tau Fo bo a G : vol (def_grad G) <> 0 -> first_PK_stress Fo bo a G ** (def_grad G)^T == snd (return_map G Fo bo a).
Proof.
  intros W. unfold first_PK_stress. eapply s_trans; [apply m_assoc|]. eapply s_trans; [apply m_r, s_sym, t_mul|].
  eapply s_trans; [apply m_r, t_ext, m_inv_r, W|]. eapply s_trans; [apply m_r, t_1|]. apply m_1r.
Qed.
Lemma cauchy_tau Fo bo a G : vol (def_grad G) <> 0 -> (fun i j => vol (def_grad G) * compute_cauchy_stress Fo bo a G i j) == snd (return_map G Fo bo a).
Proof.
  intros W. eapply s_trans; [|exact (pk_tau Fo bo a G W)]. intros i j _ _. unfold compute_cauchy_stress, mul3. rewrite !sum3. fold (vol (def_grad G)).
  set (v := vol (def_grad G)) in *. req; field. exact W.
Qed.
Lemma frame_P G G' Fo Fo' bo bo' Q Q0 a : 0 < vol Fo -> 0 < vol (def_grad G) -> sound_state bo a -> rotation Q -> rotation Q0 ->
  def_grad G' == Q ** def_grad G -> Fo' == Q0 ** Fo -> bo' == conj3 Q0 bo -> first_PK_stress Fo' bo' a G' == Q ** first_PK_stress Fo bo a G.
Proof.
  intros V W SS HQ HR EG EF EB. pose proof (W' G G' Q HQ EG) as WW.
  apply (m_cancel _ _ (def_grad G')^T); [rewrite vol_t, WW; lra|]. eapply s_trans; [apply pk_tau; rewrite WW; lra|].
  eapply s_trans; [exact (frame_tau G G' Fo Fo' bo bo' Q Q0 a V W SS HQ HR EG EF EB)|]. eapply s_trans; [apply conj_mul|]. apply s_sym.
  eapply s_trans; [apply m_r, t_ext, EG|]. eapply s_trans; [apply m_r, t_mul|]. eapply s_trans; [apply m_assoc|]. apply s_sym.
  eapply s_trans; [apply m_assoc|]. apply m_r. apply s_sym. eapply s_trans; [apply s_sym, m_assoc|]. apply m_l. apply pk_tau. lra.
Qed.

(** ** all about one step *)
Section Step.
  Variables (G Fo bo f : tensor) (a : R).
  Hypothesis V : 0 < vol Fo.
  Hypothesis W : 0 < vol (def_grad G).
  Hypothesis SS : sound_state bo a.
  Hypothesis EF : f ** Fo == def_grad G.
  Let bt := conj3 (shape_of f) bo.
  Let b' := fst (fst (return_map G Fo bo a)).
  Let a' := snd (fst (return_map G Fo bo a)).
  Let A0 : 0 <= a := proj2 (proj2 SS).
  Lemma st_trial : be_trial G Fo bo == bt. Proof. apply trial_conj; [lra|exact EF]. Qed.
  Lemma st_f : 0 < vol f. Proof. exact (quot_vol Fo _ f V W EF). Qed.
  Lemma st_pos : positive bt. Proof. apply conj_positive; [rewrite (shape_vol f st_f); lra|exact (proj1 (proj2 SS))]. Qed.
  Lemma st_sym : symmetric 3 bt. Proof. apply conj_symmetric. exact (proj1 SS). Qed.
  Lemma st_tr : 0 < trace 3 (be_trial G Fo bo). Proof. rewrite (trace_ext 3 _ _ st_trial). exact (positive_trace _ st_pos). Qed.
  Lemma st_mean : 0 < mean bt. Proof. unfold mean. pose proof (positive_trace _ st_pos). lra. Qed.
  Lemma st_b : b' == b_new bt a.
  Proof. eapply s_trans; [exact (map_b G Fo bo a A0 st_tr)|]. apply b_new_ext, st_trial. Qed.
  Lemma st_a : a' = a + gain bt a.
  Proof. unfold a'. rewrite (map_a G Fo bo a st_tr). now rewrite (gain_ext _ _ a st_trial). Qed.
  Lemma st_tau : snd (return_map G Fo bo a) == kirchhoff (vol (def_grad G)) b'.
  Proof. eapply s_trans; [exact (map_tau G Fo bo a A0 st_tr)|]. apply kirchhoff_ext. apply s_sym. exact (map_b G Fo bo a A0 st_tr). Qed.
  Lemma positive_ext A B : A == B -> positive A -> positive B.
  Proof.
    intros H PA v X. replace (sum_n (K := Rops) 3 (fun i => sum_n (K := Rops) 3 (fun j => v i * B i j * v j)))
      with (sum_n (K := Rops) 3 (fun i => sum_n (K := Rops) 3 (fun j => v i * A i j * v j))); [now apply PA|].
    apply sum_n_ext. intros i Hi. apply sum_n_ext. intros j Hj. now rewrite (H i j Hi Hj).
  Qed.
  Lemma st_sound : sound_state b' a'.
  Proof.
    split; [|split].
    - intros i j Hi Hj. rewrite (st_b i j Hi Hj), (st_b j i Hj Hi). apply b_new_symmetric; auto. exact st_sym.
    - apply (positive_ext (b_new bt a)); [apply s_sym, st_b|]. apply b_new_positive; [exact A0|exact st_mean|exact st_pos].
    - rewrite st_a. pose proof (gain_nonneg bt a st_mean). pose proof A0. lra.
  Qed.
  Lemma st_within : shear_stress b' <= strength a'.
  Proof. rewrite (shear_stress_ext _ _ st_b), st_a. apply b_new_within; [exact A0|exact st_mean]. Qed.
  Lemma st_trace : trace 3 b' = trace 3 bt.
  Proof. rewrite (trace_ext 3 _ _ st_b). apply b_new_trace. Qed.
  Lemma st_elastic : shear_stress bt <= strength a -> a' = a /\ b' == bt.
  Proof.
    intros H. assert (O : over bt a <= 0) by (unfold over; lra). split.
    - rewrite st_a, (proj2 (elastic_keep bt a O)). ring.
    - eapply s_trans; [exact st_b|]. apply b_new_elastic. exact O.
  Qed.
  Lemma st_plastic : strength a < shear_stress bt -> a < a' /\ shear_stress b' = strength a' /\ exists t, 0 < t < 1 /\ shear_part 3 b' == (fun i j => t * shear_part 3 bt i j).
  Proof.
    intros H. assert (O : 0 < over bt a) by (unfold over; lra). split; [|split].
    - rewrite st_a. pose proof (gain_pos bt a st_mean O). lra.
    - rewrite (shear_stress_ext _ _ st_b), st_a. apply b_new_surface; [exact A0|exact st_mean|lra].
    - exists (keep bt a). split; [pose proof (keep_range bt a A0 st_mean); pose proof (keep_lt bt a A0 st_mean O); lra|].
      eapply s_trans; [apply shear_ext, st_b|]. apply b_new_shear.
  Qed.
  Lemma st_flow : sqrt (2 / 3) * (shear_stress bt - shear_stress b') = 2 * 80000 * (trace 3 bt / 3) * (a' - a).
  Proof. rewrite (shear_stress_ext _ _ st_b), st_a. rewrite (flow_amount bt a A0 st_mean). unfold mean. req; ring. Qed.
End Step.
