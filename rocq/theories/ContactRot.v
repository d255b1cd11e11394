(** Lemmas for C103: the polar decomposition. *)
From Coq Require Import String Reals List Arith Lia Lra Psatz Bool.
From Verif Require Import Num Arr ArrFacts Fe SpecFe FeFacts Problem ProblemFacts Elastic ElasticFacts Plasticity SpecEigen HyperElastic SpecHyper HyperFacts HyperMain HyperUse Contact SpecContact.
Import ListNotations.
Local Open Scope R_scope.
Local Notation sum := (sum_n (K := Rops)).

Lemma dot_product d A B : dot_of d A B = product d A B. Proof. reflexivity. Qed.
Lemma tr_transposed A : tr_of A = transposed A. Proof. reflexivity. Qed.
Lemma eye_identity : eye_of = identity. Proof. reflexivity. Qed.
Lemma sum_sq_zero n (y : nat -> R) : sum n (fun i => y i * y i) = 0 -> forall i, (i < n)%nat -> y i = 0.
Proof.
  induction n as [|n IH]; intros H i Hi; [lia|].
  assert (E : sum (S n) (fun i => y i * y i) = sum n (fun i => y i * y i) + y n * y n) by (rewrite (sum_n_S Rops_ring); reflexivity).
  assert (P : 0 <= sum n (fun i => y i * y i)) by (apply Rsum_nonneg; intros; nra). rewrite E in H. pose proof (Rle_0_sqr (y n)) as Q. unfold Rsqr in Q.
  destruct (Nat.eq_dec i n) as [->|Hn]; [nra|]. apply IH; [lra|lia].
Qed.

Section Polar.
  Variable d : nat.
  Hypothesis D : ok_dim d.
  (** a symmetric positive matrix from a decomposition *)
  Variables (C Q : tensor) (w : nat -> R).
  Hypothesis ORT : orthonormal d Q.
  Hypothesis DEC : forall i j, (i < d)%nat -> (j < d)%nat -> sum d (fun b => w b * (Q i b * Q j b)) = C i j.
  Let QtQ : same d (product d (transposed Q) Q) identity := proj1 ORT.
  Let QQt : same d (product d Q (transposed Q)) identity := proj2 ORT.
  Definition spectral (g : nat -> R) : tensor := product d (product d Q (diag_of g)) (transposed Q).
  Lemma diag_r A g i j : (j < d)%nat -> product d A (diag_of g) i j = A i j * g j.
  Proof.
    intros Hj. unfold product, diag_of. transitivity (sum d (fun k => (if (j =? k)%nat then 1 else 0) * (A i k * g k))); [|exact (Rsum_delta d j (fun k => A i k * g k) Hj)].
    apply Rsum_ext. intros k Hk. rewrite (Nat.eqb_sym j k). destruct (Nat.eqb_spec k j); req; ring.
  Qed.
  Lemma spectral_at g i j : (i < d)%nat -> (j < d)%nat -> spectral g i j = sum d (fun b => g b * (Q i b * Q j b)).
  Proof. intros Hi Hj. unfold spectral. unfold product at 1. apply Rsum_ext. intros b Hb. rewrite diag_r by auto. unfold transposed. req; ring. Qed.
  Lemma spectral_sym g : same d (spectral g) (transposed (spectral g)).
  Proof. intros i j Hi Hj. unfold transposed. rewrite !spectral_at by auto. apply Rsum_ext. intros b Hb. req; ring. Qed.
  Lemma spectral_C : same d (spectral w) C.
  Proof. intros i j Hi Hj. rewrite spectral_at by auto. now apply DEC. Qed.
  Lemma spectral_Q g i b : (i < d)%nat -> (b < d)%nat -> product d (spectral g) Q i b = g b * Q i b.
  Proof.
    intros Hi Hb. unfold spectral. rewrite (product_assoc d (product d Q (diag_of g)) (transposed Q) Q i b Hi Hb).
    rewrite (product_ext d _ _ _ _ (same_refl d (product d Q (diag_of g))) QtQ i b Hi Hb), (product_1_r d _ i b Hi Hb), diag_r by auto. req; ring.
  Qed.
  Lemma by_Q A B : (forall i b, (i < d)%nat -> (b < d)%nat -> product d A Q i b = product d B Q i b) -> same d A B.
  Proof.
    intros H i j Hi Hj. rewrite <- (product_1_r d A i j Hi Hj), <- (product_1_r d B i j Hi Hj).
    rewrite <- (product_ext d A A _ _ (same_refl d A) QQt i j Hi Hj), <- (product_ext d B B _ _ (same_refl d B) QQt i j Hi Hj).
    rewrite <- (product_assoc d A Q (transposed Q) i j Hi Hj), <- (product_assoc d B Q (transposed Q) i j Hi Hj).
    refine (product_ext d _ _ _ _ _ (same_refl d _) i j Hi Hj). exact H.
  Qed.
  Lemma spectral_mul g h : same d (product d (spectral g) (spectral h)) (spectral (fun b => g b * h b)).
  Proof.
    apply by_Q. intros i b Hi Hb. rewrite (product_assoc d _ _ Q i b Hi Hb), spectral_Q by auto. unfold product at 1.
    transitivity (sum d (fun k => h b * (spectral g i k * Q k b))); [apply Rsum_ext; intros k Hk; rewrite spectral_Q by auto; req; ring|].
    rewrite Rsum_mul. fold (product d (spectral g) Q i b). rewrite spectral_Q by auto. req; ring.
  Qed.
  Lemma quad_form g x : sum d (fun i => sum d (fun j => x i * spectral g i j * x j)) = sum d (fun b => g b * (sum d (fun i => Q i b * x i) * sum d (fun i => Q i b * x i))).
  Proof.
    transitivity (sum d (fun i => sum d (fun j => sum d (fun b => g b * (Q i b * x i * (Q j b * x j)))))).
    - apply Rsum_ext. intros i Hi. apply Rsum_ext. intros j Hj. rewrite spectral_at by auto.
      transitivity (x i * x j * sum d (fun b => g b * (Q i b * Q j b))); [req; ring|]. rewrite <- Rsum_mul. apply Rsum_ext. intros b Hb. req; ring.
    - transitivity (sum d (fun i => sum d (fun b => sum d (fun j => g b * (Q i b * x i * (Q j b * x j)))))); [apply Rsum_ext; intros; apply Rsum_swap|]. rewrite Rsum_swap. apply Rsum_ext. intros b Hb.
      transitivity (sum d (fun i => g b * sum d (fun i => Q i b * x i) * (Q i b * x i))).
      + apply Rsum_ext. intros i Hi. transitivity (g b * (Q i b * x i) * sum d (fun j => Q j b * x j)); [rewrite <- Rsum_mul; apply Rsum_ext; intros; req; ring|req; ring].
      + rewrite Rsum_mul. req; ring.
  Qed.
  Lemma coords x : (exists i, (i < d)%nat /\ x i <> 0) -> exists b, (b < d)%nat /\ sum d (fun i => Q i b * x i) <> 0.
  Proof.
    intros (i & Hi & N). destruct (List.existsb (fun b => if Req_EM_T (sum d (fun i => Q i b * x i)) 0 then false else true) (seq 0 d)) eqn:E.
    - apply existsb_exists in E as (b & I & H). apply in_seq in I. exists b. split; [lia|]. destruct (Req_EM_T (sum d (fun i => Q i b * x i)) 0); [discriminate|auto].
    - exfalso. apply N. assert (Z : forall b, (b < d)%nat -> sum d (fun i => Q i b * x i) = 0).
      { intros b Hb. destruct (Req_EM_T (sum d (fun i => Q i b * x i)) 0) as [e|e]; [exact e|]. exfalso. assert (T : existsb (fun b => if Req_EM_T (sum d (fun i => Q i b * x i)) 0 then false else true) (seq 0 d) = true).
        { apply existsb_exists. exists b. split; [apply in_seq; lia|]. destruct (Req_EM_T (sum d (fun i => Q i b * x i)) 0); [contradiction|reflexivity]. } congruence. }
      transitivity (sum d (fun j => product d Q (transposed Q) i j * x j)).
      + transitivity (sum d (fun j => (if (i =? j)%nat then 1 else 0) * x j)); [symmetry; exact (Rsum_delta d i x Hi)|]. apply Rsum_ext. intros j Hj. now rewrite (QQt i j Hi Hj).
      + transitivity (sum d (fun j => sum d (fun b => Q i b * (Q j b * x j)))).
        * apply Rsum_ext. intros j Hj. unfold product, transposed. rewrite Rmult_comm. rewrite <- Rsum_mul. apply Rsum_ext. intros; req; ring.
        * rewrite Rsum_swap. apply (sum_n_zero_ext Rops_ring). intros b Hb. transitivity (Q i b * sum d (fun j => Q j b * x j)); [rewrite <- Rsum_mul; reflexivity|]. rewrite (Z b Hb). exact (Rmult_0_r _).
  Qed.
  Lemma spectral_pd g : (forall b, (b < d)%nat -> 0 < g b) -> positive_definite d (spectral g).
  Proof.
    intros P. split; [apply spectral_sym|]. intros x X. rewrite quad_form. destruct (coords x X) as (b & Hb & N).
    set (y := fun b => sum d (fun i => Q i b * x i)) in *. change (0 < sum d (fun b => g b * (y b * y b))).
    destruct (Rle_lt_or_eq_dec 0 (sum d (fun b => g b * (y b * y b)))) as [H|H]; [apply Rsum_nonneg; intros k Hk; specialize (P k Hk); nra|exact H|].
    exfalso. apply N. change (y b = 0). pose proof (sum_sq_zero d (fun b => sqrt (g b) * y b)) as Z.
    assert (E : sum d (fun i => sqrt (g i) * y i * (sqrt (g i) * y i)) = 0).
    { rewrite H. apply Rsum_ext. intros k Hk. pose proof (sqrt_sqrt (g k) (Rlt_le _ _ (P k Hk))) as S2. rewrite <- S2 at 3. req; ring. }
    pose proof (Z E b Hb) as ZB. apply Rmult_integral in ZB as [ZB|ZB]; [|exact ZB]. pose proof (sqrt_lt_R0 (g b) (P b Hb)). lra.
  Qed.
  (** the positive root is the only one *)
  Lemma root_unique V : (forall b, (b < d)%nat -> 0 < w b) -> positive_definite d V -> same d (product d V V) C -> same d V (spectral (fun b => sqrt (w b))).
  Proof.
    intros P [SV PV] VV. apply by_Q. intros i b Hi Hb. rewrite spectral_Q by auto. set (l := sqrt (w b)). assert (LP : 0 < l) by (apply sqrt_lt_R0; auto).
    assert (LL : l * l = w b) by (apply sqrt_sqrt; left; auto).
    set (y := fun k => product d V Q k b - l * Q k b).
    assert (VY : forall k, (k < d)%nat -> sum d (fun j => V k j * y j) = - l * y k).
    { intros k Hk. unfold y. transitivity (sum d (fun j => V k j * product d V Q j b) - l * sum d (fun j => V k j * Q j b)).
      - rewrite <- Rsum_mul. transitivity (sum d (fun j => V k j * product d V Q j b) + sum d (fun j => - (l * (V k j * Q j b)))).
        + rewrite <- Rsum_plus. apply Rsum_ext. intros; req; ring.
        + transitivity (sum d (fun j => V k j * product d V Q j b) + (- (1)) * sum d (fun j => l * (V k j * Q j b))); [rewrite <- Rsum_mul; f_equal; apply Rsum_ext; intros; req; ring|req; ring].
      - fold (product d V Q k b). assert (E : sum d (fun j => V k j * product d V Q j b) = w b * Q k b).
        { change (product d V (product d V Q) k b = w b * Q k b). rewrite <- (product_assoc d V V Q k b Hk Hb). rewrite (product_ext d _ _ Q Q VV (same_refl d Q) k b Hk Hb).
          rewrite <- (product_ext d _ _ Q Q spectral_C (same_refl d Q) k b Hk Hb). now apply spectral_Q. }
        rewrite E, <- LL. req; ring. }
    assert (YZ : y i = 0); [|unfold y in YZ; lra].
    destruct (Req_EM_T (y i) 0) as [e|e]; [exact e|]. exfalso. pose proof (PV y (ex_intro _ i (conj Hi e))) as PP.
    assert (E : sum d (fun i => sum d (fun j => y i * V i j * y j)) = - l * sum d (fun i => y i * y i)).
    { rewrite <- Rsum_mul. apply Rsum_ext. intros k Hk. transitivity (y k * sum d (fun j => V k j * y j)); [rewrite <- Rsum_mul; apply Rsum_ext; intros; req; ring|]. rewrite VY by auto. req; ring. }
    rewrite E in PP. assert (0 <= sum d (fun i => y i * y i)) by (apply Rsum_nonneg; intros; nra). nra.
  Qed.
End Polar.

Section Rotation.
  Variable eigh : tensor -> (nat -> R) * tensor.
  Hypothesis EO : eigh_ok 3 eigh.
  Let D3 : ok_dim 3 := or_intror eq_refl.
  Section At.
    Variable F : tensor.
    Hypothesis P : 0 < det (K := Rops) 3 F.
    Let C := product 3 (transposed F) F.
    Let w := fst (eigh C).
    Let Q := snd (eigh C).
    Lemma c_sym i j : C i j = C j i.
    Proof. unfold C, product, transposed. apply Rsum_ext. intros; req; ring. Qed.
    Lemma c_ort : orthonormal 3 Q. Proof. exact (proj1 (EO C)). Qed.
    Lemma c_dec i j : (i < 3)%nat -> (j < 3)%nat -> sum 3 (fun b => w b * (Q i b * Q j b)) = C i j.
    Proof. intros Hi Hj. etransitivity; [exact (proj2 (EO C) i j Hi Hj)|]. unfold strain. rewrite (c_sym j i). req; field. Qed.
    Lemma w_pos b : (b < 3)%nat -> 0 < w b.
    Proof.
      intros Hb. set (M := product 3 F Q).
      assert (E : w b = sum 3 (fun k => M k b * M k b)).
      { transitivity (sum 3 (fun i => Q i b * (w b * Q i b))).
        - transitivity (w b * product 3 (transposed Q) Q b b); [pose proof (proj1 c_ort b b Hb Hb) as O; change (product 3 (transposed Q) Q b b = eye b b) in O; rewrite O; unfold eye; rewrite Nat.eqb_refl; req; ring|]. unfold product, transposed. rewrite <- Rsum_mul. apply Rsum_ext. intros; req; ring.
        - transitivity (product 3 (transposed Q) (product 3 C Q) b b).
          + unfold product at 1. apply Rsum_ext. intros i Hi. unfold transposed. f_equal.
            rewrite <- (product_ext 3 _ _ Q Q (spectral_C 3 C Q w c_dec) (same_refl 3 Q) i b Hi Hb). symmetry. now apply (spectral_Q 3 Q c_ort).
          + transitivity (product 3 (transposed M) M b b); [|reflexivity]. unfold C.
            rewrite (product_ext 3 _ _ _ _ (same_refl 3 (transposed Q)) (product_assoc 3 (transposed F) F Q) b b Hb Hb). fold M.
            rewrite <- (product_assoc 3 (transposed Q) (transposed F) M b b Hb Hb). symmetry. exact (product_ext 3 _ _ _ _ (product_t 3 F Q) (same_refl 3 M) b b Hb Hb). }
      assert (N : 0 <= w b) by (rewrite E; apply Rsum_nonneg; intros; nra). destruct N as [N|N]; [exact N|exfalso]. rewrite <- N in E. symmetry in E.
      pose proof (sum_sq_zero 3 (fun k => M k b) E) as Z.
      (* the column vanishes *)
      assert (QZ : forall i, (i < 3)%nat -> Q i b = 0).
      { intros i Hi. assert (DF : det (K := Rops) 3 F <> 0) by lra.
        transitivity (product 3 (inv_mat (K := Rops) 3 F) M i b).
        - unfold M. rewrite <- (product_assoc 3 (inv_mat (K := Rops) 3 F) F Q i b Hi Hb). rewrite (product_ext 3 _ _ Q Q (inv_l 3 F D3 DF) (same_refl 3 Q) i b Hi Hb). symmetry. now apply product_1_l.
        - unfold product at 1. apply (sum_n_zero_ext Rops_ring). intros k Hk. rewrite (Z k Hk). exact (Rmult_0_r _). }
      pose proof (proj1 c_ort b b Hb Hb) as O. unfold mmul, mtrans, eye in O. rewrite Nat.eqb_refl in O.
      rewrite (sum_n_zero_ext Rops_ring) in O by (intros k Hk; rewrite (QZ k Hk); exact (Rmult_0_r _)). cbn in O. lra.
    Qed.
    Let U := spectral 3 Q (fun b => sqrt (w b)).
    Lemma u_pd : positive_definite 3 U.
    Proof. apply (spectral_pd 3 Q c_ort). intros b Hb. apply sqrt_lt_R0. now apply w_pos. Qed.
    Lemma u_root : same 3 (product 3 U U) C.
    Proof.
      apply (same_trans 3 _ _ _ (spectral_mul 3 Q c_ort _ _)). apply (same_trans 3 _ (spectral 3 Q w)); [|exact (spectral_C 3 C Q w c_dec)].
      intros i j Hi Hj. rewrite !spectral_at by auto. apply Rsum_ext. intros b Hb. now rewrite (sqrt_sqrt (w b) (Rlt_le _ _ (w_pos b Hb))).
    Qed.
    Lemma u_det : det (K := Rops) 3 U <> 0.
    Proof.
      intros Z. pose proof (det_same 3 _ _ u_root) as E. unfold C in E. rewrite !det_product, det_t, Z in E by exact D3. nra.
    Qed.
    Lemma rotation_eq : rotation eigh F = product 3 F (inv_mat (K := Rops) 3 U).
    Proof. unfold rotation. rewrite !dot_product, !tr_transposed. fold C. rewrite (surjective_pairing (eigh C)). reflexivity. Qed.
    Lemma rot_U : same 3 (product 3 (rotation eigh F) U) F.
    Proof.
      intros i j Hi Hj. rewrite rotation_eq. rewrite (product_assoc 3 F _ U i j Hi Hj). rewrite (product_ext 3 F F _ _ (same_refl 3 F) (inv_l 3 U D3 u_det) i j Hi Hj). now apply product_1_r.
    Qed.
    Lemma rot_orth : same 3 (product 3 (transposed (rotation eigh F)) (rotation eigh F)) identity.
    Proof.
      set (V := inv_mat (K := Rops) 3 U). assert (UV : same 3 (product 3 U V) identity) by (apply inv_r; [exact D3|exact u_det]).
      rewrite rotation_eq. fold V. intros i j Hi Hj.
      rewrite (product_ext 3 _ _ _ _ (product_t 3 F V) (same_refl 3 (product 3 F V)) i j Hi Hj).
      rewrite (product_assoc 3 (transposed V) (transposed F) (product 3 F V) i j Hi Hj).
      assert (E1 : same 3 (product 3 (transposed F) (product 3 F V)) U).
      { apply (same_trans 3 _ (product 3 C V)); [apply same_sym, product_assoc|]. apply (same_trans 3 _ (product 3 (product 3 U U) V)); [apply product_ext; [apply same_sym, u_root|apply same_refl]|].
        apply (same_trans 3 _ (product 3 U (product 3 U V))); [apply product_assoc|]. apply (same_trans 3 _ (product 3 U identity)); [apply product_ext; [apply same_refl|exact UV]|apply product_1_r]. }
      rewrite (product_ext 3 _ _ _ _ (same_refl 3 (transposed V)) E1 i j Hi Hj). rewrite (product_ext 3 _ _ _ _ (same_refl 3 (transposed V)) (proj1 u_pd) i j Hi Hj).
      rewrite <- (product_t 3 U V i j Hi Hj). unfold transposed. rewrite (UV j i Hj Hi). unfold identity. now rewrite Nat.eqb_sym.
    Qed.
    Lemma pd_det : 0 < det (K := Rops) 3 U.
    Proof.
      unfold U, spectral. rewrite !det_product, det_t by exact D3.
      assert (E : det (K := Rops) 3 (diag_of (fun b => sqrt (w b))) = sqrt (w 0%nat) * sqrt (w 1%nat) * sqrt (w 2%nat)) by (rewrite (det_det3 Rops_ring); unfold det3, diag_of; cbn [Nat.eqb]; cbn; ring).
      rewrite E. assert (Q1 : det (K := Rops) 3 Q * det (K := Rops) 3 Q = 1) by (rewrite <- (det_t 3 Q D3) at 1; rewrite <- det_product by exact D3; rewrite <- (det_1 3 D3); apply det_same; exact (proj1 c_ort)).
      pose proof (sqrt_lt_R0 _ (w_pos 0 ltac:(lia))). pose proof (sqrt_lt_R0 _ (w_pos 1 ltac:(lia))). pose proof (sqrt_lt_R0 _ (w_pos 2 ltac:(lia))).
      assert (0 < sqrt (w 0%nat) * sqrt (w 1%nat) * sqrt (w 2%nat)) by (repeat apply Rmult_lt_0_compat; auto). nra.
    Qed.
    Lemma rot_polar : polar 3 F (rotation eigh F).
    Proof.
      split; [|exists U; split; [exact u_pd|apply same_sym, rot_U]]. split; [|exact rot_orth].
      pose proof (det_same 3 _ _ rot_orth) as E. rewrite det_product, det_t, det_1 in E by exact D3. pose proof (det_same 3 _ _ rot_U) as E2. rewrite det_product in E2 by exact D3. pose proof pd_det.
      assert (0 < det (K := Rops) 3 (rotation eigh F)) by (apply Rnot_le_lt; intros L; nra). nra.
    Qed.
    Lemma polar_is Rm : polar 3 F Rm -> same 3 Rm (rotation eigh F).
    Proof.
      intros (RR & V & PV & FV).
      assert (VV : same 3 (product 3 V V) C).
      { unfold C. intros i j Hi Hj. rewrite (product_ext 3 (transposed F) (transposed (product 3 Rm V)) F (product 3 Rm V) ltac:(intros a b Ha Hb; exact (FV b a Hb Ha)) FV i j Hi Hj).
        rewrite (product_ext 3 _ _ _ _ (product_t 3 Rm V) (same_refl 3 (product 3 Rm V)) i j Hi Hj), (product_assoc 3 _ _ _ i j Hi Hj).
        assert (E : same 3 (product 3 (transposed Rm) (product 3 Rm V)) V).
        { apply (same_trans 3 _ (product 3 (product 3 (transposed Rm) Rm) V)); [apply same_sym, product_assoc|]. apply (same_trans 3 _ (product 3 identity V)); [apply product_ext; [exact (proj2 RR)|apply same_refl]|apply product_1_l]. }
        rewrite (product_ext 3 _ _ _ _ (same_refl 3 (transposed V)) E i j Hi Hj). refine (product_ext 3 _ _ _ _ (proj1 PV) (same_refl 3 V) i j Hi Hj). }
      pose proof (root_unique 3 C Q w c_ort c_dec V w_pos PV VV) as EV. fold U in EV.
      intros i j Hi Hj. rewrite rotation_eq. set (W := inv_mat (K := Rops) 3 U).
      rewrite (product_ext 3 _ _ W W FV (same_refl 3 W) i j Hi Hj), (product_assoc 3 Rm V W i j Hi Hj).
      assert (E : same 3 (product 3 V W) identity) by (apply (same_trans 3 _ (product 3 U W)); [apply product_ext; [exact EV|apply same_refl]|apply inv_r; [exact D3|exact u_det]]).
      rewrite (product_ext 3 Rm Rm _ _ (same_refl 3 Rm) E i j Hi Hj). symmetry. now apply product_1_r.
    Qed.
  End At.
  (** in the plane *)
  Lemma sq2 (a b : R) : 0 <= a ^ 2 + b ^ 2. Proof. nra. Qed.
  Lemma sq2_pos (a b c e : R) : 0 < a * e - b * c -> 0 < (a + e) ^ 2 + (c - b) ^ 2. Proof. intros H. nra. Qed.
  Lemma unit_alg (a b n : R) : 0 < n -> n * n = a ^ 2 + b ^ 2 -> a / n * (a / n) + b / n * (b / n) = 1.
  Proof. intros N E. transitivity ((a ^ 2 + b ^ 2) / (n * n)); [field; lra|]. rewrite <- E. field. lra. Qed.
  Lemma swing_sq F : swing F * swing F = (F 0%nat 0%nat + F 1%nat 1%nat) ^ 2 + (F 1%nat 0%nat - F 0%nat 1%nat) ^ 2.
  Proof. unfold swing. apply sqrt_sqrt. exact (sq2 _ _). Qed.
  Lemma det2_at F : det (K := Rops) 2 F = F 0%nat 0%nat * F 1%nat 1%nat - F 0%nat 1%nat * F 1%nat 0%nat.
  Proof. rewrite (det_det2 Rops_ring). reflexivity. Qed.
  Lemma swing_pos F : 0 < det (K := Rops) 2 F -> 0 < swing F.
  Proof. intros H. rewrite det2_at in H. unfold swing. apply sqrt_lt_R0. exact (sq2_pos _ _ _ _ H). Qed.
  Lemma swing_unit F : 0 < det (K := Rops) 2 F -> swing_cos F * swing_cos F + swing_sin F * swing_sin F = 1.
  Proof. intros H. exact (unit_alg _ _ _ (swing_pos F H) (swing_sq F)). Qed.
  Lemma spin_rotation c s : c * c + s * s = 1 -> is_rotation 3 (spin c s).
  Proof.
    intros H. split; [rewrite (det_det3 Rops_ring); unfold det3, spin; cbn; lra|]. intros i j Hi Hj. unfold product, transposed, identity. rewrite rsum3.
    destruct i as [|[|[|i]]]; [| | |lia]; (destruct j as [|[|[|j]]]; [| | |lia]); cbn; req; lra.
  Qed.
  Lemma pd3 (p r s : R) : 0 < p + r -> 0 < p * r - s * s -> forall x y z : R, x <> 0 \/ y <> 0 \/ z <> 0 -> 0 < p * (x * x) + 2 * s * (x * y) + r * (y * y) + z * z.
  Proof.
    intros T DD x y z N. assert (PP : 0 < p) by nra.
    assert (E : p * (p * (x * x) + 2 * s * (x * y) + r * (y * y)) = (p * x + s * y) ^ 2 + (p * r - s * s) * (y * y)) by ring.
    assert (G : 0 <= p * (x * x) + 2 * s * (x * y) + r * (y * y)) by (apply (Rmult_le_reg_l p); [exact PP|]; rewrite Rmult_0_r, E; apply Rplus_le_le_0_compat; [apply pow2_ge_0|apply Rmult_le_pos; [left; exact DD|nra]]).
    destruct (Req_EM_T z 0) as [->|NZ]; [|assert (0 < z * z) by nra; lra]. destruct (Req_EM_T y 0) as [->|NY].
    - assert (x <> 0) by tauto. assert (0 < x * x) by nra. nra.
    - assert (0 < y * y) by nra. apply (Rmult_lt_reg_l p); [exact PP|]. rewrite Rmult_0_r. replace (p * (p * (x * x) + 2 * s * (x * y) + r * (y * y) + 0 * 0)) with ((p * x + s * y) ^ 2 + (p * r - s * s) * (y * y)) by (rewrite <- E; ring). apply Rplus_le_lt_0_compat; [apply pow2_ge_0|now apply Rmult_lt_0_compat].
  Qed.
  Lemma plane_rotation F : 0 < det (K := Rops) 2 F -> same 3 (rotation eigh (embed F)) (spin (swing_cos F) (swing_sin F)).
  Proof.
    intros H. apply same_sym. apply polar_is; [now rewrite embed_det|]. pose proof (swing_pos F H) as N. pose proof (swing_sq F) as E. pose proof (swing_unit F H) as UN.
    set (c := swing_cos F) in *. set (s := swing_sin F) in *. set (n := swing F) in *.
    assert (EC : c * n = F 0%nat 0%nat + F 1%nat 1%nat) by (unfold c, swing_cos; fold n; field; lra). assert (ES : s * n = F 1%nat 0%nat - F 0%nat 1%nat) by (unfold s, swing_sin; fold n; field; lra).
    split; [now apply spin_rotation|]. exists (product 3 (transposed (spin c s)) (embed F)). split.
    - rewrite det2_at in H.
      set (p := c * F 0%nat 0%nat + s * F 1%nat 0%nat). set (r := c * F 1%nat 1%nat - s * F 0%nat 1%nat). set (t := c * F 0%nat 1%nat + s * F 1%nat 1%nat).
      assert (TE : t = c * F 1%nat 0%nat - s * F 0%nat 0%nat) by (unfold t; nra).
      split.
      + intros i j Hi Hj. unfold transposed at 2. unfold product, transposed. rewrite !rsum3.
        destruct i as [|[|[|i]]]; [| | |lia]; (destruct j as [|[|[|j]]]; [| | |lia]); unfold embed; cbn; req; unfold t in TE; lra.
      + intros x (i & Hi & NX).
        assert (QF : sum 3 (fun i => sum 3 (fun j => x i * product 3 (transposed (spin c s)) (embed F) i j * x j)) = p * (x 0%nat * x 0%nat) + 2 * t * (x 0%nat * x 1%nat) + r * (x 1%nat * x 1%nat) + x 2%nat * x 2%nat).
        { transitivity (p * (x 0%nat * x 0%nat) + (t + (c * F 1%nat 0%nat - s * F 0%nat 0%nat)) * (x 0%nat * x 1%nat) + r * (x 1%nat * x 1%nat) + x 2%nat * x 2%nat); [|rewrite <- TE; req; ring].
          unfold product, transposed. rewrite !rsum3. unfold embed, spin. cbn. unfold p, r, t. req; ring. }
        rewrite QF. apply pd3.
        * unfold p, r. assert (n * (c * F 0%nat 0%nat + s * F 1%nat 0%nat + (c * F 1%nat 1%nat - s * F 0%nat 1%nat)) = n * n) by (transitivity (c * n * (F 0%nat 0%nat + F 1%nat 1%nat) + s * n * (F 1%nat 0%nat - F 0%nat 1%nat)); [ring|rewrite EC, ES, E; ring]). nra.
        * assert (ED : p * r - t * t = F 0%nat 0%nat * F 1%nat 1%nat - F 0%nat 1%nat * F 1%nat 0%nat); [|rewrite ED; exact H].
          rewrite TE at 2. unfold p, r, t. transitivity ((c * c + s * s) * (F 0%nat 0%nat * F 1%nat 1%nat - F 0%nat 1%nat * F 1%nat 0%nat)); [ring|rewrite UN; ring].
        * destruct i as [|[|[|i]]]; [left|right; left|right; right|lia]; exact NX.
    - apply (same_trans 3 _ (product 3 (product 3 (spin c s) (transposed (spin c s))) (embed F))); [|apply product_assoc].
      apply (same_trans 3 _ (product 3 identity (embed F))); [apply same_sym, product_1_l|]. apply product_ext; [|apply same_refl]. intros i j Hi Hj. unfold product, transposed, identity. rewrite rsum3.
      destruct i as [|[|[|i]]]; [| | |lia]; (destruct j as [|[|[|j]]]; [| | |lia]); cbn; req; lra.
  Qed.
End Rotation.
