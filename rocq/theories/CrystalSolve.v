(** The local solve of crystal plasticity, for C92 and C93. *)
From Coq Require Import Reals List Arith Lia Lra Bool FunctionalExtensionality.
From Verif Require Import Num Arr ArrFacts Fe FeFacts SpecFe Problem SpecAssembly SpecWeak SpecEnergy Elastic ElasticFacts Plasticity SpecPlasticity PlasticityFacts
  Lagrangian SpecLagrangian LagrangianFacts LagrangianMain FinPlast SpecFinPlast FinPlastFacts FinPlastMain CrystalPlast SpecCrystal CrystalFacts.
Import ListNotations.
Local Open Scope R_scope.

Lemma div_mod3 i j : (j < 3)%nat -> ((3 * i + j) / 3 = i)%nat /\ ((3 * i + j) mod 3 = j)%nat.
Proof.
  intros H. rewrite (Nat.mul_comm 3 i), Nat.add_comm. split; [rewrite Nat.div_add by lia; now rewrite Nat.div_small|rewrite Nat.mod_add by lia; now apply Nat.mod_small].
Qed.
Lemma ravel_entry T i j : (i < 3)%nat -> (j < 3)%nat -> ravel9 T (3 * i + j)%nat = T i j.
Proof.
  intros Hi Hj. unfold ravel9. assert (E : (3 * i + j <? 9)%nat = true) by (apply Nat.ltb_lt; lia). rewrite E. destruct (div_mod3 i j Hj) as [-> ->]. reflexivity.
Qed.
Lemma unravel_ravel T : unflatten_fn (ravel9 T) == T.
Proof. intros i j Hi Hj. now apply ravel_entry. Qed.
Lemma ravel_ext A B : A == B -> ravel9 A = ravel9 B.
Proof.
  intros H. apply functional_extensionality. intros k. unfold ravel9. destruct (k <? 9)%nat eqn:E; [|reflexivity]. apply Nat.ltb_lt in E.
  apply H; [apply Nat.div_lt_upper_bound; lia|apply Nat.mod_upper_bound; lia].
Qed.
Lemma sum9 (g : nat -> R) : sum_n (K := Rops) 9 g = g 0%nat + (g 1%nat + (g 2%nat + (g 3%nat + (g 4%nat + (g 5%nat + (g 6%nat + (g 7%nat + (g 8%nat + 0)))))))).
Proof. reflexivity. Qed.
Lemma norm9_size A : norm9 (ravel9 A) = size3 A.
Proof. unfold norm9, size3, ddot. f_equal. rewrite !sum3, sum9. unfold ravel9. cbn [Nat.ltb Nat.leb Nat.div Nat.modulo Nat.divmod fst snd Nat.sub]. req; ring. Qed.

(** ** the quantities of a point *)
Section Point.
  Variables (tb : list (list R)) (dt : R).
  Lemma schmid_frame M s : rotate_tensor_rank_2 M (Schmid_tensors tb s) == slip_frame tb M s.
  Proof.
    intros i j _ _. unfold rotate_tensor_rank_2, slip_frame, at_vec, Schmid_tensors.
    change (slip_directions tb s) with (unit (direction tb s)). change (slip_normals tb s) with (unit (normal tb s)). rewrite !sum3. req; ring.
  Qed.
  Lemma tau_resolved M S s : h_tau tb M S s = resolved tb M S s.
  Proof.
    unfold h_tau, resolved, ddot. apply sum_n_ext. intros i Hi. apply sum_n_ext. intros j Hj. now rewrite (schmid_frame M s i j Hi Hj).
  Qed.
  Lemma abs10 z : Rabs z ^ 10 = z ^ 10.
  Proof. rewrite RPow_abs. apply Rabs_pos_eq. replace (z ^ 10) with (Rsqr (z ^ 5)) by (unfold Rsqr; ring). apply Rle_0_sqr. Qed.
  Lemma gamma_slip g M S s : h_gamma_inc tb dt g M S s = slip_by dt (resolved tb M S s) (g s).
  Proof.
    unfold h_gamma_inc, slip_by. rewrite tau_resolved, abs10. unfold ao, sign. set (t := resolved tb M S s).
    destruct (Rle_dec 0 t) as [H|H]; destruct (Rlt_dec 0 t) as [H1|H1]; try lra; destruct (Rlt_dec t 0) as [H2|H2]; try lra.
    replace t with 0 by lra. unfold Rdiv. rewrite !Rmult_0_l. cbn. ring.
  Qed.
  Lemma L_flow g M S : h_L tb dt g M S == flow tb dt g M S.
  Proof.
    intros i j Hi Hj. unfold h_L, flow, num_slip_sys. apply sum_n_ext. intros s _. rewrite gamma_slip. now rewrite (schmid_frame M s i j Hi Hj).
  Qed.
  Lemma Fp_new_spec G Fp g sl M S : Fp_inv_new (helper tb dt G Fp g sl M S) == times Fp (fun i j => ident i j - flow tb dt g M S i j).
  Proof. cbn. apply m_r. intros i j Hi Hj. rewrite (L_flow g M S i j Hi Hj). reflexivity. Qed.
  Lemma Fe_lattice G Fp g sl M S : h_Fe (helper tb dt G Fp g sl M S) == lattice tb dt (def_grad G) Fp g M S.
  Proof. unfold lattice. rewrite times_mul. cbn [helper h_Fe]. apply m_r. apply (Fp_new_spec G Fp g sl M S). Qed.

  (** *** dependence on the entries only *)
  Lemma at_vec_ext A A' v : A == A' -> forall i, (i < 3)%nat -> at_vec A v i = at_vec A' v i.
  Proof. intros H i Hi. unfold at_vec. apply sum_n_ext. intros j Hj. now rewrite (H i j Hi Hj). Qed.
  Lemma frame_ext M M' s : M == M' -> slip_frame tb M s == slip_frame tb M' s.
  Proof. intros H i j Hi Hj. unfold slip_frame. now rewrite (at_vec_ext M M' _ H i Hi), (at_vec_ext M M' _ H j Hj). Qed.
  Lemma resolved_ext M M' S S' s : M == M' -> S == S' -> resolved tb M S s = resolved tb M' S' s.
  Proof. intros H1 H2. unfold resolved. apply ddot_ext; [exact H2|now apply frame_ext]. Qed.
  Lemma flow_ext g g' M M' S S' : (forall s, (s < length tb)%nat -> g s = g' s) -> M == M' -> S == S' -> flow tb dt g M S == flow tb dt g' M' S'.
  Proof.
    intros H1 H2 H3 i j Hi Hj. unfold flow. apply sum_n_ext. intros s Hs. rewrite (resolved_ext M M' S S' s H2 H3), (H1 s Hs), (frame_ext M M' s H2 i j Hi Hj). reflexivity.
  Qed.
  Lemma lattice_ext F F' Fp Fp' g g' M M' S S' : F == F' -> Fp == Fp' -> (forall s, (s < length tb)%nat -> g s = g' s) -> M == M' -> S == S' ->
    lattice tb dt F Fp g M S == lattice tb dt F' Fp' g' M' S'.
  Proof.
    intros H0 H1 H2 H3 H4. unfold lattice. rewrite !times_mul. apply m_ext; [exact H0|]. apply m_ext; [exact H1|]. intros i j Hi Hj.
    now rewrite (flow_ext g g' M M' S S' H2 H3 H4 i j Hi Hj).
  Qed.
  Lemma green_ext A B : A == B -> green A == green B.
  Proof.
    intros H i j Hi Hj. unfold green. do 2 f_equal. apply sum_n_ext. intros k Hk. now rewrite (H k i Hk Hi), (H k j Hk Hj).
  Qed.
  Lemma cubic_ext A B : A == B -> cubic_law A == cubic_law B.
  Proof. intros H i j Hi Hj. unfold cubic_law. rewrite (trace_ext 3 A B H), (H i i Hi Hi), (H i j Hi Hj), (H j i Hj Hi). reflexivity. Qed.
  Lemma turned_ext M M' A B : M == M' -> A == B -> turned_law M A == turned_law M' B.
  Proof.
    intros H1 H2. unfold turned_law. apply conj_ext; [exact H1|]. apply cubic_ext. apply conj_ext; [|exact H2]. intros i j Hi Hj. unfold transp. now apply H1.
  Qed.
  Lemma gap_ext F F' Fp Fp' g g' M M' S S' : F == F' -> Fp == Fp' -> (forall s, (s < length tb)%nat -> g s = g' s) -> M == M' -> S == S' ->
    law_gap tb dt F Fp g M S == law_gap tb dt F' Fp' g' M' S'.
  Proof.
    intros H0 H1 H2 H3 H4 i j Hi Hj. unfold law_gap. rewrite (H4 i j Hi Hj). f_equal.
    apply turned_ext; auto. apply green_ext. now apply lattice_ext.
  Qed.
  Lemma def_grad_ext A B : A == B -> def_grad A == def_grad B.
  Proof. intros H i j Hi Hj. unfold def_grad. now rewrite (H i j Hi Hj). Qed.

  (** *** the residual *)
  Lemma residual_gap x y : implicit_residual tb dt x y = ravel9 (law_gap tb dt (def_grad (x_u_grad x)) (x_Fp_inv x) (x_g x) (x_rot tb x) (unflatten_fn y)).
  Proof.
    unfold implicit_residual. apply ravel_ext. intros i j Hi Hj. unfold law_gap. f_equal.
    set (h := helper tb dt (x_u_grad x) (x_Fp_inv x) (x_g x) (x_slip tb x) (x_rot tb x) (unflatten_fn y)).
    rewrite <- (turned_ext _ _ _ _ (s_refl (x_rot tb x)) (green_ext _ _ (Fe_lattice (x_u_grad x) (x_Fp_inv x) (x_g x) (x_slip tb x) (x_rot tb x) (unflatten_fn y))) i j Hi Hj).
    fold h. rewrite <- (turned_code (x_rot tb x) (green (h_Fe h)) i j Hi Hj). unfold contract. apply sum_n_ext. intros k _. apply sum_n_ext. intros l _.
    unfold green, mul3, trans3, eye3, ident. req; field.
  Qed.
  Lemma params_u G Fp g sl M : x_u_grad (ravel_params tb G Fp g sl M) == G.
  Proof.
    intros i j Hi Hj. unfold x_u_grad, unflatten_fn, ravel_params. assert (E : (3 * i + j <? 9)%nat = true) by (apply Nat.ltb_lt; lia). rewrite E. now apply ravel_entry.
  Qed.
  Lemma params_Fp G Fp g sl M : x_Fp_inv (ravel_params tb G Fp g sl M) == Fp.
  Proof.
    intros i j Hi Hj. unfold x_Fp_inv, unflatten_fn, ravel_params. assert (E : (9 + (3 * i + j) <? 9)%nat = false) by (apply Nat.ltb_ge; lia). rewrite E.
    assert (E2 : (9 + (3 * i + j) <? 18)%nat = true) by (apply Nat.ltb_lt; lia). rewrite E2. replace (9 + (3 * i + j) - 9)%nat with (3 * i + j)%nat by lia. now apply ravel_entry.
  Qed.
  Lemma params_g G Fp g sl M s : (s < length tb)%nat -> x_g (ravel_params tb G Fp g sl M) s = g s.
  Proof.
    intros Hs. unfold x_g, ravel_params, num_slip_sys. assert (E : (18 + s <? 9)%nat = false) by (apply Nat.ltb_ge; lia). rewrite E.
    assert (E2 : (18 + s <? 18)%nat = false) by (apply Nat.ltb_ge; lia). rewrite E2. assert (E3 : (18 + s <? 18 + length tb)%nat = true) by (apply Nat.ltb_lt; lia). rewrite E3.
    f_equal. lia.
  Qed.
  Lemma params_slip G Fp g sl M s : (s < length tb)%nat -> x_slip tb (ravel_params tb G Fp g sl M) s = sl s.
  Proof.
    intros Hs. unfold x_slip, ravel_params, num_slip_sys.
    assert (E : (18 + length tb + s <? 9)%nat = false) by (apply Nat.ltb_ge; lia). rewrite E.
    assert (E2 : (18 + length tb + s <? 18)%nat = false) by (apply Nat.ltb_ge; lia). rewrite E2. assert (E3 : (18 + length tb + s <? 18 + length tb)%nat = false) by (apply Nat.ltb_ge; lia). rewrite E3.
    assert (E4 : (18 + length tb + s <? 18 + length tb + length tb)%nat = true) by (apply Nat.ltb_lt; lia). rewrite E4. f_equal. lia.
  Qed.
  Lemma params_rot G Fp g sl M : x_rot tb (ravel_params tb G Fp g sl M) == M.
  Proof.
    intros i j Hi Hj. unfold x_rot, unflatten_fn, ravel_params, num_slip_sys. set (k := (3 * i + j)%nat). set (n := length tb).
    assert (E : (18 + n + n + k <? 9)%nat = false) by (apply Nat.ltb_ge; lia). rewrite E.
    assert (E2 : (18 + n + n + k <? 18)%nat = false) by (apply Nat.ltb_ge; lia). rewrite E2. assert (E3 : (18 + n + n + k <? 18 + n)%nat = false) by (apply Nat.ltb_ge; lia). rewrite E3.
    assert (E4 : (18 + n + n + k <? 18 + n + n)%nat = false) by (apply Nat.ltb_ge; lia). rewrite E4. replace (18 + n + n + k - (18 + n + n))%nat with k by lia. now apply ravel_entry.
  Qed.
  Lemma residual_params G Fp g sl M y : implicit_residual tb dt (ravel_params tb G Fp g sl M) y = ravel9 (law_gap tb dt (def_grad G) Fp g M (unflatten_fn y)).
  Proof.
    rewrite residual_gap. apply ravel_ext. apply gap_ext; [apply def_grad_ext, params_u|apply params_Fp|apply params_g|apply params_rot|apply s_refl].
  Qed.
End Point.

(** ** the loops *)
Section Loop.
  Variable LS : tensor -> vect -> vect.
  Variable f : vect -> vect.
  Definition half_step (y d : vect) (k : nat) : vect := fun i => y i + / 2 ^ k * d i.
  Lemma sub_loop_S y d res left r crt : sub_loop f y d res (Datatypes.S left) r crt = if Rle_dec (norm9 res) (norm9 crt)
    then sub_loop f y d res left (1 / 2 * r) (f (fun k => y k + r * d k)) else (r, crt).
  Proof. reflexivity. Qed.
  Lemma sub_loop_spec y d res : forall left r crt, norm9 res <= norm9 crt -> exists k, (k < Datatypes.S left)%nat /\
    sub_loop f y d res (Datatypes.S left) r crt = (r * / 2 ^ Datatypes.S k, f (fun i => y i + r * / 2 ^ k * d i)) /\
    (forall j, (j < k)%nat -> norm9 res <= norm9 (f (fun i => y i + r * / 2 ^ j * d i))) /\
    (k = left \/ norm9 (f (fun i => y i + r * / 2 ^ k * d i)) < norm9 res).
  Proof.
    induction left as [|left IH]; intros r crt H; rewrite sub_loop_S; destruct (Rle_dec (norm9 res) (norm9 crt)) as [_|C]; try contradiction.
    - exists 0%nat. split; [lia|]. split; [cbn [sub_loop]; f_equal; [cbn; field|]|split; [intros j Hj; lia|now left]]. f_equal. apply functional_extensionality. intros i. cbn. field.
    - set (c0 := f (fun k => y k + r * d k)).
      assert (E0 : f (fun i => y i + r * / 2 ^ 0 * d i) = c0) by (unfold c0; f_equal; apply functional_extensionality; intros i; cbn; field).
      destruct (Rle_dec (norm9 res) (norm9 c0)) as [L|L].
      + destruct (IH (1 / 2 * r) c0 L) as (k & Hk & E & B & D).
        assert (EK : forall j, f (fun i => y i + 1 / 2 * r * / 2 ^ j * d i) = f (fun i => y i + r * / 2 ^ Datatypes.S j * d i)).
        { intros j. f_equal. apply functional_extensionality. intros i. cbn [pow]. field. apply pow_nonzero. lra. }
        exists (Datatypes.S k). split; [lia|]. split; [|split].
        * fold c0. rewrite E, EK. f_equal. cbn [pow]. field. apply pow_nonzero. lra.
        * intros [|j] Hj; [rewrite E0; exact L|]. rewrite <- EK. apply B. lia.
        * destruct D as [D|D]; [left; lia|right; rewrite <- EK; exact D].
      + exists 0%nat. split; [lia|]. split; [|split; [intros j Hj; lia|right; rewrite E0; lra]]. fold c0. rewrite sub_loop_S.
        destruct (Rle_dec (norm9 res) (norm9 c0)) as [C|_]; [contradiction|]. rewrite E0. f_equal. cbn. field.
  Qed.
  (** one pass *)
  Definition next (y : vect) : vect := snd (body_fun LS f (f y, y)).
  Lemma body_spec y : let d := LS (jacfwd f y) (fun k => - f y k) in exists k, (k <= 4)%nat /\ next y = half_step y d k /\ body_fun LS f (f y, y) = (f (next y), next y) /\
    (forall j, (j < k)%nat -> norm9 (f y) <= norm9 (f (half_step y d j))) /\ (k = 4%nat \/ norm9 (f (next y)) < norm9 (f y)).
  Proof.
    intros d. destruct (sub_loop_spec y d (f y) 4 1 (f y) (Rle_refl _)) as (k & Hk & E & B & D).
    assert (H1 : forall j, (fun i => y i + 1 * / 2 ^ j * d i) = half_step y d j) by (intros j; apply functional_extensionality; intros i; unfold half_step; ring).
    assert (EB : body_fun LS f (f y, y) = (f (half_step y d k), half_step y d k)).
    { unfold body_fun. fold d. rewrite E, H1. f_equal. apply functional_extensionality. intros i. unfold half_step. cbn [pow]. field. apply pow_nonzero. lra. }
    assert (EN : next y = half_step y d k) by (unfold next; now rewrite EB).
    exists k. split; [lia|]. split; [exact EN|]. split; [now rewrite EN|]. split.
    - intros j Hj. rewrite <- H1. now apply B.
    - rewrite EN, <- H1. exact D.
  Qed.
  Fixpoint iter (m : nat) : vect := match m with O => fun _ => 0 | Datatypes.S k => next (iter k) end.
  Lemma next_state y : body_fun LS f (f y, y) = (f (next y), next y).
  Proof. destruct (body_spec y) as (_ & _ & _ & E & _). exact E. Qed.
  Lemma loop_found m : forall fuel a, (forall j, (j < m)%nat -> tol < norm9 (f (iter (a + j)%nat))) -> norm9 (f (iter (a + m)%nat)) <= tol -> (m <= fuel)%nat ->
    newton_loop LS f fuel (f (iter a), iter a) = Some (iter (a + m)%nat).
  Proof.
    induction m as [|m IH]; intros fuel a H1 H2 H3.
    - rewrite Nat.add_0_r in *. destruct fuel; cbn [newton_loop fst snd]; (destruct (Rlt_dec tol (norm9 (f (iter a)))) as [C|_]; [lra|reflexivity]).
    - destruct fuel as [|fuel]; [lia|]. cbn [newton_loop fst snd]. specialize (H1 0%nat ltac:(lia)) as H0. rewrite Nat.add_0_r in H0.
      destruct (Rlt_dec tol (norm9 (f (iter a)))) as [_|C]; [|contradiction]. rewrite next_state. change (next (iter a)) with (iter (Datatypes.S a)).
      replace (a + Datatypes.S m)%nat with (Datatypes.S a + m)%nat by lia. apply IH; [|replace (Datatypes.S a + m)%nat with (a + Datatypes.S m)%nat by lia; exact H2|lia].
      intros j Hj. replace (Datatypes.S a + j)%nat with (a + Datatypes.S j)%nat by lia. apply H1. lia.
  Qed.
  Lemma loop_running fuel : forall a, (forall j, (j <= fuel)%nat -> tol < norm9 (f (iter (a + j)%nat))) -> newton_loop LS f fuel (f (iter a), iter a) = None.
  Proof.
    induction fuel as [|fuel IH]; intros a H; cbn [newton_loop fst snd]; pose proof (H 0%nat ltac:(lia)) as H0; rewrite Nat.add_0_r in H0;
      (destruct (Rlt_dec tol (norm9 (f (iter a)))) as [_|C]; [|contradiction]); [reflexivity|].
    rewrite next_state. apply (IH (Datatypes.S a)). intros j Hj. replace (Datatypes.S a + j)%nat with (a + Datatypes.S j)%nat by lia. apply H. lia.
  Qed.
  Lemma loop_tol fuel : forall y z, newton_loop LS f fuel (f y, y) = Some z -> norm9 (f z) <= tol.
  Proof.
    induction fuel as [|fuel IH]; intros y z; cbn [newton_loop fst snd]; destruct (Rlt_dec tol (norm9 (f y))) as [C|C].
    - discriminate.
    - intros E. injection E as <-. lra.
    - rewrite next_state. apply IH.
    - intros E. injection E as <-. lra.
  Qed.
End Loop.
