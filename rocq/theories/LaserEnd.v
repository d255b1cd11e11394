(** Closing lemmas of C101. *)
From Coq Require Import String Reals List Arith Lia Lra Bool.
From Verif Require Import Num Arr ArrFacts Fe Problem SpecAssembly Basis SpecBasis SpecFe FeFacts GeomFacts SpecSelect SpecWeak BalanceFacts Init SpecInit InitFacts Mesh SpecMesh MeshMain MeshFe
  Elastic ElasticFacts Plasticity SpecPlasticity PlasticityFacts PlasticityMain ThermalFacts Laser SpecLaser LaserFacts LaserMain LaserHeat LaserBox.
Import ListNotations.
Local Open Scope R_scope.

Lemma returned_return d G so eo dT ph : (0 < d)%nat -> returned d (elastic_guess d (strain G) so eo dT ph) (laser_return d G so eo dT ph).
Proof.
  intros D. split; [exact (lreturn_trace d D G so eo dT ph)|]. exists (1 - lcut d G so eo dT ph). pose proof (lcut_range d G so eo dT ph) as R. split; [lra|].
  split; [intros i j Hi Hj; exact (lreturn_shear d D G so eo dT ph i j Hi Hj)|]. split.
  - intros C. rewrite (lcut_zero d G so eo dT ph C). lra.
  - intros C. rewrite (lreturn_mises d D G so eo dT ph). exact (proj2 (lcut_pos d G so eo dT ph C)).
Qed.
Lemma sub_add (a b : R) : a = a - b + b.
Proof. ring. Qed.
Lemma shear_whole d A i j : A i j = shear_part d A i j + (if (i =? j)%nat then trace d A / INR d else 0).
Proof. unfold shear_part. exact (sub_add _ _). Qed.
Lemma returned_unique d g s s' : returned d g s -> returned d g s' -> same_on d s s'.
Proof.
  intros (T & k & K & S & C & N) (T' & k' & K' & S' & C' & N') i j Hi Hj. rewrite (shear_whole d s), (shear_whole d s'), T, T', (S i j Hi Hj), (S' i j Hi Hj).
  destruct (Rle_dec (von_mises d g) (250 * 10 ^ 6)) as [E|E]; [now rewrite (C E), (C' E)|].
  pose proof (mises_scale d k g s (proj1 K) S) as M. pose proof (mises_scale d k' g s' (proj1 K') S') as M'. rewrite (N E) in M. rewrite (N' E) in M'.
  assert (k = k') as ->; [|reflexivity]. apply (Rmult_eq_reg_r (von_mises d g)); [lra|]. intros Z. rewrite Z in M. lra.
Qed.
Lemma returned_carried d g s : returned d g s -> carried d s.
Proof.
  intros (T & k & K & S & C & N). destruct (Rle_dec (von_mises d g) (250 * 10 ^ 6)) as [E|E]; [|unfold carried; rewrite (N E); lra].
  unfold carried. rewrite (mises_scale d k g s (proj1 K) S), (C E). lra.
Qed.
Lemma returned_elastic d g s : returned d g s -> carried d g -> same_on d s g.
Proof.
  intros (T & k & K & S & C & N) E i j Hi Hj. rewrite (shear_whole d s), (shear_whole d g), T, (S i j Hi Hj), (C E). now rewrite Rmult_1_l.
Qed.
Lemma next_mono ph T : (ph <= next_phase ph T)%nat.
Proof. rewrite next_phase_cases. destruct ph as [|[|n]]; [destruct (Rlt_dec 1623 T)|destruct (Rlt_dec T 1623)|]; lia. Qed.
Lemma fold_mono Us : forall ph, (ph <= fold_left next_phase Us ph)%nat.
Proof. induction Us as [|T Us IH]; intros ph; [reflexivity|]. cbn [fold_left]. etransitivity; [apply next_mono|apply IH]. Qed.
Lemma beam_switch_eq i : beam_switch i = if (i + 1 <? 250)%nat then 1 else 0.
Proof.
  unfold beam_switch, time, laser_on_t, Lx, vel, dt. destruct (Nat.ltb_spec (i + 1) 250) as [H|H].
  - destruct (Rlt_dec _ _) as [L|L]; [reflexivity|]. exfalso. apply L. apply lt_INR in H. replace (INR 250) with 250 in H by (rewrite INR_IZR_INZ; reflexivity). lra.
  - destruct (Rlt_dec _ _) as [L|L]; [|reflexivity]. exfalso. apply le_INR in H. replace (INR 250) with 250 in H by (rewrite INR_IZR_INZ; reflexivity). lra.
Qed.
Lemma beam_center_eq i : beam_center i 0%nat = 125 / 10 ^ 6 + 5 / 10 * (2 * INR (i + 1) / 10 ^ 6) /\ beam_center i 1%nat = 1 / 10 ^ 4.
Proof. unfold beam_center, time, Lx, Ly, vel, dt. split; field. Qed.
Lemma beam_nonneg center switch x : 0 <= switch -> 0 <= beam center switch x.
Proof.
  intros S. unfold beam. apply Rmult_le_pos; [apply Rmult_le_pos; [|apply Rlt_le, exp_pos]|exact S].
  apply Rlt_le, Rdiv_lt_0_compat; [lra|]. apply Rmult_lt_0_compat; [apply PI_RGT_0|apply pow_lt; lra].
Qed.

Lemma alg_diag (s e w a b : R) : s = a * (e - e - w * 0 + b * 0) + s.
Proof. ring. Qed.
Lemma alg_off (s e a : R) : s = a * (e - e - 0 + 0) + s.
Proof. ring. Qed.

Section Chain.
  Variables (solve_T : problem Rops lval -> result (list (list Rops))) (solve_u : problem Rops lval -> list (list Rops) -> result (list (list Rops))).
  Variables (problem_T problem_u : problem Rops lval) (fu : fe Rops) (P : list (list Rops)).
  Hypothesis D : (0 < dim fu)%nat.
  Hypothesis MU : tensor_map (maps problem_u) = Some (laser_stress (dim fu)).
  Variables (n : nat) (h : list laser_state).
  Hypothesis RUN : laser_run solve_T solve_u problem_T problem_u fu P n = Ok h.
  Hypothesis SHAPE : forall p T, solve_T p = Ok T -> shaped (length (points fu)) 1 T.
  Hypothesis MESH : mesh_ok fu.
  Notation st := (state fu h).
  Lemma st_mech m : (10 * (m + 1) <= n)%nat ->
    exists params, solve_u (with_vars problem_u params) (l_u (st (10 * m))) = Ok (l_u (st (10 * (m + 1)))) /\
    forall c q, (c < num_cells fu)%nat -> exists so eo s1 ph, has_stress (st (10 * m)) c q so /\ has_strain (st (10 * m)) c q eo /\ has_stress (st (10 * (m + 1))) c q s1 /\
      has_strain (st (10 * (m + 1))) c q (strain (sol_to_grad P fu (l_u (st (10 * (m + 1)))) c q)) /\ has_phase (st (10 * (m + 1))) c q ph /\
      returned (dim fu) (elastic_guess (dim fu) (strain (sol_to_grad P fu (l_u (st (10 * (m + 1)))) c q)) so eo (temperature fu (st (10 * (m + 1))) c q - temperature fu (st (10 * m)) c q) ph) s1 /\
      SpecWeak.stress (with_vars problem_u params) fu P (l_u (st (10 * (m + 1)))) c q = s1.
  Proof.
    intros Hm. destruct (h_mech solve_T solve_u problem_T problem_u fu P D MU n h RUN SHAPE MESH m ltac:(lia)) as (params & E & H).
    unfold state. replace (10 * (m + 1))%nat with (S (10 * m + 9)) by lia. exists params. split; [exact E|]. intros c q Hc. destruct (H c q Hc) as (so & eo & s1 & ph & H1 & H2 & H3 & H4 & H5 & H6 & H7).
    exists so, eo, s1, ph. do 5 (split; [assumption|]). split; [|exact H7]. rewrite H6. now apply returned_return.
  Qed.
  Lemma guess_start d s0 e0 ph : same_on d s0 (elastic_guess d e0 s0 e0 0 ph).
  Proof.
    intros i j Hi Hj. unfold elastic_guess, hooke_of.
    assert (Z : trace d (fun k l => e0 k l - e0 k l - (if (k =? l)%nat then expansion ph * 0 else 0)) = 0).
    { unfold trace. apply (ProblemFacts.sum_n_zero_ext Rops_ring). intros k Hk. destruct (k =? k)%nat; cbn; ring. }
    rewrite Z. destruct (i =? j)%nat; [exact (alg_diag _ _ _ _ _)|exact (alg_off _ _ _)].
  Qed.
  Lemma guess_zero d s0 e0 ph x : x = 0 -> same_on d s0 (elastic_guess d e0 s0 e0 x ph).
  Proof. intros ->. apply guess_start. Qed.
  Lemma thermoelastic m k c q s0 e0 ph : (10 * (m + k) <= n)%nat -> (c < num_cells fu)%nat -> has_stress (st (10 * m)) c q s0 -> has_strain (st (10 * m)) c q e0 ->
    (forall l so eo e1, (m <= l < m + k)%nat -> has_stress (st (10 * l)) c q so -> has_strain (st (10 * l)) c q eo -> has_strain (st (10 * (l + 1))) c q e1 ->
       has_phase (st (10 * (l + 1))) c q ph /\ carried (dim fu) (elastic_guess (dim fu) e1 so eo (temperature fu (st (10 * (l + 1))) c q - temperature fu (st (10 * l)) c q) ph)) ->
    exists s1 e1, has_stress (st (10 * (m + k))) c q s1 /\ has_strain (st (10 * (m + k))) c q e1 /\
      same_on (dim fu) s1 (elastic_guess (dim fu) e1 s0 e0 (temperature fu (st (10 * (m + k))) c q - temperature fu (st (10 * m)) c q) ph).
  Proof.
    intros Hn Hc S0 E0 H. induction k as [|k IH].
    - rewrite Nat.add_0_r in *. exists s0, e0. split; [exact S0|]. split; [exact E0|]. apply guess_zero. ring.
    - destruct IH as (s1 & e1 & S1 & E1 & G); [lia|intros l so eo e Hl; apply H; lia|]. destruct (st_mech (m + k) ltac:(lia)) as (pr & _ & ST). destruct (ST c q Hc) as (so & eo & s2 & ph' & A1 & A2 & A3 & A4 & A5 & A6 & _).
      replace (m + S k)%nat with (m + k + 1)%nat by lia. assert (so = s1) as -> by (unfold has_stress in *; congruence). assert (eo = e1) as -> by (unfold has_strain in *; congruence).
      destruct (H (m + k)%nat s1 e1 _ ltac:(lia) S1 E1 A4) as (PH & CA). assert (ph' = ph) as -> by (unfold has_phase in *; congruence).
      exists s2. eexists. split; [exact A3|]. split; [exact A4|]. pose proof (guess_chain (dim fu) e0 e1 _ s0 _ _ ph s1 s2 G (returned_elastic _ _ _ A6 CA)) as GC.
      replace (temperature fu (st (10 * (m + k + 1))) c q - temperature fu (st (10 * m)) c q) with
        (temperature fu (st (10 * (m + k))) c q - temperature fu (st (10 * m)) c q + (temperature fu (st (10 * (m + k + 1))) c q - temperature fu (st (10 * (m + k))) c q)) by ring.
      exact GC.
  Qed.
  Lemma sampled_st m c q : sampled fu h m c q = map (fun j => temperature fu (st (10 * (j + 1))) c q) (seq 0 m).
  Proof. unfold sampled. apply map_ext. intros j. unfold state. replace (10 * (j + 1))%nat with (S (10 * j + 9)) by lia. reflexivity. Qed.
  Lemma st_phase i c q : (i <= n)%nat -> (c < num_cells fu)%nat -> has_phase (st i) c q (phase_fold (map (fun j => temperature fu (st (10 * (j + 1))) c q) (seq 0 (i / 10)))).
  Proof. intros Hi Hc. rewrite <- sampled_st. exact (h_phase solve_T solve_u problem_T problem_u fu P D MU n h RUN i c q Hi Hc). Qed.
  Lemma st_phase_mono i j c q a b : (i <= j <= n)%nat -> (c < num_cells fu)%nat -> has_phase (st i) c q a -> has_phase (st j) c q b -> (a <= b)%nat.
  Proof.
    intros Hij Hc HA HB. pose proof (st_phase i c q ltac:(lia) Hc) as A. pose proof (st_phase j c q ltac:(lia) Hc) as B.
    unfold has_phase in *. rewrite HA in A. rewrite HB in B.
    set (F := fun m => phase_fold (map (fun j0 => temperature fu (st (10 * (j0 + 1))) c q) (seq 0 m))).
    assert (EA : a = F (i / 10)%nat) by (unfold F; congruence). assert (EB : b = F (j / 10)%nat) by (unfold F; congruence). rewrite EA, EB. clear - Hij.
    assert (L : (i / 10 <= j / 10)%nat) by (apply Nat.div_le_mono; lia). replace (j / 10)%nat with (i / 10 + (j / 10 - i / 10))%nat by lia.
    unfold F. rewrite seq_app, map_app. unfold phase_fold. rewrite fold_left_app. apply fold_mono.
  Qed.
End Chain.
