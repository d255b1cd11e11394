(** The return map over load steps and over the mesh, for C76. *)
From Coq Require Import Reals List Arith Lia Lra Bool.
From Verif Require Import Num Arr ArrFacts Fe Problem SpecAssembly SpecWeak KernelFacts SpecEnergy EnergyFacts Elastic ElasticFacts SpecElastic ElasticMain Plasticity SpecPlasticity PlasticityFacts.
Import ListNotations.
Local Open Scope R_scope.

Definition tsub (A B : tensor) : tensor := fun i j => A i j - B i j.

Lemma sum_le n (a b : nat -> R) : (forall k, (k < n)%nat -> a k <= b k) -> sum_n (K := Rops) n a <= sum_n (K := Rops) n b.
Proof.
  induction n as [|n IH]; intros H; [apply Rle_refl|]. rewrite !(sum_n_S Rops_ring). apply Rplus_le_compat; [apply IH; auto|apply H; auto].
Qed.

Section Point.
  Variable d : nat.
  Hypothesis D : (0 < d)%nat.

  Lemma same_refl A : same_on d A A. Proof. intros i j _ _. reflexivity. Qed.
  Lemma same_sym A B : same_on d A B -> same_on d B A. Proof. intros H i j Hi Hj. symmetry. now apply H. Qed.
  Lemma tsub_comb A B : same_on d (tsub A B) (tcomb 1 A (- 1) B).
  Proof. intros i j _ _. unfold tsub, tcomb. req; ring. Qed.
  Lemma ddot_sub_l A B C : ddot d (tsub A B) C = ddot d A C - ddot d B C.
  Proof. rewrite (ddot_ext d _ _ C C (tsub_comb A B) (same_refl C)), ddot_comb_l. ring. Qed.
  Lemma ddot_sub_r A B C : ddot d C (tsub A B) = ddot d C A - ddot d C B.
  Proof. rewrite ddot_sym, ddot_sub_l, (ddot_sym d A), (ddot_sym d B). ring. Qed.
  Lemma ddot_plus_r A B C : ddot d C (fun i j => A i j + B i j) = ddot d C A + ddot d C B.
  Proof. rewrite (ddot_ext d C C _ (tcomb 1 A 1 B) (same_refl C)) by (intros i j _ _; unfold tcomb; req; ring). rewrite ddot_comb_r. ring. Qed.

  (** the complementary energy product *)
  Definition cb (a b : tensor) : R := ddot d a (compliance d b).
  Lemma cb_hbil a b : cb a b = hbil d (compliance d a) (compliance d b).
  Proof. unfold cb, hbil. apply ddot_ext; [|apply same_refl]. apply same_sym, compliance_ok, D. Qed.
  Lemma cb_sym a b : cb a b = cb b a.
  Proof. rewrite !cb_hbil. apply hbil_sym. Qed.
  Lemma cb_nonneg a : 0 <= cb a a.
  Proof. rewrite cb_hbil. now apply hbil_nonneg. Qed.
  Lemma cb_zero a : cb a a <= 0 -> same_on d a (fun _ _ => 0).
  Proof.
    rewrite cb_hbil. intros H. apply (hbil_zero d D) in H. intros i j Hi Hj. rewrite <- (compliance_ok d D a i j Hi Hj).
    rewrite (hooke_ext d _ _ H i j Hi Hj). unfold hooke. assert (E : trace d (fun _ _ => 0 : Rops) = 0) by (unfold trace; rewrite Rsum_const; req; ring).
    rewrite E. destruct (i =? j)%nat; req; ring.
  Qed.
  Lemma cb_sub_l a b c : cb (tsub a b) c = cb a c - cb b c.
  Proof. apply ddot_sub_l. Qed.
  Lemma cb_sub_r a b c : cb c (tsub a b) = cb c a - cb c b.
  Proof. rewrite cb_sym, cb_sub_l, (cb_sym a), (cb_sym b). ring. Qed.
  Lemma cb_ext a a' b b' : same_on d a a' -> same_on d b b' -> cb a b = cb a' b'.
  Proof.
    intros H1 H2. unfold cb. apply ddot_ext; auto. intros i j Hi Hj. unfold compliance. rewrite (trace_ext d b b' H2). unfold tcomb. now rewrite H2.
  Qed.
  Lemma energy_cb s w : elastic_energy d s w <-> w = / 2 * cb s s.
  Proof.
    split.
    - intros (e & S & ->). f_equal. unfold cb. apply ddot_ext; [apply same_refl|]. apply (hooke_inj d D). intros i j Hi Hj.
      rewrite (S i j Hi Hj). symmetry. now apply (compliance_ok d D).
    - intros ->. exists (compliance d s). split; [now apply compliance_ok|reflexivity].
  Qed.

  Lemma sub_admissible_flow G so eo tau : admissible d tau -> 0 <= ddot d (tsub (stress_return_map d G so eo) tau) (flow d G so eo).
  Proof. exact (flow_dissipates d D G so eo tau). Qed.

  (** two strains, one state *)
  Lemma point_monotone G1 G2 so eo : let s1 := stress_return_map d G1 so eo in let s2 := stress_return_map d G2 so eo in
    cb (tsub s1 s2) (tsub s1 s2) <= ddot d (tsub s1 s2) (tsub (strain G1) (strain G2)).
  Proof.
    intros s1 s2.
    assert (E : forall X, ddot d X (tsub (strain G1) (strain G2)) = cb X (tsub s1 s2) + ddot d X (flow d G1 so eo) - ddot d X (flow d G2 so eo)).
    { intros X. rewrite ddot_sub_r.
      assert (H : forall G, ddot d X (strain G) = ddot d X eo + (ddot d X (compliance d (tsub (stress_return_map d G so eo) so)) + ddot d X (flow d G so eo))).
      { intros G. pose proof (ddot_ext d X X _ _ (same_refl X) (strain_split d D G so eo)) as S. rewrite ddot_plus_r in S.
        change (ddot d X (tsub (strain G) eo) = ddot d X (compliance d (tsub (stress_return_map d G so eo) so)) + ddot d X (flow d G so eo)) in S.
        rewrite ddot_sub_r in S. lra. }
      rewrite !H. fold s1 s2.
      change (ddot d X (compliance d (tsub s1 so))) with (cb X (tsub s1 so)). change (ddot d X (compliance d (tsub s2 so))) with (cb X (tsub s2 so)).
      rewrite !cb_sub_r. ring. }
    rewrite E.
    pose proof (sub_admissible_flow G1 so eo s2 (return_admissible d D _ _ _)) as F1. fold s1 in F1.
    pose proof (sub_admissible_flow G2 so eo s1 (return_admissible d D _ _ _)) as F2. fold s2 in F2.
    rewrite ddot_sub_l in F1, F2. rewrite !ddot_sub_l. lra.
  Qed.
  (** work of one step *)
  Lemma point_work G so eo : let s := stress_return_map d G so eo in
    / 2 * cb s s - / 2 * cb so so <= ddot d s (tsub (strain G) eo).
  Proof.
    intros s. change (tsub (strain G) eo) with (fun k l => strain G k l - eo k l).
    rewrite (ddot_ext d s s _ _ (same_refl s) (strain_split d D G so eo)), ddot_plus_r.
    change (ddot d s (compliance d _)) with (cb s (tsub s so)).
    pose proof (sub_admissible_flow G so eo (fun _ _ => 0) (zero_admissible d D G so eo)) as F. fold s in F.
    rewrite (ddot_ext d _ s _ (flow d G so eo)) in F; [|intros i j _ _; unfold tsub; req; ring|apply same_refl].
    pose proof (cb_nonneg (tsub s so)) as N. rewrite !cb_sub_l, !cb_sub_r, (cb_sym so s) in N. rewrite cb_sub_r. lra.
  Qed.
  (** the predictor and the stress of the step differ by the stress of a plastic strain *)
  Lemma predictor_flow G so eo tau : 
    cb (tsub (predictor d G so eo) tau) (tsub (predictor d G so eo) tau) = 
    cb (tsub (predictor d G so eo) (stress_return_map d G so eo)) (tsub (predictor d G so eo) (stress_return_map d G so eo))
    + 2 * ddot d (tsub (stress_return_map d G so eo) tau) (flow d G so eo)
    + cb (tsub (stress_return_map d G so eo) tau) (tsub (stress_return_map d G so eo) tau).
  Proof.
    set (t := predictor d G so eo). set (s := stress_return_map d G so eo).
    assert (E : forall X, ddot d X (flow d G so eo) = cb X (tsub t s)).
    { intros X. unfold cb. apply ddot_ext; [apply same_refl|]. apply (hooke_inj d D). intros i j Hi Hj.
      rewrite (flow_stress d D G so eo i j Hi Hj). symmetry. exact (compliance_ok d D (tsub t s) i j Hi Hj). }
    rewrite E, !cb_sub_l, !cb_sub_r, (cb_sym s t), (cb_sym tau t), (cb_sym tau s). ring.
  Qed.
  Lemma closest G so eo tau w w' : admissible d tau ->
    elastic_energy d (tsub (predictor d G so eo) (stress_return_map d G so eo)) w -> elastic_energy d (tsub (predictor d G so eo) tau) w' -> w <= w'.
  Proof.
    intros A E E'. apply energy_cb in E, E'. subst. pose proof (predictor_flow G so eo tau) as H. pose proof (cb_nonneg (tsub (stress_return_map d G so eo) tau)).
    pose proof (sub_admissible_flow G so eo tau A). lra.
  Qed.
  Lemma only_one G so eo s' e' : admissible d s' -> same_on d (hooke d e') (tsub (predictor d G so eo) s') ->
    (forall tau, admissible d tau -> 0 <= ddot d (tsub s' tau) e') -> same_on d s' (stress_return_map d G so eo).
  Proof.
    intros A H F. set (t := predictor d G so eo) in *. set (s := stress_return_map d G so eo).
    assert (E : forall X, ddot d X e' = cb X (tsub t s')).
    { intros X. unfold cb. apply ddot_ext; [apply same_refl|]. apply (hooke_inj d D). intros i j Hi Hj.
      rewrite (H i j Hi Hj). symmetry. now apply (compliance_ok d D). }
    pose proof (F s (return_admissible d D G so eo)) as F1. rewrite E in F1.
    pose proof (predictor_flow G so eo s') as H2. fold t s in H2. pose proof (sub_admissible_flow G so eo s' A) as F2. fold s in F2.
    assert (Z : cb (tsub s s') (tsub s s') <= 0).
    { rewrite !cb_sub_l, !cb_sub_r, ?(cb_sym s t), ?(cb_sym s' t), ?(cb_sym s' s) in *. lra. }
    apply cb_zero in Z. intros i j Hi Hj. specialize (Z i j Hi Hj). unfold tsub in Z. cbn in Z |- *. lra.
  Qed.
  Lemma stay G so eo : admissible d so -> same_on d (strain G) eo -> same_on d (stress_return_map d G so eo) so.
  Proof.
    intros A H. assert (T : same_on d (predictor d G so eo) so).
    { intros i j Hi Hj. unfold predictor. rewrite (hooke_ext d _ (fun _ _ => 0)) by (auto; intros a b Ha Hb; cbn; rewrite H by auto; req; ring).
      unfold hooke. assert (E : trace d (fun _ _ => 0 : Rops) = 0) by (unfold trace; rewrite Rsum_const; req; ring). rewrite E. destruct (i =? j)%nat; req; ring. }
    intros i j Hi Hj. rewrite <- (T i j Hi Hj). apply (return_elastic d D); auto. unfold admissible. now rewrite (mises_ext d _ _ T).
  Qed.
  (** averages *)
  Lemma average_admissible n (w : nat -> R) (S : nat -> tensor) : (forall k, (k < n)%nat -> 0 <= w k) -> 0 < sum_n (K := Rops) n w ->
    (forall k, (k < n)%nat -> admissible d (S k)) -> admissible d (fun i j => sum_n (K := Rops) n (fun k => S k i j * w k) / sum_n (K := Rops) n w).
  Proof.
    intros W V A. set (W0 := sum_n (K := Rops) n w) in *. set (X := fun i j => sum_n (K := Rops) n (fun k => S k i j * w k) / W0 : Rops).
    assert (L : forall Y, ddot d X Y = sum_n (K := Rops) n (fun k => w k * ddot d (S k) Y) / W0).
    { intros Y. unfold ddot, X. unfold Rdiv. rewrite Rmult_comm, <- Rsum_mul.
      transitivity (sum_n (K := Rops) d (fun i => sum_n (K := Rops) n (fun k => / W0 * (w k * sum_n (K := Rops) d (fun j => S k i j * Y i j))))).
      - apply Rsum_ext. intros i Hi. transitivity (sum_n (K := Rops) d (fun j => sum_n (K := Rops) n (fun k => / W0 * (w k * (S k i j * Y i j))))).
        + apply Rsum_ext. intros j Hj. rewrite Rmult_assoc, Rmult_comm, Rmult_assoc. rewrite <- Rsum_mul.
          rewrite <- Rsum_mul. apply Rsum_ext. intros k Hk. cbn; ring.
        + rewrite Rsum_swap. apply Rsum_ext. intros k Hk. rewrite !Rsum_mul. reflexivity.
      - rewrite Rsum_swap. apply Rsum_ext. intros k Hk. rewrite !Rsum_mul. reflexivity. }
    assert (NX : 0 <= von_mises d X) by apply mises_nonneg.
    assert (H : W0 * ddot d X (shear_part d X) <= sum_n (K := Rops) n (fun k => 2 / 3 * (250 * von_mises d X) * w k)).
    { rewrite L. assert (E : forall y, W0 * (y / W0) = y) by (intros; field; lra). rewrite E.
      apply sum_le. intros k Hk. rewrite (ddot_sym d), (ddot_shear_r d D), (ddot_sym d).
      pose proof (mises_cauchy d (S k) X) as C. pose proof (A k Hk) as Ak. unfold admissible in Ak. pose proof (W k Hk) as Wk.
      assert (C2 : von_mises d (S k) * von_mises d X <= 250 * von_mises d X) by (apply Rmult_le_compat_r; auto).
      rewrite (Rmult_comm _ (w k)). apply Rmult_le_compat_l; [exact Wk|]. lra. }
    rewrite Rsum_mul in H. fold W0 in H. rewrite (ddot_sym d), (ddot_shear_r d D) in H.
    pose proof (mises_sq d X) as M. unfold admissible. fold X.
    assert (Q : von_mises d X * von_mises d X <= 250 * von_mises d X) by nra.
    destruct (Rle_dec (von_mises d X) 250) as [Y|Y]; [exact Y|]. nra.
  Qed.
End Point.

Section Fe.
  Let KR : ring_laws Rops := Rops_ring.
  Variables (sqrtK : Rops -> Rops) (p : problem Rops tensor) (f : fe Rops) (P : list (list Rops)).
  Hypothesis PL : plastic_problem p f.
  Lemma pl_std : standard_problem p f. Proof. exact (proj1 PL). Qed.
  Lemma pl_vd : vec f = dim f. Proof. exact (proj1 (proj2 PL)). Qed.
  Lemma pl_dim : (0 < dim f)%nat. Proof. exact (proj1 (proj2 (proj2 PL))). Qed.
  Lemma pl_tm : tensor_map (maps p) = Some (plastic_map (dim f)). Proof. exact (proj1 (proj2 (proj2 (proj2 PL)))). Qed.
  Lemma pl_cells : p_num_cells p = num_cells f.
  Proof. unfold p_num_cells, num_cells. now rewrite (KernelFacts.fe0_f p f pl_std). Qed.
  Lemma pl_source u u' c q k : source p f P u c q k = source p f P u' c q k.
  Proof. unfold source. destruct (mass_map (maps p)) eqn:E; auto. destruct PL as (_ & _ & _ & _ & H & _). now apply H. Qed.
  Lemma pl_traction u u' s e q k : traction p f P u s e q k = traction p f P u' s e q k.
  Proof.
    unfold traction. destruct (surface_maps (maps p)) as [sms|] eqn:E; auto. destruct (nth_error sms s) as [sm|] eqn:E2; auto.
    destruct PL as (_ & _ & _ & _ & _ & H & _). apply (H sms sm); auto. now apply nth_error_In in E2.
  Qed.
  Hypothesis IVS : ivs_ok p.
  Lemma pl_iv c q : (c < p_num_cells p)%nat -> iv_at p c q = [kept_stress p c q; kept_strain p c q].
  Proof.
    intros Hc. destruct PL as (_ & _ & _ & _ & _ & _ & L). destruct IVS as (LI & _). unfold kept_stress, kept_strain, iv_at.
    destruct (internal_vars p) as [|a [|b [|? ?]]]; try discriminate L.
    pose proof (LI a (or_introl eq_refl)) as La. pose proof (LI b (or_intror (or_introl eq_refl))) as Lb. cbn.
    destruct (nth_error a c) eqn:Ea; [|apply nth_error_None in Ea; exfalso; rewrite La in Ea; apply (Nat.lt_irrefl c); lia].
    destruct (nth_error b c) eqn:Eb; [|apply nth_error_None in Eb; exfalso; rewrite Lb in Eb; lia]. reflexivity.
  Qed.
  Lemma pl_stress u c q : (c < p_num_cells p)%nat -> stress p f P u c q = stress_return_map (dim f) (sol_to_grad P f u c q) (kept_stress p c q) (kept_strain p c q).
  Proof. intros Hc. unfold stress. rewrite pl_tm, pl_iv by auto. reflexivity. Qed.

  Hypothesis WF : wf_problem p.
  Hypothesis NC : (0 < p_num_cells p)%nat.
  Hypothesis MAPS : maps_ok (vec f) (dim f) (maps p).
  Hypothesis SYM : forall c q, (c < p_num_cells p)%nat -> (q < num_quads f)%nat -> symmetric (dim f) (kept_stress p c q) /\ symmetric (dim f) (kept_strain p c q).

  Lemma sym_strain d A H : symmetric d A -> ddot d A (strain H) = ddot d A H.
  Proof.
    intros S. unfold ddot. transitivity (/ 2 * (ddot d A H + sum_n (K := Rops) d (fun i => sum_n (K := Rops) d (fun j => A i j * H j i)))).
    - unfold ddot. rewrite <- Rsum_plus, <- Rsum_mul. apply Rsum_ext. intros i Hi. rewrite <- Rsum_plus, <- Rsum_mul. apply Rsum_ext. intros j Hj. unfold strain. req; ring.
    - rewrite Rsum_swap. rewrite (Rsum_ext d (fun j => sum_n (K := Rops) d (fun i => A i j * H j i)) (fun j => sum_n (K := Rops) d (fun i => A j i * H j i))).
      + unfold ddot. req; field.
      + intros i Hi. apply Rsum_ext. intros j Hj. now rewrite (S j i).
  Qed.

  Variables (u1 u2 r1 r2 : list (list Rops)).
  Hypothesis S1 : sol_ok p [u1].
  Hypothesis S2 : sol_ok p [u2].
  Hypothesis E1 : compute_residual sqrtK p [P] [u1] = Ok [r1].
  Hypothesis E2 : compute_residual sqrtK p [P] [u2] = Ok [r2].
  Let v : list (list Rops) := along (K := Rops) u1 u2 (- 1).
  Let s1 c q := stress p f P u1 c q.
  Let s2 c q := stress p f P u2 c q.

  Lemma v_ok : sol_ok p [v].
  Proof. apply (along_ok p u1 S1 u2 (- 1) S2). Qed.
  Lemma pl_work_diff : work (K := Rops) (length (points f)) (vec f) v r1 - work (K := Rops) (length (points f)) (vec f) v r2 =
    over_cells (K := Rops) p f P (fun c q => ddot (dim f) (tsub (s1 c q) (s2 c q)) (tsub (strain (sol_to_grad P f u1 c q)) (strain (sol_to_grad P f u2 c q)))).
  Proof.
    rewrite (any_work KR sqrtK p f P u1 WF NC pl_std S1 IVS MAPS v r1 v_ok E1).
    rewrite (any_work KR sqrtK p f P u2 WF NC pl_std S2 IVS MAPS v r2 v_ok E2).
    set (F1 := over_faces _ _ _ _ _). set (F2 := over_faces _ _ _ _ _).
    assert (EF : F1 = F2).
    { apply (over_faces_ext sqrtK p f P WF). intros s e q _ _ _ c fc _. apply dot1_ext; [|auto]. intros k Hk. apply pl_traction. }
    rewrite EF. change (@add Rops) with Rplus.
    match goal with |- ?A + F2 - (?B + F2) = ?C => enough (EE : A = C + B) by (rewrite EE; ring) end.
    rewrite <- over_cells_plus. apply over_cells_ext. intros c q Hc Hq. 
    rewrite (dot1_ext (vec f) (source p f P u1 c q) (source p f P u2 c q) _ (convert_from_dof_to_quad f v c q) (fun k _ => pl_source u1 u2 c q k) (fun _ _ => eq_refl)).
    change (@add Rops) with Rplus. 
    match goal with |- ?A + ?Z = ?C + (?B + ?Z) => enough (EE : A - B = C) by (rewrite <- EE; ring) end.
    rewrite pl_vd. change (dot2 (K := Rops) (dim f) (dim f)) with (ddot (dim f)). rewrite <- ddot_sub_l.
    destruct (SYM c q Hc Hq) as (Y1 & Y2).
    assert (YS : symmetric (dim f) (tsub (s1 c q) (s2 c q))).
    { intros i j Hi Hj. unfold tsub, s1, s2. rewrite !(pl_stress _ c q Hc).
      now rewrite !(return_symmetric (dim f) pl_dim _ _ _ Y1 Y2 i j). }
    fold (s1 c q) (s2 c q). rewrite ddot_sub_r, !(sym_strain _ _ _ YS), <- ddot_sub_r. apply ddot_ext; [apply same_refl|].
    intros i j Hi Hj. rewrite <- pl_vd in Hi. pose proof (grad_along KR p f P u1 WF NC pl_std S1 u2 (- 1) c q i j S2 Hc Hi) as GA.
    unfold v, tsub. etransitivity; [exact GA|]. cbn. req; ring.
  Qed.
  Lemma pl_lower c q : (c < p_num_cells p)%nat ->
    cb (dim f) (tsub (s1 c q) (s2 c q)) (tsub (s1 c q) (s2 c q)) <= ddot (dim f) (tsub (s1 c q) (s2 c q)) (tsub (strain (sol_to_grad P f u1 c q)) (strain (sol_to_grad P f u2 c q))).
  Proof. intros Hc. unfold s1, s2. rewrite !(pl_stress _ c q Hc). apply point_monotone, pl_dim. Qed.

  Lemma pl_monotone : (forall c q, (c < p_num_cells p)%nat -> (q < num_quads f)%nat -> 0 <= get_JxW P f c q) ->
    0 <= work (K := Rops) (length (points f)) (vec f) v r1 - work (K := Rops) (length (points f)) (vec f) v r2.
  Proof.
    intros J. rewrite pl_work_diff. apply Rsum_nonneg. intros c Hc. apply Rsum_nonneg. intros q Hq. apply Rmult_le_pos; [|now apply J].
    eapply Rle_trans; [|apply pl_lower, Hc]. apply cb_nonneg, pl_dim.
  Qed.
  Lemma Rsum_zero n (g : nat -> R) : (forall i, (i < n)%nat -> 0 <= g i) -> sum_n (K := Rops) n g <= 0 -> forall i, (i < n)%nat -> g i = 0.
  Proof.
    induction n as [|n IH]; intros N Z i Hi; [lia|]. rewrite (sum_n_S Rops_ring) in Z. change (@add Rops) with Rplus in Z.
    pose proof (Rsum_nonneg n g (fun x Hx => N x (Nat.lt_trans _ _ _ Hx (Nat.lt_succ_diag_r n)))) as Y. pose proof (N n (Nat.lt_succ_diag_r n)) as X.
    destruct (Nat.eq_dec i n) as [->|Ne]; [lra|]. apply IH; [auto|lra|lia].
  Qed.
  Lemma pl_unique : (forall c q, (c < p_num_cells p)%nat -> (q < num_quads f)%nat -> 0 < get_JxW P f c q) ->
    (forall n k, (n < length (points f))%nat -> (k < vec f)%nat -> get2 (@zero Rops) u1 n k = get2 (@zero Rops) u2 n k \/ get2 (@zero Rops) r1 n k = get2 (@zero Rops) r2 n k) ->
    forall c q, (c < p_num_cells p)%nat -> (q < num_quads f)%nat -> same_on (dim f) (s1 c q) (s2 c q).
  Proof.
    intros J H c q Hc Hq.
    assert (W0 : work (K := Rops) (length (points f)) (vec f) v r1 - work (K := Rops) (length (points f)) (vec f) v r2 = 0).
    { assert (WE : work (K := Rops) (length (points f)) (vec f) v r1 = work (K := Rops) (length (points f)) (vec f) v r2); [|rewrite WE; ring].
      apply Rsum_ext. intros n Hn. apply Rsum_ext. intros k Hk.
      pose proof (nth_along p f u1 pl_std S1 u2 (- 1) n k S2 Hn Hk) as A. fold v in A. destruct (H n k Hn Hk) as [A1|A1].
      - assert (Z : get2 (@zero Rops) v n k = 0) by (etransitivity; [exact A|]; rewrite A1; cbn; req; ring).
        cbn in Z |- *. rewrite Z. req; ring.
      - now rewrite A1. }
    rewrite pl_work_diff in W0. unfold over_cells in W0.
    set (g := fun c q => ddot (dim f) (tsub (s1 c q) (s2 c q)) (tsub (strain (sol_to_grad P f u1 c q)) (strain (sol_to_grad P f u2 c q))) * get_JxW P f c q : R).
    change (sum_n (K := Rops) (p_num_cells p) (fun c => sum_n (K := Rops) (num_quads f) (g c)) = 0) in W0.
    assert (N : forall c q, (c < p_num_cells p)%nat -> (q < num_quads f)%nat -> 0 <= g c q).
    { intros c' q' Hc' Hq'. apply Rmult_le_pos; [|apply Rlt_le; now apply J]. eapply Rle_trans; [|apply pl_lower, Hc']. apply cb_nonneg, pl_dim. }
    pose proof (Rsum_zero _ _ (fun i Hi => Rsum_nonneg _ _ (fun j Hj => N i j Hi Hj)) (Req_le _ _ W0) c Hc) as Z.
    pose proof (Rsum_zero _ _ (fun j Hj => N c j Hc Hj) (Req_le _ _ Z) q Hq) as Z2. unfold g in Z2.
    pose proof (J c q Hc Hq) as JP. pose proof (pl_lower c q Hc) as LB.
    apply Rmult_integral in Z2. destruct Z2 as [Z2|Z2]; [|lra]. rewrite Z2 in LB. apply cb_zero in LB; [|apply pl_dim].
    intros i j Hi Hj. specialize (LB i j Hi Hj). unfold tsub in LB. cbn in LB |- *. lra.
  Qed.
End Fe.

Section Loop.
  Variables (f : fe Rops) (P : list (list Rops)) (solve : nat -> problem Rops tensor -> result (list (list Rops))).

  (** what every state of the loop satisfies *)
  Definition sound (p : problem Rops tensor) : Prop :=
    plastic_problem p f /\ exists ss es, internal_vars p = [ss; es] /\ length ss = num_cells f /\ length es = num_cells f /\
      forall c q, (c < num_cells f)%nat -> admissible (dim f) (nth c ss (fun _ _ _ => 0) q) /\ symmetric (dim f) (nth c ss (fun _ _ _ => 0) q) /\ symmetric (dim f) (nth c es (fun _ _ _ => 0) q).

  Lemma kept_nth p ss es c q : internal_vars p = [ss; es] -> (c < length ss)%nat -> (c < length es)%nat ->
    kept_stress p c q = nth c ss (fun _ _ _ => 0) q /\ kept_strain p c q = nth c es (fun _ _ _ => 0) q.
  Proof.
    intros E Hs He. unfold kept_stress, kept_strain, iv_at. rewrite E. cbn.
    rewrite (nth_error_nth' ss (fun _ _ _ => 0) Hs), (nth_error_nth' es (fun _ _ _ => 0) He). split; reflexivity.
  Qed.
  Lemma rest_sound p : plastic_problem p f -> at_rest p f -> sound p.
  Proof.
    intros PL R. split; [exact PL|]. pose proof (pl_dim p f PL) as D. unfold at_rest, initial_vars in R. cbv zeta in R.
    eexists. eexists. split; [exact R|]. rewrite !repeat_length. split; [reflexivity|]. split; [reflexivity|]. intros c q Hc.
    rewrite nth_repeat. split; [exact (zero_admissible (dim f) D (fun _ _ => 0) (fun _ _ => 0) (fun _ _ => 0))|]. split; intros i j _ _; reflexivity.
  Qed.
  Lemma with_vars_plastic p ivs : plastic_problem p f -> length ivs = 2%nat -> plastic_problem (with_vars p ivs) f.
  Proof.
    intros (A & B & C & D0 & E & F & _) L. split; [exact A|]. split; [exact B|]. split; [exact C|]. split; [exact D0|]. split; [exact E|]. split; [exact F|exact L].
  Qed.
  Lemma update_ok p sol : sound p -> exists ivs, update_stress_strain f P (internal_vars p) sol = Ok ivs /\ sound (with_vars p ivs) /\
    forall c q, (c < num_cells f)%nat ->
      kept_stress (with_vars p ivs) c q = stress_return_map (dim f) (sol_to_grad P f sol c q) (kept_stress p c q) (kept_strain p c q) /\
      kept_strain (with_vars p ivs) c q = strain (sol_to_grad P f sol c q).
  Proof.
    intros (PL & ss & es & E & Ls & Le & H). rewrite E. cbn [update_stress_strain]. rewrite Ls, Le, Nat.eqb_refl. cbn [andb].
    eexists. split; [reflexivity|]. pose proof (pl_dim p f PL) as D.
    assert (N : forall (A : Type) (g : nat -> nat -> A) (z : nat -> A) c, (c < num_cells f)%nat -> nth c (map g (seq 0 (num_cells f))) z = g c).
    { intros A g z c Hc. rewrite (nth_indep _ _ (g 0%nat)) by now rewrite map_length, seq_length. rewrite map_nth. now rewrite seq_nth. }
    split.
    - split; [apply with_vars_plastic; auto|]. eexists. eexists. split; [reflexivity|]. rewrite !map_length, !seq_length.
      split; [reflexivity|]. split; [reflexivity|]. intros c q Hc. rewrite !N by auto. destruct (H c q Hc) as (_ & Y1 & Y2).
      split; [now apply return_admissible|]. split; [now apply return_symmetric|]. intros i j _ _. unfold strain. req; ring.
    - intros c q Hc. destruct (kept_nth p ss es c q E) as (-> & ->); [lia|lia|].
      match goal with |- kept_stress ?p' _ _ = _ /\ _ => destruct (kept_nth p' _ _ c q eq_refl) as (-> & ->) end; rewrite ?map_length, ?seq_length; auto.
      rewrite !N by auto. split; reflexivity.
  Qed.
  Lemma sound_ivs p : sound p -> forall iv, In iv (internal_vars p) -> length iv = num_cells f.
  Proof. intros (_ & ss & es & E & Ls & Le & _) iv. rewrite E. intros [<-|[<-|[]]]; auto. Qed.
  Lemma sound_kept p c q : sound p -> (c < num_cells f)%nat ->
    admissible (dim f) (kept_stress p c q) /\ symmetric (dim f) (kept_stress p c q) /\ symmetric (dim f) (kept_strain p c q).
  Proof.
    intros (PL & ss & es & E & Ls & Le & H) Hc. destruct (kept_nth p ss es c q E) as (-> & ->); [lia|lia|]. now apply H.
  Qed.

  Lemma loop_spec n : forall k p h, sound p -> load_loop f P solve n k p = Ok h -> length h = n /\
    forall i, (i < n)%nat -> let before := nth i (p :: map snd h) p in let sol := fst (nth i h ([], p)) in let after := snd (nth i h ([], p)) in
      solve (k + i)%nat before = Ok sol /\ sound before /\ sound after /\ (exists ivs, after = with_vars p ivs) /\
      forall c q, (c < num_cells f)%nat ->
      kept_stress after c q = stress_return_map (dim f) (sol_to_grad P f sol c q) (kept_stress before c q) (kept_strain before c q) /\
      kept_strain after c q = strain (sol_to_grad P f sol c q).
  Proof.
    induction n as [|n IH]; intros k p h S L.
    - injection L as <-. split; [reflexivity|]. intros i Hi. lia.
    - cbn in L. destruct (solve k p) as [sol|e] eqn:ES; [|discriminate]. cbn in L.
      destruct (update_ok p sol S) as (ivs & EU & S' & HK). rewrite EU in L. cbn in L.
      destruct (load_loop f P solve n (Datatypes.S k) (with_vars p ivs)) as [rest|e] eqn:EL; [|discriminate]. injection L as <-.
      destruct (IH _ _ _ S' EL) as (LN & HI). split; [cbn; f_equal; exact LN|]. intros [|i] Hi.
      + cbn. rewrite Nat.add_0_r. split; [exact ES|]. split; [exact S|]. split; [exact S'|]. split; [now exists ivs|exact HK].
      + specialize (HI i ltac:(lia)). cbv zeta in HI. cbv zeta.
        change (nth (Datatypes.S i) (p :: map snd ((sol, with_vars p ivs) :: rest)) p) with (nth i (with_vars p ivs :: map snd rest) p).
        change (nth (Datatypes.S i) ((sol, with_vars p ivs) :: rest) ([], p)) with (nth i rest ([], p)).
        assert (LN' : length (map snd rest) = n) by (rewrite map_length; exact LN).
        assert (B : nth i (with_vars p ivs :: map snd rest) p = nth i (with_vars p ivs :: map snd rest) (with_vars p ivs)) by (apply nth_indep; eapply Nat.lt_le_trans; [|apply Nat.eq_le_incl; symmetry; exact (f_equal Datatypes.S LN')]; lia).
        assert (A : nth i rest ([], p) = nth i rest ([], with_vars p ivs)) by (apply nth_indep; eapply Nat.lt_le_trans; [|apply Nat.eq_le_incl; symmetry; exact LN]; lia).
        rewrite B, A. replace (k + Datatypes.S i)%nat with (Datatypes.S k + i)%nat by lia.
        destruct HI as (H1 & H2 & H3 & (ivs' & H4) & H5). split; [exact H1|]. split; [exact H2|]. split; [exact H3|]. split; [|exact H5].
        exists ivs'. rewrite H4. reflexivity.
  Qed.
  Lemma loop_runs n : forall k p, sound p -> (forall i q, exists s, solve i q = Ok s) -> exists h, load_loop f P solve n k p = Ok h.
  Proof.
    induction n as [|n IH]; intros k p S A; [now eexists|]. cbn. destruct (A k p) as (s & ->). cbn. destruct (update_ok p s S) as (ivs & -> & S' & _). cbn.
    destruct (IH (Datatypes.S k) _ S' A) as (h & ->). now eexists.
  Qed.
  (** the work done at a quadrature point *)
  Definition work_at (c q : nat) (before after : problem Rops tensor) : R :=
    ddot (dim f) (kept_stress after c q) (tsub (kept_strain after c q) (kept_strain before c q)).
  Lemma loop_work n k p h c q : sound p -> load_loop f P solve n k p = Ok h -> (c < num_cells f)%nat ->
    let states := p :: map snd h in forall m, (m <= n)%nat ->
    / 2 * cb (dim f) (kept_stress (nth m states p) c q) (kept_stress (nth m states p) c q) - / 2 * cb (dim f) (kept_stress p c q) (kept_stress p c q)
    <= sum_n (K := Rops) m (fun i => work_at c q (nth i states p) (nth (S i) states p)).
  Proof.
    intros SP L Hc states. destruct (loop_spec n k p h SP L) as (LN & H). induction m as [|m IH]; intros Hm.
    - cbn. lra.
    - rewrite (sum_n_S Rops_ring). specialize (IH ltac:(lia)). destruct (H m ltac:(lia)) as (_ & (PL & _) & _ & _ & K). destruct (K c q Hc) as (K1 & K2).
      assert (A : snd (nth m h ([], p)) = nth (S m) states p).
      { unfold states. change (nth (S m) (p :: map snd h) p) with (nth m (map snd h) (snd ([] : list (list Rops), p))). symmetry. apply map_nth. }
      rewrite A in K1, K2. fold states in K1, K2. change (@add Rops) with Rplus.
      assert (W : / 2 * cb (dim f) (kept_stress (nth (S m) states p) c q) (kept_stress (nth (S m) states p) c q)
        - / 2 * cb (dim f) (kept_stress (nth m states p) c q) (kept_stress (nth m states p) c q) <= work_at c q (nth m states p) (nth (S m) states p)).
      { unfold work_at. rewrite K1, K2. apply point_work. exact (pl_dim _ f PL). }
      lra.
  Qed.
End Loop.

Section Average.
  Variables (f : fe Rops) (P : list (list Rops)).
  Lemma average_ok (ss : list (nat -> tensor)) : (0 < dim f)%nat -> length ss = num_cells f ->
    (forall c q, (c < num_cells f)%nat -> (q < num_quads f)%nat -> admissible (dim f) (nth c ss (fun _ _ _ => 0) q)) ->
    (forall c q, (c < num_cells f)%nat -> (q < num_quads f)%nat -> 0 <= get_JxW P f c q) ->
    0 < sum_n (K := Rops) (num_cells f) (fun c => sum_n (K := Rops) (num_quads f) (get_JxW P f c)) ->
    admissible (dim f) (compute_avg_stress f P ss).
  Proof.
    intros D L A J V. set (n := num_cells f) in *. set (m := num_quads f) in *.
    assert (DM : forall i j, (j < m)%nat -> ((i * m + j) / m = i)%nat /\ ((i * m + j) mod m = j)%nat).
    { intros i j Hj. split; [rewrite Nat.div_add_l by lia; rewrite Nat.div_small by lia; lia|rewrite Nat.add_comm, Nat.mod_add by lia; now apply Nat.mod_small]. }
    assert (FL : forall g : nat -> nat -> R, sum_n (K := Rops) n (fun c => sum_n (K := Rops) m (g c)) = sum_n (K := Rops) (n * m) (fun x => g (x / m)%nat (x mod m)%nat)).
    { intros g. rewrite (ProblemFacts.sum_n_mul Rops_ring). apply Rsum_ext. intros i Hi. apply Rsum_ext. intros j Hj. destruct (DM i j Hj) as (-> & ->). reflexivity. }
    assert (RG : forall x, (x < n * m)%nat -> (x / m < n)%nat /\ (x mod m < m)%nat).
    { intros x Hx. assert (m <> 0)%nat by (intros Z; rewrite Z in Hx; lia). split; [apply Nat.div_lt_upper_bound; lia|now apply Nat.mod_upper_bound]. }
    assert (V' := V). rewrite FL in V'.
    unfold admissible. rewrite (mises_ext (dim f) _ (fun i j => sum_n (K := Rops) (n * m) (fun x => nth (x / m)%nat ss (fun _ _ _ => 0) (x mod m)%nat i j * get_JxW P f (x / m)%nat (x mod m)%nat)
       / sum_n (K := Rops) (n * m) (fun x => get_JxW P f (x / m)%nat (x mod m)%nat))).
    - apply (average_admissible (dim f) D (n * m) (fun x => get_JxW P f (x / m)%nat (x mod m)%nat) (fun x => nth (x / m)%nat ss (fun _ _ _ => 0) (x mod m)%nat)); auto.
      + intros x Hx. destruct (RG x Hx). now apply J.
      + intros x Hx. destruct (RG x Hx). now apply A.
    - intros i j Hi Hj. unfold compute_avg_stress. rewrite L. fold n m. rewrite !FL. reflexivity.
  Qed.
End Average.

Lemma plastic_ok d : tensor_map_ok (K := Rops) d d (plastic_map d).
Proof.
  intros g g' iv E k j Hk Hj. destruct iv as [|so [|eo [|? ?]]]; try reflexivity. cbn [plastic_map]. assert (D : (0 < d)%nat) by lia.
  assert (T : same_on d (predictor d g so eo) (predictor d g' so eo)).
  { intros a b Ha Hb. unfold predictor. f_equal. apply hooke_ext; auto. intros m l Hm Hl. unfold strain. now rewrite !E by auto. }
  rewrite (return_form d D g so eo k j Hk Hj), (return_form d D g' so eo k j Hk Hj). unfold tcomb, cut.
  rewrite (mises_ext d _ _ T), (T k j Hk Hj), (shear_ext d _ _ T k j Hk Hj). reflexivity.
Qed.
