(** Nonlinear problems whose stress grows with the gradient have exactly one solution, for C85. *)
From Coq Require Import Reals List Arith Lia Lra Bool.
From Verif Require Import Num Arr ArrFacts Fe Problem SpecAssembly BatchFacts ProblemFacts FeFacts SpecBc BcFacts SpecWeak KernelFacts SpecEnergy EnergyFacts
  Elastic ElasticFacts SpecElastic ElasticMain LinAlg SpecWave SpecLinear SpecPosed AffineFacts DynamicsFacts SpecPlasticity PlasticityMain SpecMonotone MonoFacts.
Import ListNotations.
Local Open Scope R_scope.
Local Notation sum n g := (sum_n (K := Rops) n g).
Local Ltac rr := cbv beta; cbn [add mul zero Rops]; req; try change (car Rops) with R; ring.

Lemma schwarz_sum n (w d A B : nat -> R) : (forall i, (i < n)%nat -> 0 <= w i /\ 0 <= A i /\ 0 <= B i /\ d i * d i <= A i * B i) ->
  sum n (fun i => w i * d i) * sum n (fun i => w i * d i) <= sum n (fun i => w i * A i) * sum n (fun i => w i * B i).
Proof.
  induction n as [|n IH]; intros H; [cbn; lra|]. rewrite !(sum_n_S Rops_ring). change (@add Rops) with Rplus.
  specialize (IH (fun i Hi => H i (Nat.lt_trans _ _ _ Hi (Nat.lt_succ_diag_r n)))). destruct (H n (Nat.lt_succ_diag_r n)) as (W & A0 & B0 & D).
  set (S := sum n (fun i => w i * d i)) in *. set (SA := sum n (fun i => w i * A i)) in *. set (SB := sum n (fun i => w i * B i)) in *.
  assert (PA : 0 <= SA) by (apply Rsum_nonneg; intros i Hi; apply Rmult_le_pos; apply H; lia).
  assert (PB : 0 <= SB) by (apply Rsum_nonneg; intros i Hi; apply Rmult_le_pos; apply H; lia).
  assert (X : 2 * (S * d n) <= SA * B n + SB * A n).
  { apply Rle_trans with (Rabs (2 * (S * d n))); [apply Rle_abs|]. apply Rsqr_incr_0_var; [|assert (0 <= SA * B n) by (apply Rmult_le_pos; assumption); assert (0 <= SB * A n) by (apply Rmult_le_pos; assumption); lra].
    rewrite <- Rsqr_abs. unfold Rsqr.
    assert (Y : (S * S) * (d n * d n) <= (SA * SB) * (A n * B n)).
    { apply Rmult_le_compat; auto; apply Rle_0_sqr. }
    pose proof (Rle_0_sqr (SA * B n - SB * A n)) as Z. unfold Rsqr in Z. nra. }
  assert (WX : w n * (2 * (S * d n)) <= w n * (SA * B n + SB * A n)) by (apply Rmult_le_compat_l; assumption).
  assert (WD : (w n * w n) * (d n * d n) <= (w n * w n) * (A n * B n)) by (apply Rmult_le_compat_l; [apply Rle_0_sqr|exact D]).
  change (S * S <= SA * SB) in IH. cbv beta. lra.
Qed.

Section Main.
  Context {V : Type}.
  Variables (p : problem Rops V) (f : fe Rops) (P : list (list Rops)).
  Hypothesis WF : wf_problem p.
  Hypothesis NC : (0 < p_num_cells p)%nat.
  Hypothesis STD : standard_problem p f.
  Hypothesis IVS : ivs_ok p.
  Hypothesis MAPS : maps_ok (vec f) (dim f) (maps p).
  Hypothesis JP : forall c q, (c < p_num_cells p)%nat -> (q < num_quads f)%nat -> 0 <= get_JxW P f c q.
  Variables (e : nat -> nat -> local_field -> local_field -> R) (k L : R).
  Hypothesis EI : forall c q, (c < p_num_cells p)%nat -> (q < num_quads f)%nat -> semi_inner (vec f) (dim f) (e c q).
  Hypothesis K0 : 0 < k.
  Hypothesis G : grows p f P e k L.
  Hypothesis DEAD : dead_tractions p.
  Hypothesis JE : forall c q, (c < p_num_cells p)%nat -> (q < num_quads f)%nat -> 0 < get_JxW P f c q.
  Hypothesis SEEN : all_seen p f P e.
  Local Notation N := (length (points f)).
  Local Notation m := (vec f).
  Local Notation fl := (fld N (vec f)).

  Lemma mm_shape x : sol_ok p [x] <-> shaped N m x.
  Proof.
    unfold sol_ok, fe_of. rewrite (fes_f p f STD). cbn. split.
    - intros [_ H]. apply (H 0%nat). lia.
    - intros H. split; [reflexivity|]. intros v Hv. assert (v = 0)%nat as -> by lia. exact H.
  Qed.
  Lemma fl_ok z : sol_ok p [fl z].
  Proof. apply mm_shape, fld_shaped. Qed.
  Lemma field_along x v t c q : sol_ok p [x] -> sol_ok p [v] -> (c < p_num_cells p)%nat ->
    lsame m (dim f) (field_at f P (along (K := Rops) x v t) c q) (lcomb (field_at f P x c q) t (field_at f P v c q)).
  Proof.
    intros SX SV Hc. split; cbn [fst snd field_at lcomb].
    - intros i j Hi Hj. exact (grad_along Rops_ring p f P x WF NC STD SX v t c q i j SV Hc Hi).
    - intros i Hi. exact (value_along Rops_ring p f x WF NC STD SX v t c q i SV Hc Hi).
  Qed.
  Definition res (x : list (list Rops)) : list (list Rops) := match compute_residual sqrt p [P] [x] with Ok [r] => r | _ => [] end.
  Lemma res_ok x : sol_ok p [x] -> compute_residual sqrt p [P] [x] = Ok [res x].
  Proof. intros SX. destruct (residual_weak Rops_ring sqrt p f P x WF NC STD SX IVS MAPS) as (r & E & _). unfold res. now rewrite E. Qed.
  Lemma work_diff x y v : sol_ok p [x] -> sol_ok p [y] -> sol_ok p [v] ->
    work (K := Rops) N m v (res x) - work (K := Rops) N m v (res y) =
    over_cells (K := Rops) p f P (fun c q => lwork m (dim f) (lminus (flux_at p f P c q (field_at f P x c q)) (flux_at p f P c q (field_at f P y c q))) (field_at f P v c q)).
  Proof.
    intros SX SY SV. rewrite (any_work Rops_ring sqrt p f P x WF NC STD SX IVS MAPS v (res x) SV (res_ok x SX)).
    rewrite (any_work Rops_ring sqrt p f P y WF NC STD SY IVS MAPS v (res y) SV (res_ok y SY)).
    set (F1 := over_faces _ _ _ _ _). set (F2 := over_faces _ _ _ _ _).
    assert (EF : F1 = F2).
    { apply (over_faces_ext sqrt p f P WF). intros s i q _ _ _ c fc _. apply dot1_ext; [|auto]. intros j Hj. unfold traction.
      destruct (surface_maps (maps p)) as [sms|] eqn:ES; [|reflexivity]. destruct (nth_error sms s) as [sm|] eqn:En; [|reflexivity]. apply (DEAD sms sm); [exact ES|]. now apply nth_error_In with s. }
    rewrite EF. change (@add Rops) with Rplus.
    match goal with |- ?A + F2 - (?B + F2) = ?C => enough (EE : A = C + B) by (rewrite EE; ring) end.
    rewrite <- over_cells_plus. apply over_cells_ext. intros c q Hc Hq. unfold lwork, field_at. cbn [fst snd].
    unfold stress, source, flux_at, lminus, lcomb. cbn [fst snd]. change (@add Rops) with Rplus.
    match goal with |- ?a1 + ?b1 = ?a2 + ?b2 + (?a3 + ?b3) => enough (EE : a1 = a2 + a3 /\ b1 = b2 + b3) by (destruct EE as (-> & ->); ring) end.
    split.
    - unfold dot2. rewrite <- Rsum_plus. apply Rsum_ext. intros i Hi. rewrite <- Rsum_plus. apply Rsum_ext. intros j Hj. destruct (tensor_map (maps p)); cbn; rr.
    - unfold dot1. rewrite <- Rsum_plus. apply Rsum_ext. intros i Hi. destruct (mass_map (maps p)); cbn; rr.
  Qed.
  Definition am (x y : nat -> R) : R := over_cells (K := Rops) p f P (fun c q => e c q (field_at f P (fl x) c q) (field_at f P (fl y) c q)).
  Lemma am_lin x v t y : am (fun g => x g + t * v g) y = am x y + t * am v y.
  Proof.
    unfold am, over_cells. rewrite <- Rsum_mul, <- Rsum_plus. apply Rsum_ext. intros c Hc. rewrite <- Rsum_mul, <- Rsum_plus. apply Rsum_ext. intros q Hq.
    destruct (EI c q Hc Hq) as (E1 & E2 & E3 & E4). rewrite <- fld_along, (E4 _ _ _ (field_along (fl x) (fl v) t c q (fl_ok x) (fl_ok v) Hc)), E1. cbn [mul add Rops]. match goal with |- @eq _ ?a ?b => change (@eq R a b) end. ring.
  Qed.
  Lemma am_sym x y : am x y = am y x.
  Proof. unfold am, over_cells. apply Rsum_ext. intros c Hc. apply Rsum_ext. intros q Hq. destruct (EI c q Hc Hq) as (E1 & E2 & E3 & E4). now rewrite E2. Qed.
  Lemma am_nn x : 0 <= am x x.
  Proof.
    unfold am, over_cells. apply Rsum_nonneg. intros c Hc. apply Rsum_nonneg. intros q Hq. destruct (EI c q Hc Hq) as (E1 & E2 & E3 & E4). apply Rmult_le_pos; [apply E3|now apply JP].
  Qed.
  Lemma am_ext x x' y : (forall g, (g < N * m)%nat -> x g = x' g) -> am x y = am x' y.
  Proof. intros H. unfold am. now rewrite (fld_ext N m x x' H). Qed.
  Let hd (g : nat) : option R := prescribed f (g / m)%nat (g mod m)%nat.
  Lemma dm g : (g < N * m)%nat -> (g / m < N)%nat /\ (g mod m < m)%nat /\ (g / m * m + g mod m = g)%nat.
  Proof.
    intros Hg. assert (Hm : (m <> 0)%nat) by (intros E; rewrite E in Hg; lia). split; [apply Nat.div_lt_upper_bound; auto; lia|]. split; [now apply Nat.mod_upper_bound|]. rewrite (Nat.div_mod g m) at 3 by auto. lia.
  Qed.
  Lemma md n i : (n < N)%nat -> (i < m)%nat -> (n * m + i < N * m)%nat /\ ((n * m + i) / m = n)%nat /\ ((n * m + i) mod m = i)%nat.
  Proof.
    intros Hn Hk. assert (Hm : (m <> 0)%nat) by lia. split; [nia|]. rewrite Nat.div_add_l by auto. rewrite Nat.div_small by auto. rewrite (Nat.add_comm (n * m) i). rewrite Nat.mod_add by auto.
    rewrite Nat.mod_small by auto. lia.
  Qed.
  Lemma held_field z : heldz (N * m) hd z -> held_zero f (fl z).
  Proof.
    intros H n i b Hn Hi Hb. rewrite fld_get by auto. destruct (md n i Hn Hi) as (A & B & C). apply (H _ b A). unfold hd. now rewrite B, C.
  Qed.
  Lemma am_def x : heldz (N * m) hd x -> am x x = 0 -> forall g, (g < N * m)%nat -> x g = 0.
  Proof.
    intros HX Z g Hg. destruct (dm g Hg) as (A & B & C). rewrite <- C, <- (fld_get N m) by auto. apply SEEN; auto; [apply fl_ok|now apply held_field|].
    intros c q Hc Hq. unfold am, over_cells in Z.
    assert (NN : forall c q, (c < p_num_cells p)%nat -> (q < num_quads f)%nat -> 0 <= e c q (field_at f P (fl x) c q) (field_at f P (fl x) c q) * get_JxW P f c q).
    { intros c' q' Hc' Hq'. destruct (EI c' q' Hc' Hq') as (E1 & E2 & E3 & E4). apply Rmult_le_pos; [apply E3|now apply JP]. }
    pose proof (Rsum_zero_all _ _ (fun c' Hc' => Rsum_nonneg _ _ (fun q' Hq' => NN c' q' Hc' Hq')) Z c Hc) as Z1.
    pose proof (Rsum_zero_all _ _ (fun q' Hq' => NN c q' Hc Hq') Z1 q Hq) as Z2. apply Rmult_integral in Z2. destruct Z2 as [Z2|Z2]; [exact Z2|]. pose proof (JE c q Hc Hq). lra.
  Qed.
  Definition Fm (x : nat -> R) (g : nat) : R := get2 (@zero Rops) (res (fl x)) (g / m)%nat (g mod m)%nat.
  Lemma wk_work x v : wk (N * m) Fm x v = work (K := Rops) N m (fl v) (res (fl x)).
  Proof.
    unfold wk. rewrite (linear_sum N m (fun v => work (K := Rops) N m v (res (fl x)))).
    - apply Rsum_ext. intros g Hg. now rewrite work_unit.
    - intros a b t SA SB. unfold work. rewrite <- Rsum_mul, <- Rsum_plus. apply Rsum_ext. intros i Hi. rewrite <- Rsum_mul, <- Rsum_plus. apply Rsum_ext. intros j Hj.
      rewrite (nth_along p f a STD (proj2 (mm_shape a) SA) b t i j (proj2 (mm_shape b) SB) Hi Hj). cbn; rr.
  Qed.
  Lemma fl_sub x y : fl (fun g => x g + (-1) * y g) = along (K := Rops) (fl x) (fl y) (-1).
  Proof. symmetry. apply fld_along. Qed.
  Lemma e_same c q x x' : (c < p_num_cells p)%nat -> (q < num_quads f)%nat -> lsame m (dim f) x x' -> e c q x x = e c q x' x'.
  Proof. intros Hc Hq S. destruct (EI c q Hc Hq) as (E1 & E2 & E3 & E4). rewrite (E4 x x' x S), (E2 x' x), (E4 x x' x' S). reflexivity. Qed.
  Lemma lwork_same s x x' : lsame m (dim f) x x' -> lwork m (dim f) s x = lwork m (dim f) s x'.
  Proof.
    intros (S1 & S2). unfold lwork. f_equal; [apply Rsum_ext; intros i Hi; apply Rsum_ext; intros j Hj; now rewrite S1|apply Rsum_ext; intros i Hi; now rewrite S2].
  Qed.
  Lemma m_mono x y : k * am (fun g => x g + (-1) * y g) (fun g => x g + (-1) * y g) <= wk (N * m) Fm x (fun g => x g + (-1) * y g) - wk (N * m) Fm y (fun g => x g + (-1) * y g).
  Proof.
    rewrite !wk_work, (work_diff (fl x) (fl y) _ (fl_ok x) (fl_ok y) (fl_ok _)). unfold am, over_cells. rewrite <- Rsum_mul.
    apply sum_le. intros c Hc. rewrite <- Rsum_mul. apply PlasticityMain.sum_le. intros q Hq. cbn [mul Rops].
    rewrite <- Rmult_assoc. apply Rmult_le_compat_r; [now apply JP|]. rewrite fl_sub.
    pose proof (field_along (fl x) (fl y) (-1) c q (fl_ok x) (fl_ok y) Hc) as FA. rewrite (e_same c q _ _ Hc Hq FA), (lwork_same _ _ _ FA).
    exact (proj1 (G c q Hc Hq (field_at f P (fl x) c q) (field_at f P (fl y) c q))).
  Qed.
  Lemma m_lip x y v : (wk (N * m) Fm x v - wk (N * m) Fm y v) * (wk (N * m) Fm x v - wk (N * m) Fm y v) <= L * L * am (fun g => x g + (-1) * y g) (fun g => x g + (-1) * y g) * am v v.
  Proof.
    rewrite !wk_work, (work_diff (fl x) (fl y) _ (fl_ok x) (fl_ok y) (fl_ok _)).
    set (dd := fun c q => lwork m (dim f) (lminus (flux_at p f P c q (field_at f P (fl x) c q)) (flux_at p f P c q (field_at f P (fl y) c q))) (field_at f P (fl v) c q)).
    set (A := fun c q => e c q (field_at f P (fl (fun g => x g + (-1) * y g)) c q) (field_at f P (fl (fun g => x g + (-1) * y g)) c q)).
    set (B := fun c q => e c q (field_at f P (fl v) c q) (field_at f P (fl v) c q)).
    assert (PT : forall c q, (c < p_num_cells p)%nat -> (q < num_quads f)%nat -> 0 <= get_JxW P f c q /\ 0 <= L * L * A c q /\ 0 <= B c q /\ dd c q * dd c q <= (L * L * A c q) * B c q).
    { intros c q Hc Hq. destruct (EI c q Hc Hq) as (E1 & E2 & E3 & E4). split; [now apply JP|]. split; [apply Rmult_le_pos; [apply Rle_0_sqr|apply E3]|]. split; [apply E3|].
      unfold A. rewrite fl_sub. pose proof (field_along (fl x) (fl y) (-1) c q (fl_ok x) (fl_ok y) Hc) as FA. rewrite (e_same c q _ _ Hc Hq FA).
      exact (proj2 (G c q Hc Hq (field_at f P (fl x) c q) (field_at f P (fl y) c q)) (field_at f P (fl v) c q)). }
    assert (S1 : forall c, (c < p_num_cells p)%nat ->
       sum (num_quads f) (fun q => get_JxW P f c q * dd c q) * sum (num_quads f) (fun q => get_JxW P f c q * dd c q) <=
       sum (num_quads f) (fun q => get_JxW P f c q * (L * L * A c q)) * sum (num_quads f) (fun q => get_JxW P f c q * B c q)).
    { intros c Hc. apply schwarz_sum. intros q Hq. now apply PT. }
    assert (S2 := schwarz_sum (p_num_cells p) (fun _ => 1) (fun c => sum (num_quads f) (fun q => get_JxW P f c q * dd c q)) (fun c => sum (num_quads f) (fun q => get_JxW P f c q * (L * L * A c q))) (fun c => sum (num_quads f) (fun q => get_JxW P f c q * B c q))).
    assert (CV : forall h : nat -> nat -> R, over_cells (K := Rops) p f P h = sum (p_num_cells p) (fun c => 1 * sum (num_quads f) (fun q => get_JxW P f c q * h c q))).
    { intros h. unfold over_cells. apply Rsum_ext. intros c Hc. rewrite Rmult_1_l. apply Rsum_ext. intros q Hq. apply Rmult_comm. }
    assert (EA : L * L * am (fun g => x g + (-1) * y g) (fun g => x g + (-1) * y g) = over_cells (K := Rops) p f P (fun c q => L * L * A c q)).
    { unfold am, over_cells. rewrite <- Rsum_mul. apply Rsum_ext. intros c Hc. rewrite <- Rsum_mul. apply Rsum_ext. intros q Hq. unfold A. cbn [mul Rops]. req. ring. }
    rewrite EA. unfold am at 1. fold B. change (over_cells (K := Rops) p f P (fun c q => dd c q)) with (over_cells (K := Rops) p f P dd). rewrite !CV. apply S2.
    intros c Hc. split; [lra|]. split; [apply Rsum_nonneg; intros q Hq; destruct (PT c q Hc Hq) as (? & ? & ? & ?); now apply Rmult_le_pos|].
    split; [apply Rsum_nonneg; intros q Hq; destruct (PT c q Hc Hq) as (? & ? & ? & ?); now apply Rmult_le_pos|]. now apply S1.
  Qed.
  Lemma m_lip2 x y v : (wk (N * m) Fm x v - wk (N * m) Fm y v) * (wk (N * m) Fm x v - wk (N * m) Fm y v) <=
    (Rabs L + k) * (Rabs L + k) * am (fun g => x g + (-1) * y g) (fun g => x g + (-1) * y g) * am v v.
  Proof.
    apply Rle_trans with (1 := m_lip x y v). apply Rmult_le_compat_r; [apply am_nn|]. apply Rmult_le_compat_r; [apply am_nn|].
    pose proof (Rabs_pos L). replace (L * L) with (Rabs L * Rabs L) by (rewrite <- Rabs_mult; apply Rabs_pos_eq, Rle_0_sqr). nra.
  Qed.
  Lemma fld_back u : shaped N m u -> fl (fun g => get2 (@zero Rops) u (g / m)%nat (g mod m)%nat) = u.
  Proof.
    intros SU. apply (shaped_ext (@zero Rops) N m); [apply fld_shaped|exact SU|]. intros n i Hn Hi. etransitivity; [exact (fld_get N m _ n i Hn Hi)|]. destruct (md n i Hn Hi) as (A & B & C). now rewrite B, C.
  Qed.
  Theorem grows_one : exists x, solves p [P] [x] /\ forall y, solves p [P] y -> y = [x].
  Proof.
    pose proof (Rabs_pos L) as LP.
    destruct (mono_exists (N * m) hd am am_lin am_sym am_nn am_ext am_def Fm k (Rabs L + k) K0 ltac:(lra) (fun x y _ => m_mono x y) (fun x y v _ _ => m_lip2 x y v)) as (z & Z1 & Z2).
    assert (SV : forall x, solved sqrt p f P x <-> (shaped N m x /\ (forall n i b, (n < N)%nat -> (i < m)%nat -> prescribed f n i = Some b -> get2 (@zero Rops) x n i = b) /\
                   (forall n i, (n < N)%nat -> (i < m)%nat -> prescribed f n i = None -> get2 (@zero Rops) (res x) n i = 0))).
    { intros x. unfold solved. split.
      - intros (SO & H1 & r & E & H2). split; [now apply mm_shape|]. split; [exact H1|]. rewrite (res_ok x SO) in E. injection E as <-. exact H2.
      - intros (SO & H1 & H2). apply mm_shape in SO. split; [exact SO|]. split; [exact H1|]. exists (res x). split; [now apply res_ok|exact H2]. }
    exists (fl z). assert (SZ : solved sqrt p f P (fl z)).
    { apply SV. split; [apply fld_shaped|]. split.
      - intros n i b Hn Hi Hb. rewrite fld_get by auto. destruct (md n i Hn Hi) as (A & B & C). apply (Z1 _ b A). unfold hd. now rewrite B, C.
      - intros n i Hn Hi Hb. destruct (md n i Hn Hi) as (A & B & C). pose proof (Z2 _ A) as Q. unfold hd, Fm in Q. rewrite B, C in Q. auto. }
    assert (S1 : solves p [P] [fl z]).
    { apply (std_solves p f P WF NC STD IVS MAPS). exact SZ. }
    split; [exact S1|]. intros y SY.
    assert (exists y0, y = [y0]) as (y0 & ->).
    { destruct SY as ((LY & _) & _). rewrite (fes_f p f STD) in LY. destruct y as [|y0 [|]]; cbn in LY; try discriminate. now exists y0. }
    apply (std_solves p f P WF NC STD IVS MAPS) in SY. apply SV in SY. destruct SY as (SH & Y1 & Y2). f_equal.
    rewrite <- (fld_back y0 SH). apply fld_ext. intros g Hg.
    refine (mono_unique (N * m) hd am am_nn am_def Fm k K0 (fun x y _ => m_mono x y) (fun g => get2 (@zero Rops) y0 (g / m)%nat (g mod m)%nat) z _ _ Z1 Z2 g Hg).
    - intros h b Hh Hb. destruct (dm h Hh) as (A & B & C). now apply Y1.
    - intros h Hh Hb. destruct (dm h Hh) as (A & B & C). unfold Fm. rewrite (fld_back y0 SH). now apply Y2.
  Qed.

  (** monotone, for arrays *)
  Lemma work_mono x y : sol_ok p [x] -> sol_ok p [y] ->
    k * size_of p f P e (along (K := Rops) x y (-1)) <= work (K := Rops) N m (along (K := Rops) x y (-1)) (res x) - work (K := Rops) N m (along (K := Rops) x y (-1)) (res y).
  Proof.
    intros SX SY. assert (SXY : sol_ok p [along (K := Rops) x y (-1)]) by (exact (along_ok p x SX y (-1) SY)).
    rewrite (work_diff x y _ SX SY SXY). unfold size_of, over_cells. rewrite <- Rsum_mul.
    apply sum_le. intros c Hc. rewrite <- Rsum_mul. apply sum_le. intros q Hq. cbn [mul Rops].
    rewrite <- Rmult_assoc. apply Rmult_le_compat_r; [now apply JP|].
    pose proof (field_along x y (-1) c q SX SY Hc) as FA. rewrite (e_same c q _ _ Hc Hq FA), (lwork_same _ _ _ FA).
    exact (proj1 (G c q Hc Hq (field_at f P x c q) (field_at f P y c q))).
  Qed.
  Lemma size_scale d t : sol_ok p [d] -> forall d', sol_ok p [d'] -> (forall n i, (n < N)%nat -> (i < m)%nat -> get2 (@zero Rops) d' n i = t * get2 (@zero Rops) d n i) ->
    size_of p f P e d' = t * t * size_of p f P e d.
  Proof.
    intros SD d' SD' E.
    set (z := fun g => get2 (@zero Rops) d (g / m)%nat (g mod m)%nat). apply mm_shape in SD. apply mm_shape in SD'.
    assert (E1 : d = fl z) by (symmetry; now apply fld_back).
    assert (E2 : d' = fl (fun g => 0 * z g + t * z g)).
    { apply (shaped_ext (@zero Rops) N m); [exact SD'|apply fld_shaped|]. intros n i Hn Hi. rewrite (E n i Hn Hi), fld_get by auto. destruct (md n i Hn Hi) as (A & B & C). unfold z. rewrite B, C. rr. }
    assert (Q1 : size_of p f P e d = am z z) by (rewrite E1; reflexivity). assert (Q2 : size_of p f P e d' = am (fun g => 0 * z g + t * z g) (fun g => 0 * z g + t * z g)) by (rewrite E2; reflexivity).
    rewrite Q1, Q2. rewrite am_lin, (am_sym z), (am_sym (fun g => 0 * z g)), !am_lin.
    assert (Z0 : forall w, am (fun g => 0 * z g) w = 0).
    { intros w. rewrite (am_ext _ (fun g => z g + (-1) * z g) w) by (intros; ring). rewrite am_lin. ring. }
    rewrite Z0. rewrite (am_sym z (fun g => 0 * z g)), Z0. ring.
  Qed.
  Theorem grows_bound : forall x y r, solves p [P] [x] -> sol_ok p [y] -> meets_bcs f y -> compute_residual sqrt p [P] [y] = Ok [r] ->
    k * size_of p f P e (along (K := Rops) y x (-1)) <= work (K := Rops) N m (along (K := Rops) y x (-1)) r /\
    forall c, 0 < c -> (forall d, sol_ok p [d] -> held_zero f d -> c * squares f d <= size_of p f P e d) ->
      (k * c) * (k * c) * squares f (along (K := Rops) y x (-1)) <= free_squares f r.
  Proof.
    intros x y r SX SY BY CR. apply (std_solves p f P WF NC STD IVS MAPS) in SX. destruct SX as (SX & X1 & rx & EX & X2).
    rewrite (res_ok x SX) in EX. injection EX as <-. rewrite (res_ok y SY) in CR. injection CR as <-.
    pose proof (along_ok p y SY x (-1) SX) as SD. set (d := along (K := Rops) y x (-1)) in *.
    assert (GD : forall n i, (n < N)%nat -> (i < m)%nat -> get2 (@zero Rops) d n i = get2 (@zero Rops) y n i + (-1) * get2 (@zero Rops) x n i).
    { intros n i Hn Hi. exact (nth_along p f y STD SY x (-1) n i SX Hn Hi). }
    assert (HD : held_zero f d).
    { intros n i b Hn Hi Hb. rewrite GD by auto. rewrite (BY n i b), (X1 n i b) by auto. rr. }
    assert (W0 : work (K := Rops) N m d (res x) = 0).
    { apply work_zero. intros n i Hn Hi. destruct (prescribed f n i) eqn:Ep; [left; exact (HD n i _ Hn Hi Ep)|right; exact (X2 n i Hn Hi Ep)]. }
    pose proof (work_mono y x SY SX) as M. fold d in M. rewrite W0 in M.
    assert (M1 : k * size_of p f P e d <= work (K := Rops) N m d (res y)) by lra. split; [exact M1|].
    intros c C0 CB. specialize (CB d SD HD).
    (* Cauchy-Schwarz over the dofs *)
    assert (CS : work (K := Rops) N m d (res y) * work (K := Rops) N m d (res y) <= squares f d * free_squares f (res y)).
    { set (rf := fun n i => match prescribed f n i with Some _ => 0 | None => get2 (@zero Rops) (res y) n i end).
      assert (WE : work (K := Rops) N m d (res y) = sum N (fun n => 1 * sum m (fun i => 1 * (get2 (@zero Rops) d n i * rf n i)))).
      { unfold work. apply Rsum_ext. intros n Hn. rewrite Rmult_1_l. apply Rsum_ext. intros i Hi. unfold rf. destruct (prescribed f n i) eqn:Ep; [rewrite (HD n i _ Hn Hi Ep); rr|rr]. }
      assert (SE : squares f d = sum N (fun n => 1 * sum m (fun i => 1 * (get2 (@zero Rops) d n i * get2 (@zero Rops) d n i)))).
      { unfold squares, work. apply Rsum_ext. intros n Hn. rewrite Rmult_1_l. apply Rsum_ext. intros i Hi. rr. }
      assert (FE : free_squares f (res y) = sum N (fun n => 1 * sum m (fun i => 1 * (rf n i * rf n i)))).
      { unfold free_squares. apply Rsum_ext. intros n Hn. rewrite Rmult_1_l. apply Rsum_ext. intros i Hi. unfold rf. destruct (prescribed f n i); rr. }
      rewrite WE, SE, FE. apply schwarz_sum. intros n Hn. split; [lra|].
      split; [apply Rsum_nonneg; intros i Hi; rewrite Rmult_1_l; apply Rle_0_sqr|]. split; [apply Rsum_nonneg; intros i Hi; rewrite Rmult_1_l; apply Rle_0_sqr|].
      apply schwarz_sum. intros i Hi. split; [lra|]. split; [apply Rle_0_sqr|]. split; [apply Rle_0_sqr|]. apply Req_le. rr. }
    assert (SP : 0 <= squares f d) by (apply Rsum_nonneg; intros n Hn; apply Rsum_nonneg; intros i Hi; apply Rle_0_sqr).
    assert (FP : 0 <= free_squares f (res y)).
    { apply Rsum_nonneg. intros n Hn. apply Rsum_nonneg. intros i Hi. destruct (prescribed f n i); [lra|apply Rle_0_sqr]. }
    set (W := work (K := Rops) N m d (res y)) in *. set (S := squares f d) in *. set (F := free_squares f (res y)) in *. set (Z := size_of p f P e d) in *. change (W * W <= S * F) in CS.
    assert (L1 : k * c * S <= W) by (apply Rle_trans with (k * Z); [rewrite Rmult_assoc; apply Rmult_le_compat_l; lra|exact M1]).
    destruct (Req_dec S 0) as [S0|S0]; [rewrite S0, Rmult_0_r; exact FP|]. assert (0 < S) by lra.
    assert (KC : 0 <= k * c * S) by (apply Rmult_le_pos; [apply Rmult_le_pos|]; lra).
    assert (Q : (k * c * S) * (k * c * S) <= S * F) by (apply Rle_trans with (W * W); [apply Rmult_le_compat; assumption|exact CS]).
    apply Rmult_le_reg_l with S; [assumption|]. replace (S * (k * c * (k * c) * S)) with (k * c * S * (k * c * S)) by ring. exact Q.
  Qed.
  Lemma along_add x v t s : sol_ok p [x] -> sol_ok p [v] -> along (K := Rops) (along (K := Rops) x v t) v s = along (K := Rops) x v (t + s).
  Proof.
    intros SX SV. pose proof (along_ok p x SX v t SV) as S1. pose proof (along_ok p _ S1 v s SV) as S2. pose proof (along_ok p x SX v (t + s) SV) as S3.
    apply (shaped_ext (@zero Rops) N m); [now apply mm_shape|now apply mm_shape|]. intros n i Hn Hi.
    rewrite (nth_along p f _ STD S1 v s n i SV Hn Hi). rewrite (nth_along p f x STD SX v t n i SV Hn Hi). rewrite (nth_along p f x STD SX v (t + s) n i SV Hn Hi). cbn; rr.
  Qed.
  Theorem grows_minimum : forall (E : densities V) x y, densities_ok (vec f) (dim f) E -> (forall z, sol_ok p [z] -> derives_from p f P z E) ->
    solves p [P] [x] -> sol_ok p [y] -> meets_bcs f y ->
    total_energy sqrt p f P E x + k / 2 * size_of p f P e (along (K := Rops) y x (-1)) <= total_energy sqrt p f P E y.
  Proof.
    intros E x y DO DF SX SY BY. apply (std_solves p f P WF NC STD IVS MAPS) in SX. destruct SX as (SX & X1 & rx & EX & X2).
    rewrite (res_ok x SX) in EX. injection EX as <-.
    pose proof (along_ok p y SY x (-1) SX) as SD. set (d := along (K := Rops) y x (-1)) in *.
    assert (GD : forall n i, (n < N)%nat -> (i < m)%nat -> get2 (@zero Rops) d n i = get2 (@zero Rops) y n i + (-1) * get2 (@zero Rops) x n i).
    { intros n i Hn Hi. exact (nth_along p f y STD SY x (-1) n i SX Hn Hi). }
    assert (HD : held_zero f d).
    { intros n i b Hn Hi Hb. rewrite GD by auto. rewrite (BY n i b), (X1 n i b) by auto. rr. }
    assert (W0 : work (K := Rops) N m d (res x) = 0).
    { apply work_zero. intros n i Hn Hi. destruct (prescribed f n i) eqn:Ep; [left; exact (HD n i _ Hn Hi Ep)|right; exact (X2 n i Hn Hi Ep)]. }
    set (Z := size_of p f P e d).
    set (phi := fun t => total_energy sqrt p f P E (along (K := Rops) x d t)).
    set (dphi := fun t => work (K := Rops) N m d (res (along (K := Rops) x d t))).
    assert (DP : forall t, derivable_pt_lim phi t (dphi t)).
    { intros t. pose proof (along_ok p x SX d t SD) as ST. pose proof (DF _ ST) as DT.
      pose proof (energy_derivative sqrt p f P (along (K := Rops) x d t) WF NC STD ST IVS MAPS E d (res (along (K := Rops) x d t)) DO DT SD (res_ok _ ST)) as D0.
      intros eps He. destruct (D0 eps He) as (delta & D1). exists delta. intros h Hh Hd. specialize (D1 h Hh Hd). unfold phi.
      rewrite !(along_add x d t _ SX SD) in D1. rewrite Rplus_0_l, Rplus_0_r in D1. exact D1. }
    assert (MO : forall t, 0 < t -> k * t * Z <= dphi t).
    { intros t Ht. pose proof (along_ok p x SX d t SD) as ST. pose proof (work_mono _ x ST SX) as M.
      pose proof (along_ok p _ ST x (-1) SX) as S1.
      assert (GG : forall n i, (n < N)%nat -> (i < m)%nat -> get2 (@zero Rops) (along (K := Rops) (along (K := Rops) x d t) x (-1)) n i = t * get2 (@zero Rops) d n i).
      { intros n i Hn Hi. rewrite (nth_along p f _ STD ST x (-1) n i SX Hn Hi). rewrite (nth_along p f x STD SX d t n i SD Hn Hi). cbn; rr. }
      rewrite (size_scale d t SD _ S1 GG) in M.
      assert (WS : forall r, work (K := Rops) N m (along (K := Rops) (along (K := Rops) x d t) x (-1)) r = t * work (K := Rops) N m d r).
      { intros r. unfold work. rewrite <- Rsum_mul. apply Rsum_ext. intros n Hn. rewrite <- Rsum_mul. apply Rsum_ext. intros i Hi. rewrite (GG n i Hn Hi). rr. }
      rewrite !WS, W0 in M. fold (dphi t) in M. fold Z in M. apply Rmult_le_reg_l with t; [exact Ht|]. lra. }
    assert (E0 : phi 0 = total_energy sqrt p f P E x).
    { unfold phi. f_equal. apply (shaped_ext (@zero Rops) N m); [apply mm_shape; exact (along_ok p x SX d 0 SD)|now apply mm_shape|]. intros n i Hn Hi.
      rewrite (nth_along p f x STD SX d 0 n i SD Hn Hi). cbn; rr. }
    assert (E1 : phi 1 = total_energy sqrt p f P E y).
    { unfold phi. f_equal. apply (shaped_ext (@zero Rops) N m); [apply mm_shape; exact (along_ok p x SX d 1 SD)|now apply mm_shape|]. intros n i Hn Hi.
      rewrite (nth_along p f x STD SX d 1 n i SD Hn Hi), GD by auto. cbn; rr. }
    rewrite <- E0, <- E1.
    assert (DQ : forall t, derivable_pt_lim (fun t => phi t - k / 2 * Z * (t * t)) t (dphi t - k * t * Z)).
    { intros t. replace (dphi t - k * t * Z) with (dphi t - (k / 2 * Z) * (1 * t + t * 1)) by field. apply (derivable_pt_lim_minus phi (fun t => k / 2 * Z * (t * t))); [apply DP|].
      apply (derivable_pt_lim_scal (fun t => t * t)). apply (derivable_pt_lim_mult id id); apply derivable_pt_lim_id. }
    destruct (MVT_cor2 (fun t => phi t - k / 2 * Z * (t * t)) (fun t => dphi t - k * t * Z) 0 1 ltac:(lra) (fun t _ => DQ t)) as (xi & MV & XI).
    pose proof (MO xi ltac:(lra)). cbv beta in MV. lra.
  Qed.
End Main.
