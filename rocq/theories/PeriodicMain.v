(** Main theorems of C70. *)
From Coq Require Import List Arith Lia Bool ZArith Permutation Reals.
From Verif Require Import Num Arr ArrFacts Fe Problem BatchFacts ProblemFacts SolverBc LinSolve Periodic SpecPeriodic PeriodicFacts XNum.
Import ListNotations.

Section Main.
  Context {X : Type} {K : ops}.
  Variables (near : list X -> list X -> bool) (info : periodic_info X) (pts : list (list X)) (vec : nat).
  Let N := length pts * vec.
  Notation tied := (tied near info pts).
  Notation pbc := (periodic_boundary_conditions (K := K) near info pts vec).

  Lemma pbc_inv P : pbc = Ok P -> exists groups reduced J,
    let ps := all_pairs vec groups in
    mapM (periodic_group near pts info) (seq 0 (length (pb_locs_A info))) = Ok groups /\
    (forall b a, In (b, a) ps -> b < N) /\
    number_free (marked_map N ps) (N - length ps) = Ok reduced /\
    mapM (column reduced) (seq 0 N) = Ok J /\
    (forall j, In j J -> (0 <= j < Z.of_nat (N - length ps))%Z) /\
    P = mkMat N (N - length ps) (set_values_coo (seq 0 N) (map Z.to_nat J) (repeat one N)).
  Proof.
    unfold periodic_boundary_conditions. destruct (mapM (periodic_group _ _ _) _) as [groups|] eqn:HG; [|discriminate]. cbn [bind].
    destruct groups as [|g0 gs]; [discriminate|]. unfold hstack at 1. cbn [map bind]. unfold hstack. cbn [bind].
    change (dof_inds vec (fst (fst g0)) (snd g0) :: map (fun g => dof_inds vec (fst (fst g)) (snd g)) gs)
      with (map (fun g => dof_inds vec (fst (fst g)) (snd g)) (g0 :: gs)).
    change (dof_inds vec (snd (fst g0)) (snd g0) :: map (fun g => dof_inds vec (snd (fst g)) (snd g)) gs)
      with (map (fun g => dof_inds vec (snd (fst g)) (snd g)) (g0 :: gs)).
    set (groups := g0 :: gs) in *. fold N.
    assert (LN : forall g, In g groups -> length (snd (fst g)) = length (fst (fst g))) by (intros g Hg; exact (groups_len near info pts groups HG g Hg)).
    rewrite (pairs_length vec groups LN). unfold mark. destruct (forallb _ _) eqn:EF; [|discriminate]. cbn [bind].
    rewrite (pairs_combine vec groups LN).
    change (fold_left _ (all_pairs vec groups) (repeat 1%Z N)) with (marked_map N (all_pairs vec groups)).
    destruct (number_free _ _) as [reduced|] eqn:ER; [|discriminate]. cbn [bind].
    destruct (mapM (column reduced) _) as [J|] eqn:EJ; [|discriminate]. cbn [bind]. unfold csr_ones.
    destruct (forallb _ J) eqn:EJ'; [|discriminate]. intros E. injection E as <-. exists groups, reduced, J.
    split; [reflexivity|]. split; [|split; [exact ER|split; [exact EJ|split; [|reflexivity]]]].
    - intros b a Hb. rewrite forallb_forall in EF. apply Nat.ltb_lt, EF. rewrite <- (pairs_fst vec groups LN). now apply (in_map fst) in Hb.
    - intros j Hj. rewrite forallb_forall in EJ'. apply EJ' in Hj. apply andb_true_iff in Hj as [H1 H2]. apply Z.leb_le in H1. apply Z.ltb_lt in H2. lia.
  Qed.

  (** two ways to succeed *)
  Lemma numbered (ps : list (nat * nat)) reduced : (forall b a, In (b, a) ps -> b < N) ->
    number_free (marked_map N ps) (N - length ps) = Ok reduced ->
    (N - length ps = length (free_dofs N ps) /\ reduced = fill (marked_map N ps) 0) \/
    (N - length ps = 1 /\ length (free_dofs N ps) <> 1 /\ reduced = map (fun v => if (v =? 1)%Z then 0%Z else v) (marked_map N ps)).
  Proof.
    intros HB. unfold number_free.
    assert (E : length (filter (fun v => (v =? 1)%Z) (marked_map N ps)) = length (free_dofs N ps)).
    { rewrite <- (firstn_all (marked_map N ps)), marked_length. apply ones_before; auto. }
    rewrite E. destruct (_ =? length _)%nat eqn:E1.
    - apply Nat.eqb_eq in E1. intros H. injection H as <-. left. auto.
    - apply Nat.eqb_neq in E1. destruct (_ =? 1)%nat eqn:E2; [|discriminate]. apply Nat.eqb_eq in E2. intros H. injection H as <-. right. repeat split; auto. congruence.
  Qed.

  Lemma columns_of J (f : nat -> result Z) i : mapM f (seq 0 N) = Ok J -> i < N -> f i = Ok (nth i J 0%Z) /\ length J = N.
  Proof.
    intros E Hi. destruct (mapM_inv _ _ _ E) as [L G]. rewrite seq_length in L. split; [|auto].
    assert (Ei : nth_error (seq 0 N) i = Some i) by (rewrite (nth_error_nth' _ 0) by (now rewrite seq_length); now rewrite seq_nth).
    destruct (G i i Ei) as (b & Eb & Pb). apply nth_error_nth with (d := 0%Z) in Eb. now rewrite Eb.
  Qed.
  Lemma columns_length J (f : nat -> result Z) : mapM f (seq 0 N) = Ok J -> length J = N.
  Proof. intros E. destruct (mapM_inv _ _ _ E) as [L _]. now rewrite seq_length in L. Qed.

  Hypothesis UL : unit_laws K.
  Lemma entry_of J i j : length J = N -> i < N ->
    set_values_coo (K := K) (seq 0 N) (map Z.to_nat J) (repeat one N) i j = if (Z.to_nat (nth i J 0%Z) =? j)%nat then one else zero.
  Proof.
    intros L Hi. pose proof (coo_ones UL N (map Z.to_nat J) 0 i j) as C. rewrite map_length in C. cbn [Nat.add] in C. rewrite C by auto.
    now rewrite (nth_map_in _ _ _ 0%Z) by lia.
  Qed.

  (** ** The regular case: every slave has one master, which is free *)
  Record regular (P : mat K) (ps : list (nat * nat)) (col : nat -> nat) : Prop := {
    rg_pairs : forall b a, In (b, a) ps <-> exists i nA nB c, tied i nA nB c /\ b = dof vec nB c /\ a = dof vec nA c;
    rg_bound : forall b a, In (b, a) ps -> b < N /\ a < N;
    rg_nodup : NoDup (map fst ps);
    rg_free : forall b a, In (b, a) ps -> is_slave ps a = false;
    rg_rows : m_rows P = N;
    rg_cols : m_cols P = length (free_dofs N ps);
    rg_count : m_cols P + length ps = N;
    rg_entry : forall i j, i < N -> m_at P i j = if (col i =? j)%nat then one else zero;
    rg_col_free : forall i, i < N -> is_slave ps i = false -> col i = rank ps i;
    rg_col_slave : forall b a, In (b, a) ps -> col b = rank ps a
  }.
  Lemma nodup_slave (ps : list (nat * nat)) b a a' : NoDup (map fst ps) -> In (b, a) ps -> In (b, a') ps -> a = a'.
  Proof.
    intros ND Ha Ha'. induction ps as [|[x c] q IH]; [destruct Ha|]. cbn in ND. inversion ND as [|? ? N1 N2]; subst.
    destruct Ha as [E|Ha], Ha' as [E'|Ha']; try congruence.
    - inversion E; subst. exfalso. apply N1. now apply (in_map fst) in Ha'.
    - inversion E'; subst. exfalso. apply N1. now apply (in_map fst) in Ha.
    - now apply IH.
  Qed.
  Lemma pair_slave (ps : list (nat * nat)) b a : In (b, a) ps -> is_slave ps b = true.
  Proof. intros H. apply is_slave_in. now apply (in_map fst) in H. Qed.

  Lemma pbc_regular P : pbc = Ok P -> m_cols P <> 1 \/ distinct_slaves near info pts vec -> exists ps col, regular P ps col.
  Proof.
    intros E C. destruct (pbc_inv P E) as (groups & reduced & J & HG & HB & ER & EJ & HJ & ->). cbn [m_cols] in C.
    set (ps := all_pairs vec groups) in *. pose proof (free_count N ps HB) as FC. pose proof (columns_length J _ EJ) as LJ.
    assert (LE : length (nodup Nat.eq_dec (map fst ps)) <= length ps).
    { rewrite <- (map_length fst ps). apply NoDup_incl_length; [apply NoDup_nodup|]. intros x. apply nodup_In. }
    assert (NN : length ps <= N).
    { destruct (Nat.le_gt_cases (length ps) N) as [|G]; auto. exfalso. destruct (Nat.eq_dec N 0) as [Z|NZ].
      - destruct ps as [|[b a] q]; [cbn in G; lia|]. specialize (HB b a (or_introl eq_refl)). lia.
      - destruct J as [|j J]; [cbn in LJ; lia|]. specialize (HJ j (or_introl eq_refl)). lia. }
    assert (S : NoDup (map fst ps) /\ reduced = fill (marked_map N ps) 0).
    { destruct (numbered ps reduced HB ER) as [[F ->]|(F1 & F2 & ->)].
      - split; [|reflexivity]. apply (NoDup_incl_NoDup (NoDup_nodup Nat.eq_dec (map fst ps))); [rewrite map_length; lia|].
        intros x. apply nodup_In.
      - exfalso. destruct C as [C|C]; [lia|]. pose proof (distinct_nodup near info pts vec groups HG C) as ND. fold ps in ND.
        rewrite nodup_fixed_point in FC by exact ND. rewrite map_length in FC. lia. }
    destruct S as [ND ->]. exists ps, (fun i => Z.to_nat (nth i J 0%Z)).
    assert (CS : forall b a, In (b, a) ps -> a < N /\ is_slave ps a = false /\ nth b J 0%Z = Z.of_nat (rank ps a)).
    { intros b a Hb. pose proof (HB b a Hb) as Lb. destruct (columns_of J _ b EJ Lb) as [CB _].
      destruct (column_slave N ps HB b (nth b J 0%Z) Lb (pair_slave ps b a Hb) CB) as (a' & H1 & H2 & H3 & H4); [apply HJ, nth_In; lia|].
      assert (a' = a) by (eapply nodup_slave; eauto). subst a'. auto. }
    assert (LF : length (free_dofs N ps) + length ps = N).
    { rewrite nodup_fixed_point in FC by exact ND. rewrite map_length in FC. lia. }
    constructor.
    - intros b a. apply (in_pairs near info pts vec groups HG).
    - intros b a Hb. split; [exact (HB b a Hb)|]. now destruct (CS b a Hb).
    - exact ND.
    - intros b a Hb. now destruct (CS b a Hb).
    - reflexivity.
    - cbn [m_cols]. lia.
    - cbn [m_cols]. lia.
    - intros i j Hi. cbn [m_at]. now apply entry_of.
    - intros i Hi Hs. destruct (columns_of J _ i EJ Hi) as [CI _]. rewrite column_free in CI by auto. injection CI as CI. rewrite <- CI. lia.
    - intros b a Hb. destruct (CS b a Hb) as (_ & _ & ->). lia.
  Qed.

  (** ** Tied rows are equal, also when the free dofs share one column *)
  Lemma pbc_rows P : pbc = Ok P -> m_rows P = N /\ forall i nA nB c, tied i nA nB c ->
    dof vec nB c < N /\ (dof vec nA c < N -> forall j, m_at P (dof vec nA c) j = m_at P (dof vec nB c) j).
  Proof.
    intros E. assert (R : m_rows P = N) by (destruct (pbc_inv P E) as (? & ? & ? & _ & _ & _ & _ & _ & ->); reflexivity). split; [exact R|].
    intros i nA nB c HT. destruct (Nat.eq_dec (m_cols P) 1) as [E1|N1].
    - destruct (pbc_inv P E) as (groups & reduced & J & HG & HB & ER & EJ & HJ & ->). cbn [m_cols] in E1. rewrite E1 in HJ.
      set (ps := all_pairs vec groups) in *. pose proof (columns_length J _ EJ) as LJ.
      assert (HP : In (dof vec nB c, dof vec nA c) ps) by (apply (in_pairs near info pts vec groups HG); exists i, nA, nB, c; auto).
      pose proof (HB _ _ HP) as LB. split; [exact LB|]. intros LA j. cbn [m_at]. rewrite !entry_of by auto.
      assert (Z : forall k, k < N -> nth k J 0%Z = 0%Z) by (intros k Hk; assert (H : In (nth k J 0%Z) J) by (apply nth_In; lia); apply HJ in H; lia).
      now rewrite !Z by auto.
    - destruct (pbc_regular P E (or_introl N1)) as (ps & col & RG).
      assert (HP : In (dof vec nB c, dof vec nA c) ps) by (apply (rg_pairs P ps col RG); exists i, nA, nB, c; auto).
      destruct (rg_bound P ps col RG _ _ HP) as [LB LA]. split; [exact LB|]. intros _ j.
      rewrite !(rg_entry P ps col RG) by auto. rewrite (rg_col_slave P ps col RG _ _ HP), (rg_col_free P ps col RG) by (auto; exact (rg_free P ps col RG _ _ HP)). reflexivity.
  Qed.

  (** ** Acceptance *)
  Notation complete := (complete info vec).
  Notation no_chain := (no_chain near info pts vec).

  Lemma mapM_all {A B} (f : A -> result B) l : (forall a, In a l -> exists b, f a = Ok b) -> exists r, mapM f l = Ok r.
  Proof.
    induction l as [|a l IH]; intros H; [exists []; reflexivity|]. destruct (H a (or_introl eq_refl)) as (b & Eb).
    destruct IH as (r & Er); [intros; apply H; now right|]. exists (b :: r). cbn. rewrite Eb. cbn. rewrite Er. reflexivity.
  Qed.
  Lemma group_ok i : complete -> matched near info pts -> i < length (pb_locs_A info) -> exists g, periodic_group near pts info i = Ok g.
  Proof.
    intros [_ HC] HM Hi. destruct (HC i Hi) as (fB & m & c & EB & EM & EV & Hc). unfold periodic_group. rewrite EB, EM, EV.
    destruct (nth_error (pb_locs_A info) i) as [fA|] eqn:EA; [|apply nth_error_None in EA; lia].
    set (inds_A := argwhere fA pts). set (inds_B := argwhere fB pts).
    assert (HP : mapM (partners near pts (Some m) inds_B) inds_A = Ok (map (fun n => filter (fun nB => near (m (nth n pts [])) (nth nB pts [])) inds_B) inds_A)).
    { clear. induction inds_A as [|a l IH]; [reflexivity|]. cbn [mapM]. unfold partners at 1. cbn [bind]. now rewrite IH. }
    rewrite HP. cbn [bind].
    assert (S : forall n, In n inds_A -> length (filter (fun nB => near (m (nth n pts [])) (nth nB pts [])) inds_B) = 1).
    { intros n Hn. apply argwhere_in in Hn as [Hn Fn]. destruct (HM i fA n EA Hn Fn) as (nB & c' & HT & U).
      assert (IT : forall k, In k (filter (fun nB => near (m (nth n pts [])) (nth nB pts [])) inds_B) <-> k = nB).
      { intros k. rewrite filter_In. unfold inds_B. rewrite argwhere_in. split.
        - intros ((H1 & H2) & H3). apply (U k c). exists fA, fB, m. auto 10.
        - intros ->. destruct HT as (fA' & fB' & m' & E1 & E2 & E3 & E4 & H1 & H2 & H3 & H4 & H5). rewrite EB in E2. injection E2 as <-. rewrite EM in E3. injection E3 as <-. auto. }
      assert (ND : NoDup (filter (fun nB => near (m (nth n pts [])) (nth nB pts [])) inds_B)) by (apply NoDup_filter, argwhere_nodup).
      revert ND IT. generalize (filter (fun nB => near (m (nth n pts [])) (nth nB pts [])) inds_B). intros l ND IT.
      destruct l as [|x [|y l]]; [exfalso; apply (IT nB); reflexivity|reflexivity|exfalso].
      inversion ND as [|? ? N1 _]; subst. apply N1. left. transitivity nB; [apply IT; right; now left|symmetry; apply IT; now left]. }
    unfold stack. replace (forallb _ _) with true; cbn [bind].
    - replace (length inds_A =? _)%nat with true; [eauto|]. symmetry. apply Nat.eqb_eq. clear - S.
      induction inds_A as [|a l IH]; [reflexivity|]. cbn [map concat]. rewrite app_length, S by now left. cbn. f_equal. apply IH. intros; apply S; now right.
    - symmetry. apply forallb_forall. intros x Hx. apply in_map_iff in Hx as (n & <- & Hn). rewrite S by auto. apply Nat.eqb_eq.
      destruct inds_A as [|a l]; [destruct Hn|]. cbn [map hd]. symmetry. apply S. now left.
  Qed.

  Lemma pbc_accepts : complete -> matched near info pts -> distinct_slaves near info pts vec -> no_chain -> exists P, pbc = Ok P.
  Proof.
    intros HC HM HD HN.
    destruct (mapM_all (periodic_group near pts info) (seq 0 (length (pb_locs_A info)))) as (groups & HG).
    { intros i Hi. apply in_seq in Hi. apply group_ok; auto. lia. }
    unfold periodic_boundary_conditions. rewrite HG. cbn [bind].
    assert (NE : groups <> []).
    { destruct (mapM_inv _ _ _ HG) as [L _]. rewrite seq_length in L. destruct HC as [HC _]. destruct (pb_locs_A info); [congruence|]. destruct groups; [discriminate|congruence]. }
    destruct groups as [|g0 gs]; [congruence|]. unfold hstack at 1. cbn [map bind]. unfold hstack. cbn [bind].
    change (dof_inds vec (fst (fst g0)) (snd g0) :: map (fun g => dof_inds vec (fst (fst g)) (snd g)) gs)
      with (map (fun g => dof_inds vec (fst (fst g)) (snd g)) (g0 :: gs)).
    change (dof_inds vec (snd (fst g0)) (snd g0) :: map (fun g => dof_inds vec (snd (fst g)) (snd g)) gs)
      with (map (fun g => dof_inds vec (snd (fst g)) (snd g)) (g0 :: gs)).
    set (groups := g0 :: gs) in *. fold N.
    assert (LN : forall g, In g groups -> length (snd (fst g)) = length (fst (fst g))) by (intros g Hg; exact (groups_len near info pts groups HG g Hg)).
    rewrite (pairs_length vec groups LN). set (ps := all_pairs vec groups).
    assert (DB : forall i nA nB c, tied i nA nB c -> dof vec nA c < N /\ dof vec nB c < N).
    { intros i nA nB c (fA & fB & m & E1 & E2 & E3 & E4 & H1 & H2 & _). destruct HC as [_ HC].
      destruct (HC i) as (fB' & m' & c' & _ & _ & E & Hc); [apply nth_error_Some; congruence|]. rewrite E4 in E. injection E as <-. unfold dof, N. split; nia. }
    assert (HB : forall b a, In (b, a) ps -> b < N /\ a < N).
    { intros b a H. apply (in_pairs near info pts vec groups HG) in H as (i & nA & nB & c & HT & -> & ->). destruct (DB _ _ _ _ HT). auto. }
    unfold mark. rewrite (proj2 (forallb_forall _ _)); cycle 1.
    { intros b Hb. rewrite <- (pairs_fst vec groups LN) in Hb. apply in_map_iff in Hb as ([b' a'] & <- & Hb). apply Nat.ltb_lt. now destruct (HB b' a' Hb). }
    cbn [bind]. rewrite (pairs_combine vec groups LN). fold ps.
    change (fold_left _ ps (repeat 1%Z N)) with (marked_map N ps).
    assert (HB1 : forall b a, In (b, a) ps -> b < N) by (intros b a H; now destruct (HB b a H)).
    pose proof (distinct_nodup near info pts vec groups HG HD) as ND. fold ps in ND.
    pose proof (free_count N ps HB1) as FC. rewrite nodup_fixed_point, map_length in FC by exact ND.
    unfold number_free.
    assert (EO : length (filter (fun v => (v =? 1)%Z) (marked_map N ps)) = length (free_dofs N ps)).
    { rewrite <- (firstn_all (marked_map N ps)), marked_length. apply ones_before; auto. }
    rewrite EO. replace (_ =? length _)%nat with true by (symmetry; apply Nat.eqb_eq; lia). cbn [bind].
    assert (CH : forall b a, In (b, a) ps -> is_slave ps a = false).
    { intros b a H. destruct (is_slave ps a) eqn:S; [|auto]. exfalso. apply is_slave_in in S. apply in_map_iff in S as ([a1 a2] & E & S). cbn in E. subst a1.
      apply (in_pairs near info pts vec groups HG) in H as (i & nA & nB & c & HT & _ & ->).
      apply (in_pairs near info pts vec groups HG) in S as (i' & nA' & nB' & c' & HT' & E & _). exact (HN _ _ _ _ _ _ _ _ HT HT' E). }
    assert (RK : forall i, i < N -> is_slave ps i = false -> rank ps i < N - length ps).
    { intros i Hi Hs. apply Nat.lt_le_trans with (rank ps (S i)); [rewrite rank_S, Hs; lia|]. replace (N - length ps) with (rank ps N) by (unfold rank; lia). apply rank_mono. lia. }
    assert (CO : forall i, i < N -> exists r, column (fill (marked_map N ps) 0) i = Ok (Z.of_nat r) /\ r < N - length ps).
    { intros i Hi. destruct (is_slave ps i) eqn:S.
      - pose proof S as S'. apply is_slave_in in S. apply in_map_iff in S as ([b a] & E & S). cbn in E. subst b. exists (rank ps a).
        destruct (HB i a S). split; [apply column_chain; auto; now apply (CH i)|apply RK; auto; now apply (CH i)].
      - exists (rank ps i). split; [now apply column_free|auto]. }
    destruct (mapM_all (column (fill (marked_map N ps) 0)) (seq 0 N)) as (J & EJ).
    { intros i Hi. apply in_seq in Hi. destruct (CO i) as (r & Er & _); [lia|eauto]. }
    rewrite EJ. cbn [bind]. unfold csr_ones. rewrite (proj2 (forallb_forall _ _)); [eauto|].
    intros j Hj. apply (In_nth _ _ 0%Z) in Hj as (i & Hi & <-). rewrite (columns_length J _ EJ) in Hi.
    destruct (columns_of J _ i EJ Hi) as [CI _]. destruct (CO i Hi) as (r & Er & Hr). rewrite Er in CI. injection CI as <-.
    apply andb_true_iff. split; [apply Z.leb_le|apply Z.ltb_lt]; lia.
  Qed.
End Main.

(** ** Images *)
Section Image.
  Context {X : Type} {K : ops} (KR : ring_laws K).
  Open Scope num_scope.
  Let Kth : ring_theory (@zero K) one add mul sub opp eq := KR.
  Add Ring KringPB : Kth.
  Variables (near : list X -> list X -> bool) (info : periodic_info X) (pts : list (list X)) (vec : nat) (P : mat K).
  Let N := (length pts * vec)%nat.
  Hypothesis OK : periodic_boundary_conditions near info pts vec = Ok P.
  Hypothesis SIDE : m_cols P <> 1%nat \/ distinct_slaves near info pts vec.

  Lemma delta_sum n r (y : nat -> K) : (r < n)%nat -> sum_n n (fun j => (if (r =? j)%nat then 1 else 0) * y j) = y r.
  Proof.
    intros Hr. rewrite (sum_n_single KR n r) by (auto; intros j _ Hj; replace (r =? j)%nat with false by (symmetry; apply Nat.eqb_neq; congruence); ring).
    rewrite Nat.eqb_refl. ring.
  Qed.

  Lemma image_iff : m_rows P = N /\ (forall x : list K, length x = m_rows P -> (exists y, product P y x) <-> periodic_field near info pts vec x) /\
    (forall x y y', product P y x -> product P y' x -> y = y') /\
    (forall i nA nB c i' nA' nB' c', tied near info pts i nA nB c -> tied near info pts i' nA' nB' c' -> dof vec nA c <> dof vec nB' c') /\
    (forall l, NoDup l -> (forall d, In d l <-> exists i nA nB c, tied near info pts i nA nB c /\ d = dof vec nB c) -> (m_cols P + length l = m_rows P)%nat).
  Proof.
    destruct (pbc_regular near info pts vec (ring_unit K KR) P OK SIDE) as (ps & col & [RP RB RN RF RR RC RT RE RCF RCS]).
    fold N in RB, RR, RC, RT, RE, RCF.
    assert (CL : forall i, (i < N)%nat -> (col i < m_cols P)%nat).
    { assert (RK : forall i, (i < N)%nat -> is_slave ps i = false -> (rank ps i < m_cols P)%nat).
      { intros i Hi Hs. rewrite RC. apply Nat.lt_le_trans with (rank ps (S i)); [rewrite rank_S, Hs; lia|]. apply (rank_mono ps (S i) N). lia. }
      intros i Hi. destruct (is_slave ps i) eqn:S; [|rewrite RCF by auto; auto].
      apply is_slave_in in S. apply in_map_iff in S as ([b a] & E & S). cbn in E. subst b. rewrite (RCS i a S). destruct (RB i a S). apply RK; auto. now apply (RF i). }
    assert (PV : forall y x i, product P y x -> (i < N)%nat -> nth i x 0 = nth (col i) y 0).
    { intros y x i (L1 & L2 & H) Hi. rewrite H by (now rewrite RR).
      rewrite (sum_n_ext _ _ (fun j => (if (col i =? j)%nat then 1 else 0) * nth j y 0)) by (intros j _; now rewrite RE).
      apply delta_sum. auto. }
    split; [exact RR|]. split; [|split; [|split]].
    - intros x Lx. rewrite RR in Lx. split.
      + intros (y & HY) i nA nB c HT. assert (HP : In (dof vec nB c, dof vec nA c) ps) by (apply RP; exists i, nA, nB, c; auto).
        destruct (RB _ _ HP) as [LB LA]. rewrite !(nth_error_nth' x 0) by lia. f_equal. rewrite !(PV y x) by auto.
        now rewrite (RCS _ _ HP), RCF by (auto; apply (RF _ _ HP)).
      + intros HX. exists (map (fun i => nth i x 0) (free_dofs N ps)). split; [now rewrite map_length|]. split; [now rewrite RR|].
        intros i Hi. rewrite RR in Hi. rewrite (sum_n_ext _ _ (fun j => (if (col i =? j)%nat then 1 else 0) * nth j (map (fun i => nth i x 0) (free_dofs N ps)) 0)) by (intros j _; now rewrite RE).
        rewrite delta_sum by auto. pose proof (CL i Hi) as Hc. rewrite RC in Hc. rewrite (nth_map_in _ _ _ 0%nat) by auto.
        destruct (is_slave ps i) eqn:S.
        * apply is_slave_in in S. apply in_map_iff in S as ([b a] & E & S). cbn in E. subst b. rewrite (RCS i a S). destruct (RB i a S) as [_ LA].
          rewrite free_nth by (auto; now apply (RF i)). apply RP in S as (k & nA & nB & c & HT & -> & ->).
          specialize (HX k nA nB c HT). rewrite !(nth_error_nth' x 0) in HX by lia. now injection HX as ->.
        * rewrite RCF by auto. now rewrite free_nth.
    - intros x y y' HY HY'. destruct (HY) as (L1 & _). destruct (HY') as (L1' & _). apply (list_ext 0); [congruence|]. intros r Hr. rewrite L1 in Hr.
      rewrite RC in Hr. destruct (free_rank N ps r Hr) as (H1 & H2 & H3). set (i := nth r (free_dofs N ps) 0%nat) in *.
      rewrite <- H3, <- (RCF i) by auto. now rewrite <- (PV y x), <- (PV y' x).
    - intros i nA nB c i' nA' nB' c' HT HT' E. assert (HP : In (dof vec nB c, dof vec nA c) ps) by (apply RP; exists i, nA, nB, c; auto).
      assert (HP' : In (dof vec nB' c', dof vec nA' c') ps) by (apply RP; exists i', nA', nB', c'; auto).
      pose proof (RF _ _ HP) as F. rewrite E, (pair_slave ps _ _ HP') in F. discriminate.
    - intros l NL HL. rewrite RR, <- RT. f_equal. rewrite <- (map_length fst ps). apply Permutation_length. apply NoDup_Permutation; auto.
      intros d. rewrite HL, in_map_iff. split.
      + intros (i & nA & nB & c & HT & ->). exists (dof vec nB c, dof vec nA c). split; auto. apply RP. exists i, nA, nB, c. auto.
      + intros ([b a] & <- & H). apply RP in H as (i & nA & nB & c & HT & -> & _). exists i, nA, nB, c. auto.
  Qed.
End Image.

Section Matched.
  Context {X : Type} {K : ops}.
  Variables (near : list X -> list X -> bool) (info : periodic_info X) (pts : list (list X)) (vec : nat) (P : mat K).
  Lemma pbc_matched : periodic_boundary_conditions near info pts vec = Ok P -> matched near info pts.
  Proof.
    intros E i fA nA EA HA FA. destruct (pbc_inv near info pts vec P E) as (groups & _ & _ & HG & _).
    assert (Hi : (i < length (pb_locs_A info))%nat) by (apply nth_error_Some; congruence).
    destruct (groups_some near info pts groups HG i Hi) as (g & Eg). pose proof (groups_nth near info pts groups HG i g Eg) as Pg.
    destruct (group_inv near info pts i g Pg) as (fA' & fB & c & EA' & _ & _ & IA & _ & HL & T). rewrite EA in EA'. injection EA' as <-.
    assert (HI : In nA (fst (fst g))) by (rewrite IA; now apply argwhere_in).
    assert (ND : NoDup (fst (fst g))) by (rewrite IA; apply argwhere_nodup).
    assert (EX : exists nB, In (nA, nB) (combine (fst (fst g)) (snd (fst g)))).
    { clear - HI HL. revert HI HL. generalize (fst (fst g)) (snd (fst g)). induction l as [|a l IH]; intros [|b m] H L; try discriminate; [destruct H|].
      destruct H as [->|H]; [exists b; now left|]. destruct (IH m) as (nB & HB); auto. exists nB. now right. }
    destruct EX as (nB & HB). exists nB, c. split; [now apply T|]. intros nB' c' HT'.
    assert (c' = c) by (apply T in HB; destruct HB as (? & ? & ? & _ & _ & _ & E1 & _); destruct HT' as (? & ? & ? & _ & _ & _ & E2 & _); congruence).
    subst c'. apply T in HT'. clear - ND HB HT'. revert ND HB HT'. generalize (fst (fst g)) (snd (fst g)).
    induction l as [|a l IH]; intros m ND H1 H2; [destruct H1|]. destruct m as [|b m]; [destruct H1|]. inversion ND as [|? ? N1 N2]; subst.
    destruct H1 as [H1|H1], H2 as [H2|H2].
    - congruence.
    - injection H1 as -> ->. exfalso. apply N1. eapply in_combine_l; eauto.
    - injection H2 as -> ->. exfalso. apply N1. eapply in_combine_l; eauto.
    - eapply IH; eauto.
  Qed.
End Matched.

Lemma X_unit : unit_laws Xops.
Proof. repeat split; cbn; f_equal; ring. Qed.

(** ** One column and a repeated condition *)
Lemma repeated_lost : exists near (info : periodic_info Z) pts (P : mat Zops) (x : list Zops),
  periodic_boundary_conditions near info pts 1 = Ok P /\ length x = m_rows P /\ periodic_field near info pts 1 x /\ ~ exists y, product P y x.
Proof.
  pose (f := fun v (p : list Z) => (nth 0 p 0 =? v)%Z). pose (s := fun p : list Z => [(nth 0 p 0 + 2)%Z]).
  pose (nr := fun a b : list Z => (nth 0 a 0 =? nth 0 b 0)%Z).
  exists nr, (mkPeriodic [f 0%Z; f 0%Z] [f 2%Z; f 2%Z] [s; s] [0; 0]), [[0%Z]; [1%Z]; [2%Z]].
  eexists. exists [5%Z; 7%Z; 5%Z]. split; [vm_compute; reflexivity|]. split; [reflexivity|]. split.
  - intros i nA nB c (fA & fB & m & E1 & E2 & E3 & E4 & H1 & H2 & H3 & H4 & H5). cbn in H1, H2.
    assert (fA = f 0%Z /\ fB = f 2%Z /\ c = 0) as (-> & -> & ->) by (destruct i as [|[|[|i]]]; cbn in E1, E2, E4; repeat split; congruence).
    destruct nA as [|[|[|nA]]]; try (vm_compute in H3; discriminate); try lia.
    destruct nB as [|[|[|nB]]]; try (vm_compute in H4; discriminate); try lia. reflexivity.
  - intros (y & H1 & H2 & H). pose proof (H 0 ltac:(cbn; lia)) as A. pose proof (H 1 ltac:(cbn; lia)) as B.
    vm_compute in A, B. destruct y as [|y0 [|? ?]]; try discriminate. cbn in A, B. rewrite <- A in B. discriminate.
Qed.
