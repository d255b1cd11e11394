(** Proofs for C75. *)
From Coq Require Import Reals List Arith Lia Lra Bool.
From Verif Require Import Num Arr ArrFacts Fe Problem SpecAssembly BatchFacts ProblemFacts AssemblyFacts DerivFacts Basis SpecBasis SpecFe FeFacts GeomFacts SolverBc SpecBc BcFacts SpecWeak KernelFacts BalanceFacts
  SpecEnergy EnergyFacts Elastic ElasticFacts SpecElastic ElasticMain Dynamics SpecDynamics DynamicsFacts.
Import ListNotations.
Local Open Scope R_scope.

Section Main.
  Context {V : Type}.
  Variables (sqrtK : Rops -> Rops) (p : problem Rops V) (f : fe Rops) (P : list (list Rops)) (rho dt : R).
  Hypothesis WF : wf_problem p.
  Hypothesis NC : (0 < p_num_cells p)%nat.
  Hypothesis STD : standard_problem p f.
  Hypothesis IVS : ivs_ok p.
  Hypothesis MAPS : maps_ok (vec f) (dim f) (maps p).
  Hypothesis BC : bc_ok f.
  Hypothesis MASS : masses_ok f P rho.
  Notation N := (length (points f)).
  Notation field := (list (list Rops)).
  Notation M := (lumped_mass f P rho).

  Lemma held_dec n k : (n < N)%nat -> (k < vec f)%nat -> constrained f n k \/ ~ constrained f n k.
  Proof.
    intros Hn Hk. destruct (get2 false (fixed f) n k) eqn:E.
    - left. now apply (proj2 (fixed_spec f BC)).
    - right. intros C. apply (proj2 (fixed_spec f BC)) in C; auto. congruence.
  Qed.
  Lemma where_free_field x : is_field f x -> is_field f (where_free f x).
  Proof. intros S. apply shaped_map2; [apply (fixed_spec f BC)|exact S]. Qed.
  Lemma where_free_held x n k : is_field f x -> (n < N)%nat -> (k < vec f)%nat -> constrained f n k -> at_dof (where_free f x) n k = 0.
  Proof.
    intros S Hn Hk C. unfold at_dof, where_free. rewrite (get2_map2 _ N (vec f) _ _ n k false 0); auto; [|apply (fixed_spec f BC)].
    now rewrite (proj2 (proj2 (fixed_spec f BC) n k Hn Hk) C).
  Qed.
  Lemma where_free_free x n k : is_field f x -> (n < N)%nat -> (k < vec f)%nat -> ~ constrained f n k -> at_dof (where_free f x) n k = at_dof x n k.
  Proof.
    intros S Hn Hk C. unfold at_dof, where_free. rewrite (get2_map2 _ N (vec f) _ _ n k false 0); auto; [|apply (fixed_spec f BC)].
    destruct (get2 false (fixed f) n k) eqn:E; auto. apply (proj2 (fixed_spec f BC)) in E; auto. contradiction.
  Qed.
  Lemma residual_field u : is_field f u -> exists res, compute_residual sqrtK p [P] [u] = Ok [res] /\ is_field f res.
  Proof.
    intros S. apply (field_ok p f STD) in S. destruct (residual_weak Rops_ring sqrtK p f P u WF NC STD S IVS MAPS) as (r & E & SH & _). exists r. split; auto.
  Qed.

  Lemma accel_spec u : is_field f u -> exists res a, compute_residual sqrtK p [P] [u] = Ok [res] /\ is_field f res /\
    acceleration sqrtK p f P rho u = Ok a /\ is_field f a /\ zero_on_held f a /\
    (forall n k, (n < N)%nat -> (k < vec f)%nat -> ~ constrained f n k -> M n * at_dof a n k = - at_dof res n k).
  Proof.
    intros S. destruct (residual_field u S) as (res & E & SR).
    assert (SQ : is_field f (map2 (map2 (fun r m => (- r / m)%R)) res (mass f P rho))) by (apply shaped_map2; [exact SR|apply mass_shaped]).
    exists res, (where_free f (map2 (map2 (fun r m => (- r / m)%R)) res (mass f P rho))). split; [exact E|]. split; [exact SR|].
    split; [unfold acceleration; now rewrite E|]. split; [now apply where_free_field|]. split.
    - intros n k Hn Hk C. now apply where_free_held.
    - intros n k Hn Hk C. rewrite where_free_free by auto. unfold at_dof.
      rewrite (get2_map2 _ N (vec f) _ _ n k (@zero Rops) (@zero Rops)) by (auto; apply mass_shaped). rewrite (mass_entry p f P rho WF STD n k Hn Hk).
      pose proof (MASS n k Hn Hk C). cbn; req; now field.
  Qed.

  (** one step of the scheme *)
  Definition next_ok (up u un : field) : Prop := is_field f un /\ zero_on_held f un /\ exists res, compute_residual sqrtK p [P] [u] = Ok [res] /\ is_field f res /\
    forall n k, (n < N)%nat -> (k < vec f)%nat -> ~ constrained f n k -> M n * (at_dof un n k - 2 * at_dof u n k + at_dof up n k) = - (dt * dt) * at_dof res n k.
  Lemma step_spec up u : is_field f up -> is_field f u -> exists un, step sqrtK p f P rho dt up u = Ok un /\ next_ok up u un.
  Proof.
    intros S1 S2. destruct (accel_spec u S2) as (res & a & E & SR & EA & SA & ZA & QA).
    unfold step. rewrite EA. cbn [bind].
    set (y := map2 (map2 (fun u up : R => 2 * u - up)) u up). set (z := map2 (map2 (fun x y : R => x + dt * dt * y)) y a).
    assert (SY : is_field f y) by now apply shaped_map2. assert (SZ : is_field f z) by now apply shaped_map2.
    exists (where_free f z). split; [reflexivity|]. split; [now apply where_free_field|]. split.
    - intros n k Hn Hk C. now apply where_free_held.
    - exists res. split; [exact E|]. split; [exact SR|]. intros n k Hn Hk C. rewrite where_free_free by auto.
      assert (Ez : at_dof z n k = 2 * at_dof u n k - at_dof up n k + dt * dt * at_dof a n k).
      { unfold at_dof, z. rewrite (get2_map2 _ N (vec f) _ _ n k (@zero Rops) (@zero Rops)) by auto. unfold y. now rewrite (get2_map2 _ N (vec f) _ _ n k (@zero Rops) (@zero Rops)) by auto. }
      rewrite Ez. pose proof (QA n k Hn Hk C) as Q. transitivity (dt * dt * (M n * at_dof a n k)); [ring|]. rewrite Q. ring.
  Qed.
  Definition acceleration_of (u a : field) : Prop := is_field f a /\ zero_on_held f a /\ exists res, compute_residual sqrtK p [P] [u] = Ok [res] /\
    forall n k, (n < N)%nat -> (k < vec f)%nat -> ~ constrained f n k -> M n * at_dof a n k = - at_dof res n k.
  Lemma start_spec u0 v0 : is_field f u0 -> is_field f v0 -> exists up, start sqrtK p f P rho dt u0 v0 = Ok up /\ is_field f up /\ zero_on_held f up /\
    exists a, acceleration_of u0 a /\ acceleration sqrtK p f P rho u0 = Ok a /\
    forall n k, (n < N)%nat -> (k < vec f)%nat -> ~ constrained f n k -> at_dof up n k = at_dof u0 n k - dt * at_dof v0 n k + / 2 * (dt * dt) * at_dof a n k.
  Proof.
    intros S1 S2. destruct (accel_spec u0 S1) as (res & a & E & SR & EA & SA & ZA & QA).
    unfold start. rewrite EA. cbn [bind].
    set (y := map2 (map2 (fun u v : R => u - dt * v)) u0 v0). set (z := map2 (map2 (fun x y : R => x + / 2 * (dt * dt) * y)) y a).
    assert (SY : is_field f y) by now apply shaped_map2. assert (SZ : is_field f z) by now apply shaped_map2.
    exists (where_free f z). split; [reflexivity|]. split; [now apply where_free_field|]. split.
    - intros n k Hn Hk C. now apply where_free_held.
    - exists a. split; [|split; [reflexivity|]].
      + split; [exact SA|]. split; [exact ZA|]. exists res. auto.
      + intros n k Hn Hk C. rewrite where_free_free by auto.
        unfold at_dof, z. rewrite (get2_map2 _ N (vec f) _ _ n k (@zero Rops) (@zero Rops)) by auto. unfold y. now rewrite (get2_map2 _ N (vec f) _ _ n k (@zero Rops) (@zero Rops)) by auto.
  Qed.

  (** *** runs *)
  Definition trajectory (l : list field) : Prop := forall i, (S (S i) < length l)%nat -> step sqrtK p f P rho dt (nth i l []) (nth (S i) l []) = Ok (nth (S (S i)) l []).
  Lemma scan_trajectory n : forall up u h, scan sqrtK p f P rho dt n up u = Ok h <-> length h = n /\ trajectory (up :: u :: h).
  Proof.
    induction n as [|n IH]; intros up u h; cbn [scan].
    - split.
      + intros E. injection E as <-. split; [reflexivity|]. intros i Hi. cbn in Hi. lia.
      + intros [L _]. apply length_zero_iff_nil in L as ->. reflexivity.
    - split.
      + destruct (step sqrtK p f P rho dt up u) as [un|] eqn:E; [|discriminate]. cbn [bind]. destruct (scan sqrtK p f P rho dt n u un) as [h'|] eqn:E2; [|discriminate].
        cbn [bind]. intros X. injection X as <-. apply IH in E2 as [L T]. split; [cbn [length]; lia|]. intros [|i] Hi; [exact E|]. apply T. cbn [length] in *. lia.
      + intros [L T]. destruct h as [|un h]; [discriminate|]. pose proof (T 0%nat) as T0. cbn in T0. rewrite T0 by lia. cbn [bind].
        assert (E : scan sqrtK p f P rho dt n u un = Ok h).
        { apply IH. split; [cbn [length] in L; lia|]. intros i Hi. apply (T (S i)). cbn [length] in *. lia. }
        now rewrite E.
  Qed.
  Lemma scan_spec n : forall up u, is_field f up -> is_field f u -> exists h, scan sqrtK p f P rho dt n up u = Ok h /\ length h = n /\
    (forall i, (i < n)%nat -> next_ok (nth i (up :: u :: h) []) (nth (S i) (up :: u :: h) []) (nth (S (S i)) (up :: u :: h) [])).
  Proof.
    induction n as [|n IH]; intros up u S1 S2.
    - exists []. split; [reflexivity|]. split; [reflexivity|]. lia.
    - destruct (step_spec up u S1 S2) as (un & E & Q). destruct (IH u un S2 (proj1 Q)) as (h & E2 & L & QH). exists (un :: h). cbn [scan]. rewrite E. cbn [bind]. rewrite E2. cbn [bind].
      split; [reflexivity|]. split; [cbn [length]; lia|]. intros [|i] Hi; [exact Q|]. apply QH. lia.
  Qed.
  Lemma history_spec n u0 v0 : is_field f u0 -> is_field f v0 -> exists h up, history sqrtK p f P rho dt n u0 v0 = Ok h /\ start sqrtK p f P rho dt u0 v0 = Ok up /\
    length h = S n /\ nth 0 h [] = u0 /\ is_field f up /\ zero_on_held f up /\
    (forall i, (i < n)%nat -> next_ok (nth i (up :: h) []) (nth (S i) (up :: h) []) (nth (S (S i)) (up :: h) [])).
  Proof.
    intros S1 S2. destruct (start_spec u0 v0 S1 S2) as (up & E & SU & ZU & _). destruct (scan_spec n up u0 SU S1) as (h & E2 & L & Q).
    exists (u0 :: h), up. unfold history. rewrite E. cbn [bind]. rewrite E2. cbn [bind]. repeat (split; [first [reflexivity|cbn [length]; lia|assumption]|]). exact Q.
  Qed.
  Lemma history_fields n u0 v0 h : is_field f u0 -> is_field f v0 -> history sqrtK p f P rho dt n u0 v0 = Ok h ->
    length h = S n /\ nth 0 h [] = u0 /\ (forall i, (i <= n)%nat -> is_field f (nth i h [])) /\ (forall i, (0 < i <= n)%nat -> zero_on_held f (nth i h [])).
  Proof.
    intros S1 S2 E. destruct (history_spec n u0 v0 S1 S2) as (h' & up & E' & _ & L & H0 & SU & ZU & Q). rewrite E in E'. injection E' as <-.
    split; [exact L|]. split; [exact H0|]. split; intros [|i] Hi; try lia; [now rewrite H0| |]; apply (Q i); lia.
  Qed.
  (** the first step *)
  Lemma first_step n u0 v0 h : is_field f u0 -> is_field f v0 -> zero_on_held f u0 -> zero_on_held f v0 -> history sqrtK p f P rho dt (S n) u0 v0 = Ok h ->
    exists a, acceleration_of u0 a /\ acceleration sqrtK p f P rho u0 = Ok a /\ forall n k, (n < N)%nat -> (k < vec f)%nat ->
      at_dof (nth 1 h []) n k = at_dof u0 n k + dt * at_dof v0 n k + / 2 * (dt * dt) * at_dof a n k.
  Proof.
    intros S1 S2 Z1 Z2 E. destruct (history_spec (S n) u0 v0 S1 S2) as (h' & up & E' & ES & L & H0 & SU & ZU & Q). rewrite E in E'. injection E' as <-.
    destruct (start_spec u0 v0 S1 S2) as (up' & ES' & _ & _ & a & AO & EA & UP). rewrite ES in ES'. injection ES' as <-.
    exists a. split; [exact AO|]. split; [exact EA|]. intros m k Hm Hk. specialize (Q 0%nat (Nat.lt_0_succ n)). cbn [nth] in Q. rewrite H0 in Q.
    destruct Q as (SN & ZN & res & ER & SR & QF). destruct AO as (SA & ZA & res' & ER' & QA). rewrite ER in ER'. injection ER' as <-.
    destruct (held_dec m k Hm Hk) as [C|C].
    - rewrite (ZN m k), (Z1 m k), (Z2 m k), (ZA m k) by auto. ring.
    - specialize (QF m k Hm Hk C). specialize (QA m k Hm Hk C). specialize (UP m k Hm Hk C). rewrite UP in QF.
      apply (Rmult_eq_reg_l (M m)); [|exact (MASS m k Hm Hk C)].
      assert (R1 : at_dof res m k = - (M m * at_dof a m k)) by lra. rewrite R1 in QF.
      set (A := at_dof a m k) in *. set (X := at_dof (nth 1 h []) m k) in *. set (U := at_dof u0 m k) in *. set (W := at_dof v0 m k) in *. set (Q := M m) in *. clearbody A X U W Q.
      apply Rminus_diag_uniq. match type of QF with ?l = ?r => replace (Q * X - Q * (U + dt * W + / 2 * (dt * dt) * A)) with (l - r) by field end. lra.
  Qed.

  (** *** reversal *)
  Lemma step_reverse up u un : is_field f up -> is_field f u -> zero_on_held f up -> step sqrtK p f P rho dt up u = Ok un -> step sqrtK p f P rho dt un u = Ok up.
  Proof.
    intros S1 S2 Z E. destruct (step_spec up u S1 S2) as (un' & E' & SN & ZN & res & ER & SR & Q). rewrite E in E'. injection E' as <-.
    destruct (step_spec un u SN S2) as (up' & E' & SN' & ZN' & res' & ER' & SR' & Q'). rewrite E'. f_equal. rewrite ER in ER'. injection ER' as <-.
    apply (shaped_ext (@zero Rops) N (vec f)); auto. intros n k Hn Hk. change (at_dof up' n k = at_dof up n k). destruct (held_dec n k Hn Hk) as [C|C].
    - rewrite (ZN' n k), (Z n k); auto.
    - specialize (Q n k Hn Hk C). specialize (Q' n k Hn Hk C). apply (Rmult_eq_reg_l (M n)); [|exact (MASS n k Hn Hk C)]. lra.
  Qed.
  Theorem reversal n up u h x y t : is_field f up -> is_field f u -> zero_on_held f up -> zero_on_held f u -> scan sqrtK p f P rho dt n up u = Ok h ->
    rev (up :: u :: h) = x :: y :: t -> scan sqrtK p f P rho dt n x y = Ok t.
  Proof.
    intros S1 S2 Z1 Z2 E ER. destruct (scan_spec n up u S1 S2) as (h' & E' & L & Q). rewrite E in E'. injection E' as <-.
    assert (LL : length (up :: u :: h) = length (x :: y :: t)) by (rewrite <- ER; symmetry; apply rev_length).
    apply scan_trajectory. split; [cbn [length] in LL; lia|]. apply scan_trajectory in E as [_ T]. intros i Hi. rewrite <- ER in *.
    set (l := up :: u :: h) in *. rewrite rev_length in Hi. assert (Ll : length l = S (S n)) by (unfold l; cbn [length]; lia).
    rewrite !rev_nth by lia.
    assert (F : forall j, (j < S (S n))%nat -> is_field f (nth j l []) /\ zero_on_held f (nth j l [])).
    { intros [|[|j]] Hj; [split; auto|split; auto|]. destruct (Q j) as (A & B & _); [lia|]. split; auto. }
    set (j := (length l - S (S (S i)))%nat). replace (length l - S i)%nat with (S (S j)) by (unfold j; lia). replace (length l - S (S i))%nat with (S j) by (unfold j; lia).
    apply step_reverse; try apply F; try (unfold j; lia). apply T. unfold j. lia.
  Qed.

  (** *** momentum *)
  Lemma at_comb a u b v n k : is_field f u -> is_field f v -> (n < N)%nat -> (k < vec f)%nat -> at_dof (comb a u b v) n k = a * at_dof u n k + b * at_dof v n k.
  Proof. intros S1 S2 Hn Hk. unfold at_dof, comb. now rewrite (get2_map2 _ N (vec f) _ _ n k (@zero Rops) (@zero Rops)) by auto. Qed.
  Lemma comb_field a u b v : is_field f u -> is_field f v -> is_field f (comb a u b v).
  Proof. intros. now apply shaped_map2. Qed.

  Section NoLoad.
    Hypothesis NM : mass_map (maps p) = None.
    Hypothesis NS : surface_maps (maps p) = None.
    Lemma no_faces : boundary_inds_list p = [].
    Proof. destruct STD as (_ & _ & _ & _ & H). now rewrite NS in H. Qed.
    Section Momentum.
      Variable (s : String.string).
      Hypothesis LAG : built_element s (dim f) f.
      Lemma residual_sum u res k : is_field f u -> compute_residual sqrtK p [P] [u] = Ok [res] -> (k < vec f)%nat -> sum_n (K := Rops) N (fun n => at_dof res n k) = 0.
      Proof.
        intros S E Hk. apply (internal_balance Rops_ring sqrtK p f P u s res k); auto using no_faces. now apply (field_ok p f STD).
      Qed.
      Theorem momentum_kept n u0 v0 h k i : is_field f u0 -> is_field f v0 -> zero_on_held f u0 -> zero_on_held f v0 -> dt <> 0 -> (k < vec f)%nat ->
        (forall m, (m < N)%nat -> ~ constrained f m k) -> history sqrtK p f P rho dt n u0 v0 = Ok h -> (i < n)%nat ->
        momentum f P rho (comb (/ dt) (nth (S i) h []) (- / dt) (nth i h [])) k = momentum f P rho v0 k.
      Proof.
        intros S1 S2 Z1 Z2 DT Hk FR E Hi. destruct n as [|n]; [lia|].
        destruct (history_fields (S n) u0 v0 h S1 S2 E) as (L & H0 & F & Z).
        destruct (first_step n u0 v0 h S1 S2 Z1 Z2 E) as (a & (SA & ZA & res0 & ER0 & QA) & _ & H1).
        destruct (history_spec (S n) u0 v0 S1 S2) as (h' & up & E' & _ & _ & _ & SU & _ & Q). rewrite E in E'. injection E' as <-.
        revert Hi. induction i as [|i IH]; intros Hi.
        - unfold momentum. transitivity (sum_n (K := Rops) N (fun m => M m * at_dof v0 m k + (- / 2 * dt) * at_dof res0 m k)).
          + apply Rsum_ext. intros m Hm. rewrite at_comb by (auto; apply F; lia). rewrite H1 by auto. rewrite H0. specialize (QA m k Hm Hk (FR m Hm)).
            assert (R1 : at_dof res0 m k = - (M m * at_dof a m k)) by lra. rewrite R1. req; field. exact DT.
          + rewrite Rsum_plus, Rsum_mul, (residual_sum u0 res0 k) by auto. req; ring.
        - rewrite <- IH by lia. destruct (Q (S i)) as (SN & ZN & res & ER & SR & QF); [lia|]. cbn [nth] in QF, ER.
          unfold momentum. transitivity (sum_n (K := Rops) N (fun m => M m * at_dof (comb (/ dt) (nth (S i) h []) (- / dt) (nth i h [])) m k + (- dt) * at_dof res m k)).
          + apply Rsum_ext. intros m Hm. rewrite !at_comb by (auto; apply F; lia). specialize (QF m k Hm Hk (FR m Hm)).
            assert (R1 : at_dof res m k = - / (dt * dt) * (M m * (at_dof (nth (S (S i)) h []) m k - 2 * at_dof (nth (S i) h []) m k + at_dof (nth i h []) m k))).
            { rewrite QF. req; field. exact DT. }
            rewrite R1. req; field. exact DT.
          + rewrite Rsum_plus, Rsum_mul, (residual_sum (nth (S i) h []) res k) by (auto; apply F; lia). req; ring.
      Qed.
    End Momentum.
  End NoLoad.
End Main.
