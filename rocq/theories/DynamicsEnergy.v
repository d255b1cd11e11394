(** Proofs for C75: moment of momentum, energy, stability. *)
From Coq Require Import Reals List Arith Lia Lra Bool.
From Verif Require Import Num Arr ArrFacts Fe Problem SpecAssembly BatchFacts ProblemFacts AssemblyFacts DerivFacts Basis SpecBasis SpecFe FeFacts GeomFacts SolverBc SpecBc BcFacts SpecWeak KernelFacts BalanceFacts
  SpecEnergy EnergyFacts Elastic ElasticFacts SpecElastic ElasticMain Dynamics SpecDynamics DynamicsFacts DynamicsMain.
Import ListNotations.
Local Open Scope R_scope.

Lemma ebil_comb lam mu d G H X a b : ebil lam mu d (fun k j => a * G k j + b * H k j) X = a * ebil lam mu d G X + b * ebil lam mu d H X.
Proof.
  unfold ebil.
  assert (T : trace d (strain (fun k j => a * G k j + b * H k j)) = a * trace d (strain G) + b * trace d (strain H)).
  { unfold trace. rewrite <- !Rsum_mul, <- Rsum_plus. apply Rsum_ext. intros m Hm. unfold strain. req; field. }
  rewrite T.
  assert (S : sum_n (K := Rops) d (fun i => sum_n (K := Rops) d (fun j => strain (fun k j => a * G k j + b * H k j) i j * strain X i j)) =
    a * sum_n (K := Rops) d (fun i => sum_n (K := Rops) d (fun j => strain G i j * strain X i j)) + b * sum_n (K := Rops) d (fun i => sum_n (K := Rops) d (fun j => strain H i j * strain X i j))).
  { rewrite <- !Rsum_mul, <- Rsum_plus. apply Rsum_ext. intros i Hi. rewrite <- !Rsum_mul, <- Rsum_plus. apply Rsum_ext. intros j Hj. unfold strain. req; field. }
  rewrite S. req; ring.
Qed.

Section Energy.
  Context {V : Type}.
  Variables (lam mu : R) (sqrtK : Rops -> Rops) (p : problem Rops V) (f : fe Rops) (P : list (list Rops)) (rho dt : R).
  Hypothesis WF : wf_problem p.
  Hypothesis NC : (0 < p_num_cells p)%nat.
  Hypothesis FE : free_elastic p f lam mu.
  Hypothesis IVS : ivs_ok p.
  Hypothesis BC : bc_ok f.
  Hypothesis MASS : masses_ok f P rho.
  Hypothesis DT : dt <> 0.
  Notation N := (length (points f)).
  Notation field := (list (list Rops)).
  Notation M := (lumped_mass f P rho).
  Lemma fe_std : standard_problem p f. Proof. exact (proj1 FE). Qed.
  Lemma fe_vd : vec f = dim f. Proof. exact (proj1 (proj2 FE)). Qed.
  Lemma fe_tm : tensor_map (maps p) = Some (elastic_stress lam mu (dim f)). Proof. exact (proj1 (proj2 (proj2 FE))). Qed.
  Lemma fe_nm : mass_map (maps p) = None. Proof. exact (proj1 (proj2 (proj2 (proj2 FE)))). Qed.
  Lemma fe_ns : surface_maps (maps p) = None. Proof. exact (proj2 (proj2 (proj2 (proj2 FE)))). Qed.
  Lemma fe_maps : maps_ok (vec f) (dim f) (maps p).
  Proof.
    split; [|split].
    - intros tm E. rewrite fe_tm in E. injection E as <-. rewrite fe_vd. apply elastic_ok.
    - intros mm E. rewrite fe_nm in E. discriminate.
    - intros sms sm E. rewrite fe_ns in E. discriminate.
  Qed.
  Lemma fe_elastic : elastic_problem lam mu p f.
  Proof. split; [exact fe_std|]. split; [exact fe_vd|]. split; [exact fe_tm|]. rewrite fe_nm, fe_ns. split; discriminate. Qed.

  (** bilinear strain energy *)
  Definition bil (u v : field) : R := over_cells (K := Rops) p f P (fun c q => ebil lam mu (dim f) (sol_to_grad P f u c q) (sol_to_grad P f v c q)).
  Lemma bil_sym u v : bil u v = bil v u.
  Proof. apply over_cells_ext. intros. apply ebil_sym. Qed.
  Lemma grad_comb a u b v c q k j : is_field f u -> is_field f v -> (c < p_num_cells p)%nat -> (k < vec f)%nat ->
    sol_to_grad P f (comb a u b v) c q k j = (a * sol_to_grad P f u c q k j + b * sol_to_grad P f v c q k j)%R.
  Proof.
    intros S1 S2 Hc Hk. unfold sol_to_grad. rewrite <- !Rsum_mul, <- Rsum_plus. apply Rsum_ext. intros i Hi.
    assert (SC : sol_ok p [comb a u b v]) by (apply (field_ok p f fe_std); now apply comb_field).
    rewrite <- !(field_at p f WF NC fe_std _ c i k) by (auto; now apply (field_ok p f fe_std)).
    pose proof (at_comb f a u b v (cell_node f c i) k S1 S2 (node_ok p f WF fe_std c i Hc Hi) Hk) as E. unfold at_dof in E. cbn in E |- *. rewrite E. req; ring.
  Qed.
  Lemma bil_comb a u b v w : is_field f u -> is_field f v -> bil (comb a u b v) w = a * bil u w + b * bil v w.
  Proof.
    intros S1 S2. unfold bil. transitivity (over_cells (K := Rops) p f P (fun c q => (a * ebil lam mu (dim f) (sol_to_grad P f u c q) (sol_to_grad P f w c q) + b * ebil lam mu (dim f) (sol_to_grad P f v c q) (sol_to_grad P f w c q))%R)).
    - apply over_cells_ext. intros c q Hc Hq. rewrite <- ebil_comb. apply ebil_ext; auto. intros k l Hk Hl. apply grad_comb; auto. now rewrite fe_vd.
    - rewrite over_cells_plus. f_equal; unfold over_cells; rewrite <- Rsum_mul; apply Rsum_ext; intros c Hc; rewrite <- Rsum_mul; apply Rsum_ext; intros q Hq; cbn; req; ring.
  Qed.
  Lemma bil_comb_r a u b v w : is_field f u -> is_field f v -> bil w (comb a u b v) = a * bil w u + b * bil w v.
  Proof. intros S1 S2. rewrite bil_sym, bil_comb, (bil_sym w u), (bil_sym w v); auto. Qed.
  Lemma strain_energy_bil u : strain_energy lam mu p f P u = / 2 * bil u u.
  Proof.
    unfold strain_energy, bil. unfold over_cells. rewrite <- Rsum_mul. apply Rsum_ext. intros c Hc. rewrite <- Rsum_mul. apply Rsum_ext. intros q Hq.
    pose proof (density_ebil lam mu (dim f) (sol_to_grad P f u c q)) as D. cbn in D |- *. rewrite D. req; ring.
  Qed.
  Lemma work_bil u v res : is_field f u -> is_field f v -> compute_residual sqrtK p [P] [u] = Ok [res] -> work (K := Rops) N (vec f) v res = bil u v.
  Proof.
    intros S1 S2 E. apply (field_ok p f fe_std) in S1, S2.
    rewrite (any_work Rops_ring sqrtK p f P u WF NC fe_std S1 IVS fe_maps v res S2 E). unfold over_faces. rewrite (no_faces p f fe_std fe_ns). cbn [length].
    transitivity (bil u v + 0); [|req; ring]. apply (f_equal2 Rplus); [|reflexivity]. apply over_cells_ext. intros c q Hc Hq.
    rewrite (el_stress_dot lam mu p f P fe_elastic u). unfold dot1, source. rewrite fe_nm.
    rewrite (sum_n_zero_ext Rops_ring); [cbn; req; ring|]. intros k Hk. cbn. req; ring.
  Qed.

  Definition kin (u u' : field) : R := / 2 * sum_n (K := Rops) N (fun n => sum_n (K := Rops) (vec f) (fun k => M n * ((at_dof u' n k - at_dof u n k) / dt * ((at_dof u' n k - at_dof u n k) / dt)))).
  Lemma half_step_form u u' : is_field f u -> is_field f u' -> half_step_energy p f P lam mu rho dt u u' = kin u u' + / 2 * bil u u'.
  Proof.
    intros S1 S2. unfold half_step_energy. rewrite !strain_energy_bil.
    rewrite !bil_comb, !bil_comb_r by auto using comb_field. rewrite (bil_sym u' u).
    assert (K1 : kinetic f P rho (comb (/ dt) u' (- / dt) u) = kin u u').
    { unfold kinetic, kin, mass_dot. f_equal. apply Rsum_ext. intros n Hn. apply Rsum_ext. intros k Hk. rewrite (at_comb f) by auto. req; field. exact DT. }
    rewrite K1. field.
  Qed.
  Lemma energy_step up u un : is_field f up -> is_field f u -> zero_on_held f up -> next_ok sqrtK p f P rho dt up u un ->
    half_step_energy p f P lam mu rho dt u un = half_step_energy p f P lam mu rho dt up u.
  Proof.
    intros S1 S2 Z (SN & ZN & res & ER & SR & Q). rewrite !half_step_form by auto.
    assert (W : kin u un = kin up u + - / 2 * work (K := Rops) N (vec f) (comb 1 un (-1) up) res).
    { unfold kin, work. rewrite <- !Rsum_mul, <- Rsum_plus. apply Rsum_ext. intros n Hn. rewrite <- !Rsum_mul, <- Rsum_plus. apply Rsum_ext. intros k Hk.
      change (get2 (@zero Rops) (comb 1 un (-1) up) n k) with (at_dof (comb 1 un (-1) up) n k). change (get2 (@zero Rops) res n k) with (at_dof res n k). rewrite (at_comb f) by auto.
      destruct (held_dec f BC n k Hn Hk) as [C|C].
      - rewrite (ZN n k), (Z n k) by auto. cbn. req; field. exact DT.
      - specialize (Q n k Hn Hk C).
        assert (R1 : at_dof res n k = - / (dt * dt) * (M n * (at_dof un n k - 2 * at_dof u n k + at_dof up n k))) by (rewrite Q; req; field; exact DT).
        rewrite R1. cbn. req; field. exact DT. }
    rewrite W, (work_bil u _ res) by auto using comb_field. rewrite bil_comb_r by auto. rewrite (bil_sym u up). req; field.
  Qed.

  Theorem energy_kept n u0 v0 h i a : is_field f u0 -> is_field f v0 -> zero_on_held f u0 -> zero_on_held f v0 -> history sqrtK p f P rho dt n u0 v0 = Ok h -> (i < n)%nat ->
    acceleration sqrtK p f P rho u0 = Ok a ->
    half_step_energy p f P lam mu rho dt (nth i h []) (nth (S i) h []) = kinetic f P rho v0 + strain_energy lam mu p f P u0 - dt * dt / 8 * mass_dot f P rho a a.
  Proof.
    intros S1 S2 Z1 Z2 E Hi EA. destruct n as [|n]; [lia|].
    destruct (history_fields sqrtK p f P rho dt WF NC fe_std IVS fe_maps BC MASS (S n) u0 v0 h S1 S2 E) as (L & H0 & F & Z).
    destruct (first_step sqrtK p f P rho dt WF NC fe_std IVS fe_maps BC MASS n u0 v0 h S1 S2 Z1 Z2 E) as (a' & (SA & ZA & res & ER & QA) & EA' & H1). rewrite EA in EA'. injection EA' as <-.
    destruct (history_spec sqrtK p f P rho dt WF NC fe_std IVS fe_maps BC MASS (S n) u0 v0 S1 S2) as (h' & up & E' & _ & _ & _ & SU & _ & Q). rewrite E in E'. injection E' as <-.
    revert Hi. induction i as [|i IH]; intros Hi.
    - rewrite half_step_form by (apply F; lia). rewrite H0.
      set (w := comb 1 (comb 1 u0 dt v0) (/ 2 * (dt * dt)) a). assert (SW : is_field f w) by (unfold w; auto using comb_field).
      assert (E1 : nth 1 h [] = w).
      { apply (shaped_ext (@zero Rops) N (vec f)); [apply F; lia|exact SW|]. intros m k Hm Hk. change (at_dof (nth 1 h []) m k = at_dof w m k). rewrite H1 by auto.
        unfold w. rewrite !(at_comb f) by auto using comb_field. req; ring. }
      rewrite E1. rewrite strain_energy_bil. unfold w at 2. rewrite !bil_comb_r by auto using comb_field.
      assert (W : forall x, is_field f x -> bil u0 x = work (K := Rops) N (vec f) x res) by (intros; symmetry; now apply work_bil).
      rewrite (W v0), (W a) by auto.
      assert (WA : work (K := Rops) N (vec f) a res = - mass_dot f P rho a a).
      { unfold work, mass_dot. transitivity (-1 * sum_n (K := Rops) N (fun n0 => sum_n (K := Rops) (vec f) (fun k => M n0 * (at_dof a n0 k * at_dof a n0 k)))); [|req; ring].
        rewrite <- Rsum_mul. apply Rsum_ext. intros m Hm. rewrite <- Rsum_mul. apply Rsum_ext. intros k Hk. change (get2 (@zero Rops) a m k) with (at_dof a m k). change (get2 (@zero Rops) res m k) with (at_dof res m k).
        destruct (held_dec f BC m k Hm Hk) as [C|C]; [rewrite (ZA m k) by auto; cbn; req; ring|]. specialize (QA m k Hm Hk C).
        assert (R1 : at_dof res m k = - (M m * at_dof a m k)) by lra. rewrite R1. cbn. req; ring. }
      assert (KW : kin u0 w = kinetic f P rho v0 + - / 2 * dt * work (K := Rops) N (vec f) v0 res + dt * dt / 8 * mass_dot f P rho a a).
      { unfold kin, kinetic, work, mass_dot. rewrite <- !Rsum_mul, <- !Rsum_plus. apply Rsum_ext. intros m Hm. rewrite <- !Rsum_mul, <- !Rsum_plus. apply Rsum_ext. intros k Hk.
        change (get2 (@zero Rops) v0 m k) with (at_dof v0 m k). change (get2 (@zero Rops) res m k) with (at_dof res m k). unfold w. rewrite !(at_comb f) by auto using comb_field.
        destruct (held_dec f BC m k Hm Hk) as [C|C]; [rewrite (ZA m k), (Z2 m k), (Z1 m k) by auto; cbn; req; field; exact DT|]. specialize (QA m k Hm Hk C).
        assert (R1 : at_dof res m k = - (M m * at_dof a m k)) by lra. rewrite R1. cbn. req; field. exact DT. }
      rewrite KW, WA. req; field.
    - rewrite <- IH by lia. assert (X : (S i < S n)%nat) by lia. apply Q in X. cbn [nth] in X.
      apply energy_step; [apply F; lia|apply F; lia| |exact X]. destruct i as [|i]; [now rewrite H0|apply Z; lia].
  Qed.

  (** stability under a bound on the time step *)
  Theorem stable n u0 v0 h i a theta : is_field f u0 -> is_field f v0 -> zero_on_held f u0 -> zero_on_held f v0 -> history sqrtK p f P rho dt n u0 v0 = Ok h -> (i < n)%nat ->
    acceleration sqrtK p f P rho u0 = Ok a ->
    (forall w, is_field f w -> zero_on_held f w -> dt * dt / 4 * strain_energy lam mu p f P w <= theta * kinetic f P rho w) ->
    strain_energy lam mu p f P (comb (/ 2) (nth i h []) (/ 2) (nth (S i) h [])) + (1 - theta) * kinetic f P rho (comb (/ dt) (nth (S i) h []) (- / dt) (nth i h []))
    <= kinetic f P rho v0 + strain_energy lam mu p f P u0 - dt * dt / 8 * mass_dot f P rho a a.
  Proof.
    intros S1 S2 Z1 Z2 E Hi EA CFL. rewrite <- (energy_kept n u0 v0 h i a); auto. unfold half_step_energy.
    destruct (history_fields sqrtK p f P rho dt WF NC fe_std IVS fe_maps BC MASS n u0 v0 h S1 S2 E) as (L & H0 & F & Z).
    set (u := nth i h []) in *. set (u' := nth (S i) h []) in *.
    assert (Su : is_field f u) by (apply F; lia). assert (Su' : is_field f u') by (apply F; lia).
    assert (Zu : zero_on_held f u) by (unfold u; destruct i; [now rewrite H0|apply Z; lia]). assert (Zu' : zero_on_held f u') by (apply Z; lia).
    specialize (CFL (comb (/ dt) u' (- / dt) u) (comb_field f _ _ _ _ Su' Su)).
    assert (X : strain_energy lam mu p f P (comb (/ 2) u' (- / 2) u) = dt * dt / 4 * strain_energy lam mu p f P (comb (/ dt) u' (- / dt) u)).
    { rewrite !strain_energy_bil, !bil_comb, !bil_comb_r by auto using comb_field. req; field. exact DT. }
    rewrite X. assert (C : zero_on_held f (comb (/ dt) u' (- / dt) u)).
    { intros m k Hm Hk C. rewrite (at_comb f) by auto. rewrite (Zu m k), (Zu' m k) by auto. ring. }
    specialize (CFL C). lra.
  Qed.

  (** moment of momentum *)
  Section Spin.
    Variable (s : String.string).
    Hypothesis LAG : built_element s (dim f) f.
    Hypothesis LP : length P = length (points f).
    Hypothesis JN : forall c q, (c < p_num_cells p)%nat -> (q < num_quads f)%nat -> get_JxW P f c q <> 0.
    Lemma residual_moment u res i k : is_field f u -> compute_residual sqrtK p [P] [u] = Ok [res] -> (i < dim f)%nat -> (k < dim f)%nat ->
      sum_n (K := Rops) N (fun n => nth i (nth n P []) 0 * at_dof res n k - nth k (nth n P []) 0 * at_dof res n i) = 0.
    Proof.
      intros S E Hi Hk. apply (field_ok p f fe_std) in S.
      assert (HD : (dim f <= vec f)%nat) by (rewrite fe_vd; auto).
      pose proof (moment Rops_field sqrtK p f P u WF NC fe_std S IVS fe_maps s LAG LP JN res i k Hi Hk HD) as X.
      rewrite (no_faces p f fe_std fe_ns) in X. cbn [length] in X.
      etransitivity; [apply X; auto|].
      - intros c q Hc Hq. rewrite !(el_stress lam mu p f P fe_elastic). unfold elastic_stress, strain. rewrite (Nat.eqb_sym i k). cbn. req; ring.
      - match goal with |- ?a = _ => transitivity (0 + 0) end; [|req; ring]. apply (f_equal2 Rplus); [|reflexivity]. apply (sum_n_zero_ext Rops_ring). intros c Hc. apply (sum_n_zero_ext Rops_ring). intros q Hq.
        unfold source. rewrite fe_nm. cbn. req; ring.
    Qed.
    Theorem spin_kept n u0 v0 h k1 k2 i : is_field f u0 -> is_field f v0 -> zero_on_held f u0 -> zero_on_held f v0 -> (k1 < dim f)%nat -> (k2 < dim f)%nat ->
      (forall m, (m < N)%nat -> ~ constrained f m k1 /\ ~ constrained f m k2) -> history sqrtK p f P rho dt n u0 v0 = Ok h -> (i < n)%nat ->
      spin f P rho (comb (/ dt) (nth (S i) h []) (- / dt) (nth i h [])) k1 k2 = spin f P rho v0 k1 k2.
    Proof.
      intros S1 S2 Z1 Z2 Hk1 Hk2 FR E Hi. destruct n as [|n]; [lia|].
      assert (Hv1 : (k1 < vec f)%nat) by now rewrite fe_vd. assert (Hv2 : (k2 < vec f)%nat) by now rewrite fe_vd.
      destruct (history_fields sqrtK p f P rho dt WF NC fe_std IVS fe_maps BC MASS (S n) u0 v0 h S1 S2 E) as (L & H0 & F & Z).
      destruct (first_step sqrtK p f P rho dt WF NC fe_std IVS fe_maps BC MASS n u0 v0 h S1 S2 Z1 Z2 E) as (a & (SA & ZA & res0 & ER0 & QA) & EA & H1).
      destruct (history_spec sqrtK p f P rho dt WF NC fe_std IVS fe_maps BC MASS (S n) u0 v0 S1 S2) as (h' & up & E' & _ & _ & _ & SU & _ & Q). rewrite E in E'. injection E' as <-.
      revert Hi. induction i as [|i IH]; intros Hi.
      - unfold spin. transitivity (sum_n (K := Rops) N (fun m => M m * (nth k1 (nth m P []) 0 * at_dof v0 m k2 - nth k2 (nth m P []) 0 * at_dof v0 m k1)
            + (- / 2 * dt) * (nth k1 (nth m P []) 0 * at_dof res0 m k2 - nth k2 (nth m P []) 0 * at_dof res0 m k1))).
        + apply Rsum_ext. intros m Hm. rewrite !(at_comb f) by (auto; apply F; lia). rewrite !H1 by auto. rewrite H0. destruct (FR m Hm) as [F1 F2].
          pose proof (QA m k1 Hm Hv1 F1) as Q1. pose proof (QA m k2 Hm Hv2 F2) as Q2.
          assert (R1 : at_dof res0 m k1 = - (M m * at_dof a m k1)) by lra. assert (R2 : at_dof res0 m k2 = - (M m * at_dof a m k2)) by lra. rewrite R1, R2. req; field. exact DT.
        + rewrite Rsum_plus, Rsum_mul, (residual_moment u0 res0) by auto. req; ring.
      - rewrite <- IH by lia. destruct (Q (S i)) as (SN & ZN & res & ER & SR & QF); [lia|]. cbn [nth] in QF, ER.
        unfold spin. transitivity (sum_n (K := Rops) N (fun m => M m * (nth k1 (nth m P []) 0 * at_dof (comb (/ dt) (nth (S i) h []) (- / dt) (nth i h [])) m k2 - nth k2 (nth m P []) 0 * at_dof (comb (/ dt) (nth (S i) h []) (- / dt) (nth i h [])) m k1)
            + (- dt) * (nth k1 (nth m P []) 0 * at_dof res m k2 - nth k2 (nth m P []) 0 * at_dof res m k1))).
        + apply Rsum_ext. intros m Hm. rewrite !(at_comb f) by (auto; apply F; lia). destruct (FR m Hm) as [F1 F2].
          assert (R : forall k, (k < vec f)%nat -> ~ constrained f m k -> at_dof res m k = - / (dt * dt) * (M m * (at_dof (nth (S (S i)) h []) m k - 2 * at_dof (nth (S i) h []) m k + at_dof (nth i h []) m k))).
          { intros k Hk C. rewrite (QF m k Hm Hk C). req; field. exact DT. }
          rewrite (R k1), (R k2) by auto. req; field. exact DT.
        + rewrite Rsum_plus, Rsum_mul, (residual_moment (nth (S i) h []) res) by (auto; apply F; lia). req; ring.
    Qed.
  End Spin.
End Energy.
