(** A time step that is small enough exists. *)
From Coq Require Import Reals List Arith Lia Lra Bool.
From Verif Require Import Num Arr ArrFacts Fe Problem SpecAssembly BatchFacts ProblemFacts AssemblyFacts DerivFacts Basis SpecBasis SpecFe FeFacts GeomFacts SolverBc SpecBc BcFacts SpecWeak KernelFacts BalanceFacts
  SpecEnergy EnergyFacts Elastic ElasticFacts SpecElastic ElasticMain Dynamics SpecDynamics DynamicsFacts DynamicsMain DynamicsEnergy.
Import ListNotations.
Local Open Scope R_scope.

Lemma positive_min (g : nat -> R) n : (forall i, (i < n)%nat -> 0 < g i) -> exists m, 0 < m /\ forall i, (i < n)%nat -> m <= g i.
Proof.
  induction n as [|n IH]; intros H; [exists 1; split; [lra|lia]|]. destruct IH as (m & Hm & Q); [intros; apply H; lia|].
  pose proof (H n (Nat.lt_succ_diag_r n)) as G. exists (Rmin m (g n)). split; [now apply Rmin_glb_lt|]. intros i Hi. destruct (Nat.eq_dec i n) as [->|D]; [apply Rmin_r|].
  eapply Rle_trans; [apply Rmin_l|apply Q; lia].
Qed.
Lemma Rsum_le n (g h : nat -> R) : (forall i, (i < n)%nat -> g i <= h i) -> sum_n (K := Rops) n g <= sum_n (K := Rops) n h.
Proof.
  induction n as [|n IH]; intros H; [cbn; lra|]. rewrite !(sum_n_S Rops_ring). cbn. apply Rplus_le_compat; [apply IH; intros; apply H; lia|apply H; lia].
Qed.
Lemma Rsum_term n (g : nat -> R) i : (forall i, (i < n)%nat -> 0 <= g i) -> (i < n)%nat -> g i <= sum_n (K := Rops) n g.
Proof.
  induction n as [|n IH]; intros H Hi; [lia|]. rewrite (sum_n_S Rops_ring). change (g i <= sum_n (K := Rops) n g + g n).
  destruct (Nat.eq_dec i n) as [->|D].
  - pose proof (Rsum_nonneg n g (fun i Hi => H i (Nat.lt_lt_succ_r _ _ Hi))). cbn in *. lra.
  - pose proof (IH (fun i Hi => H i (Nat.lt_lt_succ_r _ _ Hi)) ltac:(lia)). pose proof (H n (Nat.lt_succ_diag_r n)). cbn in *. lra.
Qed.

Section Bounded.
  Variable f : fe Rops.
  Notation field := (list (list Rops)).
  Notation N := (length (points f)).
  Definition size2 (w : field) : R := sum_n (K := Rops) N (fun n => sum_n (K := Rops) (vec f) (fun k => at_dof w n k * at_dof w n k)).
  Lemma sq_nonneg (x : R) : 0 <= x * x. Proof. pose proof (Rle_0_sqr x). now unfold Rsqr in H. Qed.
  Lemma size2_nonneg w : 0 <= size2 w.
  Proof. apply Rsum_nonneg. intros. apply Rsum_nonneg. intros. apply sq_nonneg. Qed.
  Definition lbd (F : field -> R) : Prop := exists C, 0 <= C /\ forall w, is_field f w -> F w * F w <= C * size2 w.
  Definition qbd (F : field -> R) : Prop := exists C, 0 <= C /\ forall w, is_field f w -> Rabs (F w) <= C * size2 w.
  Lemma lbd_ext F G : (forall w, is_field f w -> F w = G w) -> lbd F -> lbd G.
  Proof. intros E (C & H & Q). exists C. split; [exact H|]. intros w S. rewrite <- E by auto. auto. Qed.
  Lemma lbd_dof n k : (n < N)%nat -> (k < vec f)%nat -> lbd (fun w => at_dof w n k).
  Proof.
    intros Hn Hk. exists 1. split; [lra|]. intros w S. rewrite Rmult_1_l.
    apply Rle_trans with (sum_n (K := Rops) (vec f) (fun k => at_dof w n k * at_dof w n k)).
    - apply (Rsum_term (vec f) (fun k => at_dof w n k * at_dof w n k)); auto. intros; apply sq_nonneg.
    - apply (Rsum_term N (fun n => sum_n (K := Rops) (vec f) (fun k => at_dof w n k * at_dof w n k))); auto. intros. apply Rsum_nonneg. intros; apply sq_nonneg.
  Qed.
  Lemma lbd_zero : lbd (fun _ => 0).
  Proof. exists 0. split; [lra|]. intros. lra. Qed.
  Lemma lbd_scale c F : lbd F -> lbd (fun w => c * F w).
  Proof.
    intros (C & H & Q). exists (c * c * C). split; [apply Rmult_le_pos; [apply sq_nonneg|exact H]|]. intros w S. specialize (Q w S).
    replace (c * F w * (c * F w)) with (c * c * (F w * F w)) by ring. rewrite (Rmult_assoc (c * c) C). apply Rmult_le_compat_l; [apply sq_nonneg|exact Q].
  Qed.
  Lemma lbd_plus F G : lbd F -> lbd G -> lbd (fun w => F w + G w).
  Proof.
    intros (C & H & Q) (C' & H' & Q'). exists (2 * C + 2 * C'). split; [lra|]. intros w S. specialize (Q w S). specialize (Q' w S).
    pose proof (sq_nonneg (F w - G w)). nra.
  Qed.
  Lemma lbd_sum m (F : nat -> field -> R) : (forall i, (i < m)%nat -> lbd (F i)) -> lbd (fun w => sum_n (K := Rops) m (fun i => F i w)).
  Proof.
    induction m as [|m IH]; intros H; [apply (lbd_ext (fun _ => 0)); [reflexivity|apply lbd_zero]|].
    apply (lbd_ext (fun w => sum_n (K := Rops) m (fun i => F i w) + F m w)); [intros; now rewrite (sum_n_S Rops_ring)|]. apply lbd_plus; auto.
  Qed.
  Lemma qbd_ext F G : (forall w, is_field f w -> F w = G w) -> qbd F -> qbd G.
  Proof. intros E (C & H & Q). exists C. split; [exact H|]. intros w S. rewrite <- E by auto. auto. Qed.
  Lemma qbd_zero : qbd (fun _ => 0).
  Proof. exists 0. split; [lra|]. intros. rewrite Rabs_R0. lra. Qed.
  Lemma qbd_mul F G : lbd F -> lbd G -> qbd (fun w => F w * G w).
  Proof.
    intros (C & H & Q) (C' & H' & Q'). exists (C + C'). split; [lra|]. intros w S. specialize (Q w S). specialize (Q' w S).
    pose proof (sq_nonneg (F w - G w)). pose proof (sq_nonneg (F w + G w)). pose proof (sq_nonneg (F w)). pose proof (sq_nonneg (G w)). apply Rabs_le. split; nra.
  Qed.
  Lemma qbd_scale c F : qbd F -> qbd (fun w => c * F w).
  Proof.
    intros (C & H & Q). exists (Rabs c * C). split; [apply Rmult_le_pos; [apply Rabs_pos|exact H]|]. intros w S. rewrite Rabs_mult, Rmult_assoc. apply Rmult_le_compat_l; [apply Rabs_pos|auto].
  Qed.
  Lemma qbd_plus F G : qbd F -> qbd G -> qbd (fun w => F w + G w).
  Proof.
    intros (C & H & Q) (C' & H' & Q'). exists (C + C'). split; [lra|]. intros w S. specialize (Q w S). specialize (Q' w S). eapply Rle_trans; [apply Rabs_triang|]. lra.
  Qed.
  Lemma qbd_sum m (F : nat -> field -> R) : (forall i, (i < m)%nat -> qbd (F i)) -> qbd (fun w => sum_n (K := Rops) m (fun i => F i w)).
  Proof.
    induction m as [|m IH]; intros H; [apply (qbd_ext (fun _ => 0)); [reflexivity|apply qbd_zero]|].
    apply (qbd_ext (fun w => sum_n (K := Rops) m (fun i => F i w) + F m w)); [intros; now rewrite (sum_n_S Rops_ring)|]. apply qbd_plus; auto.
  Qed.
End Bounded.

Section Stable.
  Context {V : Type}.
  Variables (lam mu : R) (sqrtK : Rops -> Rops) (p : problem Rops V) (f : fe Rops) (P : list (list Rops)) (rho : R).
  Hypothesis WF : wf_problem p.
  Hypothesis NC : (0 < p_num_cells p)%nat.
  Hypothesis FE : free_elastic p f lam mu.
  Notation N := (length (points f)).
  Lemma strain_energy_bound : qbd f (fun w => strain_energy lam mu p f P w).
  Proof.
    apply (qbd_ext f (fun w => / 2 * bil lam mu p f P w w)); [intros; symmetry; apply strain_energy_bil|].
    apply qbd_scale. unfold bil, over_cells. apply qbd_sum. intros c Hc. apply qbd_sum. intros q Hq.
    apply (qbd_ext f (fun w => get_JxW P f c q * ebil lam mu (dim f) (sol_to_grad P f w c q) (sol_to_grad P f w c q))); [intros; cbn; req; ring|].
    apply qbd_scale.
    assert (G : forall k j, (k < dim f)%nat -> lbd f (fun w => sol_to_grad P f w c q k j)).
    { intros k j Hk. unfold sol_to_grad. apply lbd_sum. intros a Ha. pose proof (fe_std lam mu p f FE) as STD. assert (Hv : (k < vec f)%nat) by now rewrite (fe_vd lam mu p f FE).
      apply (lbd_ext f (fun w => get_shape_grads P f c q a j * at_dof w (cell_node f c a) k)).
      - intros w S. pose proof (field_at p f WF NC STD w c a k) as E. cbn in E |- *. unfold at_dof. rewrite Rmult_comm. f_equal. cbn. apply E; auto. now apply (field_ok p f STD).
      - apply lbd_scale, lbd_dof; [exact (node_ok p f WF STD c a Hc Ha)|exact Hv]. }
    assert (S : forall k j, (k < dim f)%nat -> (j < dim f)%nat -> lbd f (fun w => strain (sol_to_grad P f w c q) k j)).
    { intros k j Hk Hj. unfold strain. apply lbd_scale, lbd_plus; auto. }
    assert (T : lbd f (fun w => trace (dim f) (strain (sol_to_grad P f w c q)))) by (unfold trace; apply lbd_sum; auto).
    unfold ebil. apply qbd_plus.
    - apply (qbd_ext f (fun w => lam * (trace (dim f) (strain (sol_to_grad P f w c q)) * trace (dim f) (strain (sol_to_grad P f w c q))))); [intros; req; ring|]. now apply qbd_scale, qbd_mul.
    - apply qbd_scale. apply qbd_sum. intros k Hk. apply qbd_sum. intros j Hj. apply qbd_mul; auto.
  Qed.
  Theorem small_step theta : 0 < theta -> (forall n, (n < N)%nat -> 0 < lumped_mass f P rho n) ->
    exists dt0, 0 < dt0 /\ forall dt w, 0 < dt <= dt0 -> is_field f w -> dt * dt / 4 * strain_energy lam mu p f P w <= theta * kinetic f P rho w.
  Proof.
    intros HT MP. destruct strain_energy_bound as (C & HC & Q). destruct (positive_min (lumped_mass f P rho) N MP) as (m & Hm & MM).
    assert (KB : forall w, / 2 * m * size2 f w <= kinetic f P rho w).
    { intros w. unfold kinetic, mass_dot, size2. rewrite Rmult_assoc. apply Rmult_le_compat_l; [lra|]. rewrite <- Rsum_mul. apply Rsum_le. intros n Hn. rewrite <- Rsum_mul. apply Rsum_le. intros k Hk.
      apply Rmult_le_compat_r; [apply sq_nonneg|auto]. }
    set (b := 2 * theta * m / (C + 1)). assert (B : 0 < b) by (unfold b; apply Rdiv_lt_0_compat; [|lra]; apply Rmult_lt_0_compat; lra).
    exists (sqrt b). split; [now apply sqrt_lt_R0|]. intros dt w [D1 D2] S.
    assert (DD : dt * dt <= b).
    { rewrite <- (sqrt_sqrt b) by lra. apply Rmult_le_compat; lra. }
    specialize (Q w S). pose proof (size2_nonneg f w) as SP. pose proof (KB w) as K. pose proof (Rle_abs (strain_energy lam mu p f P w)) as AB.
    apply Rle_trans with (dt * dt / 4 * (C * size2 f w)); [apply Rmult_le_compat_l; [nra|lra]|].
    apply Rle_trans with (theta * (/ 2 * m * size2 f w)); [|apply Rmult_le_compat_l; lra].
    apply Rle_trans with (b / 4 * (C * size2 f w)).
    { apply Rmult_le_compat_r; [apply Rmult_le_pos; auto|]. lra. }
    assert (BC : b * C <= 2 * theta * m).
    { unfold b. replace (2 * theta * m / (C + 1) * C) with (2 * theta * m * (C / (C + 1))) by (field; lra). rewrite <- (Rmult_1_r (2 * theta * m)) at 2. apply Rmult_le_compat_l; [nra|].
      apply Rmult_le_reg_r with (C + 1); [lra|]. unfold Rdiv. rewrite Rmult_assoc, Rinv_l by lra. lra. }
    replace (b / 4 * (C * size2 f w)) with (b * C * (size2 f w / 4)) by field.
    replace (theta * (/ 2 * m * size2 f w)) with (2 * theta * m * (size2 f w / 4)) by field.
    apply Rmult_le_compat_r; lra.
  Qed.
End Stable.
