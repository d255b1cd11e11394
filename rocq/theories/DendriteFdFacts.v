(** Proofs for C100. *)
From Coq Require Import List Arith Bool Reals Lia Lra.
From Verif Require Import Num Fe Problem ProblemFacts DerivFacts ElasticFacts Dendrite SpecDendrite DendriteAngle DendriteFd SpecDendriteFd.
Import ListNotations.
Local Open Scope R_scope.

(** ** sums *)
Lemma zsum n (g : nat -> R) : (forall i, (i < n)%nat -> g i = 0) -> sum_n (K := Rops) n g = 0.
Proof. exact (sum_n_zero_ext Rops_ring n g). Qed.
Lemma tele n (f : nat -> R) : sum_n (K := Rops) n (fun i => f i + f (S (S i)) - 2 * f (S i)) = (f (S n) - f n) - (f 1%nat - f 0%nat).
Proof.
  induction n as [|n IH]; [cbn; req; ring|]. rewrite (sum_n_S Rops_ring). rewrite IH. cbn [add Rops]. req; ring.
Qed.
Lemma tele_inner n (f : nat -> R) : (2 <= n)%nat -> f 0%nat = f 1%nat -> f (n - 1)%nat = f (n - 2)%nat -> sum_n (K := Rops) (n - 2) (fun i => f i + f (S (S i)) - 2 * f (S i)) = 0.
Proof.
  intros Hn A B. rewrite tele. replace (S (n - 2)) with (n - 1)%nat by lia. rewrite A, B. req; ring.
Qed.
Definition lo (f : nat -> R) (i : nat) : R := match i with O => f 0%nat | S i' => f i' end.
Definition up (n : nat) (f : nat -> R) (i : nat) : R := if (i =? n - 1)%nat then f (n - 1)%nat else f (S i).
Lemma tele_all n (f : nat -> R) : sum_n (K := Rops) n (fun i => lo f i + up n f i - 2 * f i) = 0.
Proof.
  destruct n as [|n]; [reflexivity|].
  assert (H : forall m, (m <= n)%nat -> sum_n (K := Rops) m (fun i => lo f i + up (S n) f i - 2 * f i) = match m with O => 0 | S m' => f m - f m' end).
  { induction m as [|m IH]; intros Hm; [reflexivity|]. rewrite (sum_n_S Rops_ring), IH by lia. unfold up. replace (m =? S n - 1)%nat with false by (symmetry; apply Nat.eqb_neq; lia). destruct m; cbn [lo add Rops]; req; ring. }
  rewrite (sum_n_S Rops_ring), (H n (Nat.le_refl _)). unfold up. replace (S n - 1)%nat with n by lia. rewrite Nat.eqb_refl. destruct n; cbn [lo add Rops]; req; ring.
Qed.

Section Grid.
  Variables nx ny : nat.
  Lemma grad_inner m hx hy i j : inner nx ny i j -> fst (fd_grad nx ny m hx hy) i j = diff_x m hx i j /\ snd (fd_grad nx ny m hx hy) i j = diff_y m hy i j.
  Proof.
    intros (A & B & C & D). unfold fd_grad, diff_x, diff_y, pos_x, pos_y, neg_x, neg_y. cbn [fst snd]. destruct i as [|i]; [lia|]. destruct j as [|j]; [lia|].
    replace (S i =? nx - 1)%nat with false by (symmetry; apply Nat.eqb_neq; lia). replace (S j =? ny - 1)%nat with false by (symmetry; apply Nat.eqb_neq; lia).
    replace (S i + 1)%nat with (S (S i)) by lia. replace (S j + 1)%nat with (S (S j)) by lia. replace (S i - 1)%nat with i by lia. replace (S j - 1)%nat with j by lia.
    unfold Rdiv. rewrite !Rinv_mult. split; ring.
  Qed.
  Lemma laplace_inner m hx hy i j : inner nx ny i j -> fd_laplace nx ny m hx hy i j = five_point m hx hy i j.
  Proof.
    intros (A & B & C & D). unfold fd_laplace, five_point, pos_x, pos_y, neg_x, neg_y. destruct i as [|i]; [lia|]. destruct j as [|j]; [lia|].
    replace (S i =? nx - 1)%nat with false by (symmetry; apply Nat.eqb_neq; lia). replace (S j =? ny - 1)%nat with false by (symmetry; apply Nat.eqb_neq; lia).
    replace (S i + 1)%nat with (S (S i)) by lia. replace (S j + 1)%nat with (S (S j)) by lia. replace (S i - 1)%nat with i by lia. replace (S j - 1)%nat with j by lia.
    replace (hx ^ 2) with (hx * hx) by ring. replace (hy ^ 2) with (hy * hy) by ring. unfold Rdiv. ring.
  Qed.
  Lemma sum2_plus a b (g h : grid) : sum_n (K := Rops) a (fun i => sum_n (K := Rops) b (fun j => g i j + h i j)) =
    sum_n (K := Rops) a (fun i => sum_n (K := Rops) b (fun j => g i j)) + sum_n (K := Rops) a (fun i => sum_n (K := Rops) b (fun j => h i j)).
  Proof. rewrite <- Rsum_plus. apply Rsum_ext. intros i _. now rewrite Rsum_plus. Qed.
  Lemma sum2_mul a b c (g : grid) : sum_n (K := Rops) a (fun i => sum_n (K := Rops) b (fun j => c * g i j)) = c * sum_n (K := Rops) a (fun i => sum_n (K := Rops) b (fun j => g i j)).
  Proof. rewrite <- Rsum_mul. apply Rsum_ext. intros i _. now rewrite Rsum_mul. Qed.
  Lemma laplace_total m hx hy : grid_sum nx ny (fd_laplace nx ny m hx hy) = 0.
  Proof.
    unfold grid_sum.
    transitivity (sum_n (K := Rops) nx (fun i => sum_n (K := Rops) ny (fun j => / hx ^ 2 * (neg_x m i j + pos_x nx m i j - 2 * m i j) + / hy ^ 2 * (neg_y m i j + pos_y ny m i j - 2 * m i j)))).
    { apply Rsum_ext. intros i _. apply Rsum_ext. intros j _. unfold fd_laplace, Rdiv. ring. }
    rewrite (sum2_plus nx ny (fun i j => / hx ^ 2 * (neg_x m i j + pos_x nx m i j - 2 * m i j))). rewrite (sum2_mul nx ny (/ hx ^ 2)), (sum2_mul nx ny (/ hy ^ 2)).
    assert (A : sum_n (K := Rops) nx (fun i => sum_n (K := Rops) ny (fun j => neg_x m i j + pos_x nx m i j - 2 * m i j)) = 0).
    { rewrite Rsum_swap. apply zsum. intros j _. exact (tele_all nx (fun i => m i j)). }
    assert (B : sum_n (K := Rops) nx (fun i => sum_n (K := Rops) ny (fun j => neg_y m i j + pos_y ny m i j - 2 * m i j)) = 0).
    { apply zsum. intros i _. exact (tele_all ny (fun j => m i j)). }
    rewrite A, B. ring.
  Qed.
  Lemma laplace_inner_total m hx hy : (2 <= nx)%nat -> (2 <= ny)%nat -> mirrored nx ny m -> inner_sum nx ny (fd_laplace nx ny m hx hy) = 0.
  Proof.
    intros HX HY (MX & MY). unfold inner_sum.
    transitivity (sum_n (K := Rops) (nx - 2) (fun i => sum_n (K := Rops) (ny - 2) (fun j => / hx ^ 2 * (m i (S j) + m (S (S i)) (S j) - 2 * m (S i) (S j)) + / hy ^ 2 * (m (S i) j + m (S i) (S (S j)) - 2 * m (S i) (S j))))).
    { apply Rsum_ext. intros i Hi. apply Rsum_ext. intros j Hj. unfold fd_laplace, neg_x, pos_x, neg_y, pos_y, Rdiv.
      replace (S i =? nx - 1)%nat with false by (symmetry; apply Nat.eqb_neq; lia). replace (S j =? ny - 1)%nat with false by (symmetry; apply Nat.eqb_neq; lia). ring. }
    rewrite (sum2_plus _ _ (fun i j => / hx ^ 2 * (m i (S j) + m (S (S i)) (S j) - 2 * m (S i) (S j)))). rewrite (sum2_mul _ _ (/ hx ^ 2)), (sum2_mul _ _ (/ hy ^ 2)).
    assert (A : sum_n (K := Rops) (nx - 2) (fun i => sum_n (K := Rops) (ny - 2) (fun j => m i (S j) + m (S (S i)) (S j) - 2 * m (S i) (S j))) = 0).
    { rewrite Rsum_swap. apply zsum. intros j Hj. destruct (MX (S j) ltac:(lia)). now apply (tele_inner nx (fun i => m i (S j))). }
    assert (B : sum_n (K := Rops) (nx - 2) (fun i => sum_n (K := Rops) (ny - 2) (fun j => m (S i) j + m (S i) (S (S j)) - 2 * m (S i) (S j))) = 0).
    { apply zsum. intros i Hi. destruct (MY (S i) ltac:(lia)). now apply (tele_inner ny (fun j => m (S i) j)). }
    rewrite A, B. ring.
  Qed.
  (** edges *)
  Lemma bc_inner a i j : inner nx ny i j -> zero_flux_BC nx ny a i j = a i j.
  Proof.
    intros (A & B & C & D). unfold zero_flux_BC. replace (j =? ny - 1)%nat with false by (symmetry; apply Nat.eqb_neq; lia). replace (i =? nx - 1)%nat with false by (symmetry; apply Nat.eqb_neq; lia).
    replace (j =? 0)%nat with false by (symmetry; apply Nat.eqb_neq; lia). replace (i =? 0)%nat with false by (symmetry; apply Nat.eqb_neq; lia). reflexivity.
  Qed.
  Ltac cases := repeat match goal with |- context [(?a =? ?b)%nat] => destruct (Nat.eqb_spec a b); try lia end; try reflexivity; try (f_equal; lia).
  Lemma bc_mirrored a : (3 <= nx)%nat -> (3 <= ny)%nat -> mirrored nx ny (zero_flux_BC nx ny a).
  Proof. intros HX HY. split; [intros j Hj|intros i Hi]; (split; unfold zero_flux_BC; cases). Qed.
  (** the value next to the edge, also at the corners *)
  Lemma bc_clamp a i j : (3 <= nx)%nat -> (3 <= ny)%nat -> on_grid nx ny i j ->
    zero_flux_BC nx ny a i j = a (Nat.max 1 (Nat.min i (nx - 2))) (Nat.max 1 (Nat.min j (ny - 2))).
  Proof. intros HX HY (Hi & Hj). unfold zero_flux_BC. cases. Qed.
  Lemma bc_idempotent a i j : (3 <= nx)%nat -> (3 <= ny)%nat -> on_grid nx ny i j -> zero_flux_BC nx ny (zero_flux_BC nx ny a) i j = zero_flux_BC nx ny a i j.
  Proof.
    intros HX HY (Hi & Hj). assert (O : on_grid nx ny (Nat.max 1 (Nat.min i (nx - 2))) (Nat.max 1 (Nat.min j (ny - 2)))) by (split; lia).
    rewrite (bc_clamp (zero_flux_BC nx ny a) i j HX HY (conj Hi Hj)), (bc_clamp a _ _ HX HY O), (bc_clamp a i j HX HY (conj Hi Hj)). f_equal; lia.
  Qed.
End Grid.

(** ** the angle *)
Lemma get_theta_polar x y : let r := sqrt (x ^ 2 + y ^ 2) in x = r * cos (get_theta x y) /\ y = r * sin (get_theta x y).
Proof.
  intros r. unfold get_theta. destruct (Rlt_dec x 0) as [X|X].
  - assert (PX : 0 < - x) by lra. pose proof (polar_right (- x) (- y) PX) as H. cbv zeta in H. replace ((- x) ^ 2 + (- y) ^ 2) with (x ^ 2 + y ^ 2) in H by ring. fold r in H. replace (- y / - x) with (y / x) in H by (field; lra).
    rewrite (Rplus_comm PI), neg_cos, neg_sin. destruct H as [H1 H2]. split; lra.
  - destruct (Rlt_dec 0 x) as [X2|X2].
    + pose proof (polar_right x y X2) as H. cbv zeta in H. fold r in H. destruct (Req_EM_T x 0); [lra|]. destruct (Rlt_dec 0 y) as [Y|Y]; [exact H|]. destruct (Rlt_dec y 0) as [Y2|Y2].
      * rewrite (Rplus_comm (2 * PI)). replace (atan (y / x) + 2 * PI) with (atan (y / x) + 2 * IZR 1 * PI) by ring. rewrite cos_period_Z, sin_period_Z. exact H.
      * assert (y = 0) by lra. subst y. replace (0 / x) with 0 in H by (field; lra). rewrite atan_0 in H. exact H.
    + assert (x = 0) by lra. subst x. destruct (Req_EM_T 0 0) as [_|N]; [|lra]. assert (R : r = Rabs y) by exact (norm_y y). destruct (Rlt_dec y 0) as [Y|Y].
      * rewrite R, Rabs_left by exact Y. replace (15 / 10 * PI) with (PI / 2 + PI) by field. rewrite neg_cos, neg_sin, cos_PI2, sin_PI2. split; ring.
      * destruct (Rlt_dec 0 y) as [Y2|Y2].
        -- rewrite R, Rabs_right by lra. replace (5 / 10 * PI) with (PI / 2) by field. rewrite cos_PI2, sin_PI2. split; ring.
        -- assert (y = 0) by lra. subst y. rewrite R, Rabs_R0. split; ring.
Qed.
Lemma get_theta_range x y : 0 <= get_theta x y < 2 * PI.
Proof.
  pose proof PI_RGT_0 as PP. unfold get_theta. pose proof (atan_bound (y / x)) as B. destruct (Rlt_dec x 0) as [X|X]; [lra|]. destruct (Rlt_dec 0 x) as [X2|X2].
  - destruct (Req_EM_T x 0); [lra|]. destruct (Rlt_dec 0 y) as [Y|Y].
    + assert (0 < atan (y / x)); [|lra]. rewrite <- atan_0. apply atan_increasing. apply Rdiv_lt_0_compat; lra.
    + destruct (Rlt_dec y 0) as [Y2|Y2]; [|lra]. assert (atan (y / x) < 0); [|lra]. rewrite <- atan_0. apply atan_increasing. unfold Rdiv. assert (0 < / x) by now apply Rinv_0_lt_compat. nra.
  - destruct (Req_EM_T x 0); [|lra]. destruct (Rlt_dec y 0); [lra|]. destruct (Rlt_dec 0 y); lra.
Qed.
Lemma get_eps_derivative P th : derivable_pt_lim (fun t => fst (get_eps P t)) th (snd (get_eps P th)).
Proof.
  pose proof (eps_derivative P (th + PI / 2)) as D. pose proof (derivable_pt_lim_comp (fun t => t + PI / 2) (eps_fn P) th (1 + 0) _ (derivable_pt_lim_plus id (fct_cte (PI / 2)) th 1 0 (derivable_pt_lim_id th) (derivable_pt_lim_const (PI / 2) th)) D) as C.
  unfold comp in C. eapply (eq_ind _ (fun l => derivable_pt_lim _ th l)).
  - eapply dlim_ext; [|exact C]. intros t. unfold get_eps, eps_fn. cbn [fst]. replace (t + PI / 2 - PI / 2) with t by ring. reflexivity.
  - unfold get_eps, eps_grad. cbn [snd]. replace (th + PI / 2 - PI / 2) with th by ring. ring.
Qed.
Lemma get_eps_fem P th : eps_fn P (th + PI / 2) = fst (get_eps P th) /\ eps_grad P (th + PI / 2) = snd (get_eps P th).
Proof. unfold get_eps, eps_fn, eps_grad. cbn [fst snd]. replace (th + PI / 2 - PI / 2) with th by ring. split; [reflexivity|ring]. Qed.
