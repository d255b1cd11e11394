(** Lemmas for the dynamic relaxation properties. *)
From Coq Require Import String List Arith Lia Bool Reals Lra ZArith.
From Verif Require Import Num Arr ArrFacts Fe Problem SpecAssembly AssemblyFacts ProblemFacts SolverBc SpecBc BcFacts XNum PyDict
  Options LinSolve Newton SpecNewton NewtonFacts SolverFacts ArcLength ArcFacts DynRelax SpecRelax.
Import ListNotations.
Local Open Scope R_scope.

(** Lengths of lists of numbers, seen as xr or as Xops *)
Ltac len_lia := change (car Xops) with xr in *; lia.

(** ** The damping coefficient *)
Lemma calC_nan : calC NaN dr_cmin dr_cmax = NaN.
Proof. reflexivity. Qed.
Definition damping (t : R) : R := Rmin (39 / 10) (Rmax (1 / 1000) (2 * sqrt (Rmax 0 t))).
Lemma damping_range t : 1 / 1000 <= damping t <= 39 / 10.
Proof.
  unfold damping. split; [|apply Rmin_l]. apply Rmin_glb; [lra|apply Rmax_l].
Qed.
Lemma clamp_fin c : (let c := if xltb (Fin c) dr_cmin then dr_cmin else Fin c in if xgtb c dr_cmax then dr_cmax else c)
  = Fin (Rmin (39 / 10) (Rmax (1 / 1000) c)).
Proof.
  unfold dr_cmin, dr_cmax, xgtb. cbn [xltb]. destruct (Rltb c (1 / 1000)) eqn:E.
  - apply Rltb_true in E. cbv zeta. cbn [xltb]. rewrite (proj2 (Rltb_false _ _)) by lra.
    rewrite Rmax_left by lra. rewrite Rmin_right by lra. reflexivity.
  - apply Rltb_false in E. cbv zeta. cbn [xltb]. rewrite Rmax_right by lra. destruct (Rltb (39 / 10) c) eqn:E'.
    + apply Rltb_true in E'. rewrite Rmin_left by lra. reflexivity.
    + apply Rltb_false in E'. rewrite Rmin_right by lra. reflexivity.
Qed.
Lemma calC_fin t : calC (Fin t) dr_cmin dr_cmax = Fin (damping t).
Proof.
  unfold calC, damping. cbn [xltb]. cbv zeta. destruct (Rltb t 0) eqn:E.
  - apply Rltb_true in E. cbn [xsqrt]. destruct (Rlt_dec 0 0); [lra|]. cbn [xmul]. rewrite (Rmax_left 0 t) by lra. apply clamp_fin.
  - apply Rltb_false in E. cbn [xsqrt]. destruct (Rlt_dec t 0); [lra|]. cbn [xmul]. rewrite (Rmax_right 0 t) by lra. apply clamp_fin.
Qed.
Lemma calC_pinf : calC PInf dr_cmin dr_cmax = Fin (39 / 10).
Proof.
  unfold calC. cbn [xltb xsqrt xmul]. unfold inf_sign. destruct (Rlt_dec 0 2); [|lra]. reflexivity.
Qed.
Lemma calC_ninf : calC NInf dr_cmin dr_cmax = Fin (1 / 1000).
Proof.
  unfold calC. cbn [xltb]. cbv zeta. cbn [xsqrt]. destruct (Rlt_dec 0 0); [lra|]. cbn [xmul]. rewrite sqrt_0.
  pose proof (clamp_fin (2 * 0)) as C. cbv zeta in C. rewrite C. f_equal.
  rewrite Rmax_left by lra. rewrite Rmin_right by lra. reflexivity.
Qed.
Lemma calC_range t : isnan t = false -> exists c, calC t dr_cmin dr_cmax = Fin c /\ 1 / 1000 <= c <= 39 / 10.
Proof.
  destruct t as [t| | |]; intros H; try discriminate.
  - rewrite calC_fin. eexists. split; [reflexivity|]. apply damping_range.
  - rewrite calC_pinf. eexists. split; [reflexivity|]. lra.
  - rewrite calC_ninf. eexists. split; [reflexivity|]. lra.
Qed.
Lemma multiplier_bound c : 1 / 1000 <= c <= 39 / 10 -> Rabs ((2 - c) / (2 + c)) < 1 /\ 0 < 2 / (2 + c) < 1.
Proof.
  intros [L U]. assert (P : 0 < / (2 + c)) by (apply Rinv_0_lt_compat; lra).
  assert (E : (2 + c) * / (2 + c) = 1) by (apply Rinv_r; lra). unfold Rdiv. split; [|split; nra].
  apply Rabs_def1; nra.
Qed.

(** ** Velocities *)
Lemma velocity_nan_c v r m : dr_velocity NaN v r m = NaN.
Proof. reflexivity. Qed.
Lemma velocity_nan_v c r m : dr_velocity c NaN r m = NaN.
Proof.
  unfold dr_velocity, xsub. generalize (xopp (xdiv (xmul (xdiv (xmul (Fin 2) dr_h) (xadd (Fin 2) (xmul c dr_h))) r) m)).
  intros w. set (k := xdiv _ _). destruct k, w; reflexivity.
Qed.
Lemma factor_val : dr_factor = Fin (121 / 400).
Proof. unfold dr_factor, dr_h_tilde. cbn [xmul xdiv]. destruct (Req_EM_T 4 0); [lra|]. f_equal. lra. Qed.
Lemma velocity_fin c v r m : 1 / 1000 <= c <= 39 / 10 -> m <> 0 ->
  dr_velocity (Fin c) (Fin v) (Fin r) (Fin m) = Fin ((2 - c) / (2 + c) * v - 2 / (2 + c) * r / m).
Proof.
  intros Hc Hm. unfold dr_velocity, dr_h, xsub. cbn [xmul xopp xadd xdiv].
  destruct (Req_EM_T (2 + c * 1) 0); [lra|]. cbn [xmul xdiv]. destruct (Req_EM_T m 0); [lra|]. cbn [xopp xadd]. f_equal.
  replace (2 + - (c * 1)) with (2 - c) by lra. replace (2 + c * 1) with (2 + c) by lra. replace (2 * 1) with 2 by lra. lra.
Qed.
Lemma velocity_rest c : (c = NaN \/ exists r, c = Fin r /\ 1 / 1000 <= r <= 39 / 10) ->
  c = NaN \/ dr_velocity c (Fin 0) (Fin 0) (Fin (121 / 400)) = Fin 0.
Proof.
  intros [->|(r & -> & H)]; [now left|right]. rewrite velocity_fin by (assumption || lra). f_equal. unfold Rdiv. ring.
Qed.
Lemma calC_cases t : calC t dr_cmin dr_cmax = NaN \/ exists c, calC t dr_cmin dr_cmax = Fin c /\ 1 / 1000 <= c <= 39 / 10.
Proof.
  destruct (isnan t) eqn:E; [|right; now apply calC_range]. left. destruct t; try discriminate. reflexivity.
Qed.

(** ** Maxima *)
Lemma xmax_fin_inv x y : forall r, xleb (xmax x y) (Fin r) = true -> xleb x (Fin r) = true /\ xleb y (Fin r) = true.
Proof.
  intros r. unfold xmax. destruct x as [x| | |], y as [y| | |]; cbn [isnan orb xltb]; try discriminate; unfold xleb; cbn [xltb xeqb]; try (cbn; intuition congruence).
  destruct (Rltb x y) eqn:E.
  - apply Rltb_true in E. cbn [xltb xeqb]. intros H. apply orb_true_iff in H.
    assert (y <= r) by (destruct H as [H|H]; [apply Rltb_true in H; lra|apply Reqb_true in H; lra]).
    split; apply orb_true_iff; [left; apply Rltb_true; lra|]. destruct H; auto.
  - apply Rltb_false in E. cbn [xltb xeqb]. intros H. apply orb_true_iff in H.
    assert (x <= r) by (destruct H as [H|H]; [apply Rltb_true in H; lra|apply Reqb_true in H; lra]).
    split; apply orb_true_iff; [destruct H; auto|]. destruct (Rlt_dec y r); [left; now apply Rltb_true|right; apply Reqb_true; lra].
Qed.
Lemma fold_max_le r l : forall x, xleb (fold_left xmax l x) (Fin r) = true -> xleb x (Fin r) = true /\ Forall (fun y => xleb y (Fin r) = true) l.
Proof.
  induction l as [|y l IH]; intros x H; cbn [fold_left] in H; [auto|]. apply IH in H as [H1 H2].
  apply xmax_fin_inv in H1 as [A1 A2]. split; [exact A1|]. now constructor.
Qed.
Lemma xmax_nan x y : isnan (xmax x y) = true -> isnan x = true \/ isnan y = true.
Proof. unfold xmax. destruct (isnan x) eqn:Ex, (isnan y) eqn:Ey; auto. cbn [orb]. destruct (xltb x y); congruence. Qed.
Lemma fold_max_nan l : forall x, isnan (fold_left xmax l x) = true -> isnan x = true \/ Exists (fun y => isnan y = true) l.
Proof.
  induction l as [|y l IH]; intros x H; cbn [fold_left] in H; [auto|]. apply IH in H as [H|H].
  - apply xmax_nan in H as [H|H]; [now left|right]. now constructor.
  - right. now constructor 2.
Qed.
Lemma xabs_le x r : xleb (xabs x) (Fin r) = true -> exists a, x = Fin a /\ Rabs a <= r.
Proof.
  destruct x as [a| | |]; unfold xleb; cbn; try discriminate. intros H. exists a. split; [reflexivity|].
  apply orb_true_iff in H as [H|H]; [apply Rltb_true in H|apply Reqb_true in H]; lra.
Qed.
(** What a maximum that is not above the tolerance says *)
Lemma max_abs_le l m r : max_abs l = Ok m -> xgtb m (Fin r) = false ->
  (exists x, In x l /\ x = NaN) \/ (Forall (fun x => exists a, x = Fin a /\ Rabs a <= r) l).
Proof.
  unfold max_abs, vmax. destruct l as [|x l]; cbn [map]; [discriminate|]. injection 1 as <-. intros H.
  destruct (isnan (fold_left xmax (map (fun a : xr => xabs a) l) (xabs x))) eqn:N.
  - left. apply fold_max_nan in N as [N|N].
    + exists x. split; [now left|]. destruct x; try discriminate. reflexivity.
    + apply Exists_exists in N as (y & Hy & Ny). apply in_map_iff in Hy as (z & <- & Hz). exists z. split; [now right|].
      destruct z; try discriminate. reflexivity.
  - right. assert (L : xleb (fold_left xmax (map (fun a : xr => xabs a) l) (xabs x)) (Fin r) = true).
    { revert H N. generalize (fold_left xmax (map (fun a : xr => xabs a) l) (xabs x)). intros w. unfold xgtb, xleb.
      destruct w; cbn; try discriminate; try reflexivity. intros H _. apply Rltb_false in H. apply orb_true_iff.
      destruct (Rlt_dec r0 r); [left; now apply Rltb_true|right; apply Reqb_true; lra]. }
    apply fold_max_le in L as [L1 L2]. constructor.
    + now apply xabs_le.
    + rewrite Forall_map in L2. eapply Forall_impl; [|exact L2]. intros z. apply xabs_le.
Qed.
Lemma max_abs_nan l m : max_abs l = Ok m -> isnan m = true <-> exists x, In x l /\ x = NaN.
Proof.
  unfold max_abs, vmax. destruct l as [|x l]; cbn [map]; [discriminate|]. injection 1 as <-. split.
  - intros N. apply fold_max_nan in N as [N|N].
    + exists x. split; [now left|]. destruct x; try discriminate. reflexivity.
    + apply Exists_exists in N as (y & Hy & Ny). apply in_map_iff in Hy as (z & <- & Hz). exists z. split; [now right|].
      destruct z; try discriminate. reflexivity.
  - assert (K : forall l x, isnan x = true -> isnan (fold_left xmax l x) = true).
    { intros l0. induction l0 as [|y l0 IH]; intros z Hz; cbn [fold_left]; [exact Hz|]. apply IH. unfold xmax. now rewrite Hz. }
    assert (K' : forall l x, In NaN l -> isnan (fold_left xmax l x) = true).
    { intros l0. induction l0 as [|y l0 IH]; intros z Hz; cbn [fold_left]; [destruct Hz|]. destruct Hz as [->|Hz]; [|now apply IH].
      apply K. unfold xmax. cbn [isnan]. now rewrite orb_true_r. }
    intros (y & [->|Hy] & ->); [now apply K|]. apply K'. apply in_map_iff. now exists NaN.
Qed.

(** ** Problems *)
Section Relax.
  Context {V : Type}.
  Variable jvp : (list Xops -> list Xops) -> list Xops -> list Xops -> list Xops.
  Variable p : problem Xops V.
  Variable pts : list (list (list Xops)).
  Variable kf : nat -> face_in Xops V -> list Xops.
  Hypothesis WF : wf_problem p.
  Hypothesis NC : (0 < p_num_cells p)%nat.
  Hypothesis IVS : ivs_ok p.
  Hypothesis KER : kernels_ok p kf.
  Hypothesis BC : bcs_ok p.
  Hypothesis RNG : forall f, In f (fes p) -> bc_in_range f.
  Notation N := (num_total_dofs_all_vars p).

  Lemma cdof_lt g : constrained_dof p g -> (g < N)%nat.
  Proof. intros (v & n & j & Hv & _ & ->). pose proof (dof_number_lt _ _ _ _ Hv) as H. rewrite all_dofs_total in H. exact H. Qed.

  Lemma assembleVec_ok u R : assembleVec p pts u = Ok R ->
    length u = N /\ length R = N /\ exists res, residual_at p pts u res /\
      (forall g, constrained_dof p g -> nth g R (Fin 0) = Fin 0) /\
      (forall g, (g < N)%nat -> ~ constrained_dof p g -> nth g R (Fin 0) = nth g res (Fin 0)).
  Proof.
    unfold assembleVec. destruct (unflatten p u) as [sol|] eqn:Eu; [|discriminate]. cbn [bind].
    destruct (compute_residual xsqrt p pts sol) as [r|] eqn:Er; [|discriminate]. cbn [bind]. injection 1 as <-.
    unfold unflatten in Eu. destruct (Nat.eqb_spec (length u) N) as [Lu|]; [|discriminate]. injection Eu as <-.
    split; [exact Lu|]. pose proof (residual_length xsqrt p pts _ kf WF NC (sol_ok_unravel p u Lu) IVS KER r Er) as Lr.
    destruct (assign_zeros_bc_spec p BC (ravel r) Lr) as [L G]. split; [exact (eq_trans L (all_dofs_total (global_shapes p)))|].
    exists (ravel r). split; [split; [exact Lu|]; eauto|]. split.
    - intros g (v & n & j & Hv & C & ->). specialize (G v n j Hv). apply prescribed_constrained in C as [b Hb]. rewrite Hb in G. exact G.
    - intros g Hg F. assert (Hg' : (g < all_dofs (global_shapes p))%nat) by (rewrite all_dofs_total; exact Hg).
      destruct (dof_number_surj _ _ Hg') as (v & n & j & Hv & <-).
      specialize (G v n j Hv). destruct (prescribed (fe_of p v) n j) eqn:E; [|exact G]. exfalso. apply F. exists v, n, j. split; [exact Hv|].
      split; [|reflexivity]. apply prescribed_constrained. eauto.
  Qed.

  Lemma sum_delta n g : (g < n)%nat -> sum_n (K := Xops) n (fun j => xabs (if (g =? j)%nat then one else zero : Xops)) = Fin 1.
  Proof.
    intros Hg. unfold sum_n, sum_over.
    assert (E : map (fun j => xabs (if (g =? j)%nat then one else zero : Xops)) (seq 0 n)
      = map Fin (map (fun j => if (g =? j)%nat then 1 else 0) (seq 0 n))).
    { rewrite map_map. apply map_ext. intros j. destruct (g =? j)%nat; cbn; f_equal; [apply Rabs_R1|apply Rabs_R0]. }
    refine (eq_trans (f_equal (@sumK Xops) E) _).
    refine (eq_trans (sumK_Fin _) _). f_equal.
      assert (K : forall m s, fold_right Rplus 0 (map (fun j => if (g =? j)%nat then 1 else 0) (seq s m)) =
                   if (s <=? g)%nat && (g <? s + m)%nat then 1 else 0).
      { induction m as [|m IH]; intros s; cbn [seq map fold_right].
        - rewrite Nat.add_0_r. destruct (Nat.leb_spec s g), (Nat.ltb_spec g s); try lia; reflexivity.
        - rewrite IH. destruct (Nat.eqb_spec g s), (Nat.leb_spec (S s) g), (Nat.ltb_spec g (S s + m)), (Nat.leb_spec s g), (Nat.ltb_spec g (s + S m)); try lia; cbn; lra. }
      rewrite K. destruct (Nat.leb_spec 0 g), (Nat.ltb_spec g (0 + n)); try lia. reflexivity.
  Qed.

  Lemma masses_ok u A M : assembleCSR jvp p pts u = Ok A -> masses (length u) A = Ok M ->
    length u = N /\ length M = N /\ forall g, constrained_dof p g -> nth g M (Fin 0) = Fin (121 / 400).
  Proof.
    unfold assembleCSR. destruct (unflatten p u) as [sol|] eqn:Eu; [|discriminate]. cbn [bind].
    destruct (newton_update jvp xsqrt p pts sol) as [rV|] eqn:Er; [|discriminate]. cbn [bind].
    unfold unflatten in Eu. destruct (Nat.eqb_spec (length u) N) as [Lu|]; [|discriminate]. 
    destruct (negb _); [discriminate|]. destruct (negb _); [discriminate|]. injection 1 as <-. unfold masses. cbn [m_rows m_cols m_at].
    destruct (Nat.eqb_spec (num_total_dofs (fe0 p)) (length u)) as [E|]; [|discriminate]. injection 1 as <-.
    split; [exact Lu|]. split; [rewrite map_length, seq_length; congruence|].
    intros g C. pose proof (cdof_lt g C) as Hg.
    rewrite (nth_map_in _ _ _ 0%nat) by (rewrite seq_length; lia). rewrite seq_nth by lia. cbn [plus].
    destruct C as (v & n & j & Hv & C & ->).
    erewrite sum_n_ext; [|intros h Hh; exact (f_equal xabs (proj1 (tangent_spec p BC RNG (snd rV) v n j h Hv) C))].
    rewrite factor_val. 
    assert (Hd : sum_n (K := Xops) (num_total_dofs (fe0 p)) (fun j0 => xabs (if (dof_number (global_shapes p) v n j =? j0)%nat then one else zero : Xops)) = Fin 1)
      by (apply sum_delta; lia).
    transitivity (xmul (Fin (121 / 400)) (Fin 1)); [exact (f_equal (xmul (Fin (121 / 400))) Hd)|]. cbn [xmul]. f_equal. lra.
  Qed.

  (** The invariant of the loop *)
  Record dr_inv (u0 : list Xops) (st : dr_state) : Prop := {
    di_q : length (dr_q st) = N;
    di_qdot : length (dr_qdot st) = N;
    di_M : length (dr_M st) = N /\ forall g, constrained_dof p g -> nth g (dr_M st) (Fin 0) = Fin (121 / 400);
    di_vel : all_nan (dr_qdot st) \/ forall g, constrained_dof p g -> nth g (dr_qdot st) (Fin 0) = Fin 0;
    di_pos : all_nan (dr_q st) \/ keeps_constrained p u0 (dr_q st);
    di_R : assembleVec p pts (dr_q st) = Ok (dr_R st);
    di_error : max_abs (dr_R st) = Ok (dr_error st)
  }.

  Lemma start_inv u st : dr_start jvp p pts u = Ok st -> dr_inv u st /\ dr_q st = u /\ dr_nIters st = 0%nat.
  Proof.
    unfold dr_start. destruct (assembleVec p pts u) as [R|] eqn:ER; [|discriminate]. cbn [bind].
    destruct (assembleCSR jvp p pts u) as [A|] eqn:EA; [|discriminate]. cbn [bind].
    destruct (masses (length u) A) as [M|] eqn:EM; [|discriminate]. cbn [bind]. cbv zeta.
    destruct (negb _); [discriminate|]. destruct (negb _); [discriminate|]. destruct (negb _); [discriminate|].
    destruct (max_abs R) as [e|] eqn:Ee; [|discriminate]. cbn [bind]. injection 1 as <-. split; [|now split].
    destruct (assembleVec_ok u R ER) as (Lu & LR & res & Hres & H0 & H1). destruct (masses_ok u A M EA EM) as (_ & LM & HM).
    constructor; cbn [dr_q dr_qdot dr_M dr_R dr_error]; auto.
    - rewrite map2_len; [exact LR|exact (eq_trans LR (eq_sym LM))].
    - right. intros g C. pose proof (cdof_lt g C) as Hg.
      rewrite (nth_map2 _ _ _ _ (Fin 0) (Fin 0)) by len_lia. change (car Xops) with xr in *. rewrite (H0 g C), (HM g C).
      unfold dr_h. cbn [xopp xdiv]. destruct (Req_EM_T 2 0); [lra|]. cbn [xmul xdiv]. destruct (Req_EM_T (121 / 400) 0); [lra|]. f_equal. lra.
    - right. intros g C. reflexivity.
  Qed.

  Lemma all_nan_nth (l : list Xops) : (forall g, (g < length l)%nat -> nth g l (Fin 0) = NaN) -> all_nan l.
  Proof. intros H. apply Forall_forall. intros x Hx. apply (In_nth _ _ (Fin 0)) in Hx as (g & Hg & <-). now apply H. Qed.
  Lemma nth_all_nan (l : list Xops) g : all_nan l -> (g < length l)%nat -> nth g l (Fin 0) = NaN.
  Proof. intros H Hg. unfold all_nan in H. rewrite Forall_forall in H. apply H, nth_In, Hg. Qed.
  Lemma xadd_nan_r x : xadd x NaN = NaN.
  Proof. now destruct x. Qed.
  Lemma xmul_nan_r x : xmul x NaN = NaN.
  Proof. now destruct x. Qed.

  (** One iteration *)
  Record dr_next (nKMat : xr) (st st' : dr_state) (c : xr) : Prop := {
    dn_q : dr_q st' = map2 xadd (dr_q st) (map (xmul dr_h) (dr_qdot st));
    dn_R : assembleVec p pts (dr_q st') = Ok (dr_R st');
    dn_error : max_abs (dr_R st') = Ok (dr_error st');
    dn_M : dr_M st' = dr_M st \/ exists A, assembleCSR jvp p pts (dr_q st') = Ok A /\ masses (length (dr_q st')) A = Ok (dr_M st');
    dn_c : c = NaN \/ exists r, c = Fin r /\ 1 / 1000 <= r <= 39 / 10;
    dn_qdot : dr_qdot st' = map2 (fun v rm => dr_velocity c v (fst rm) (snd rm)) (dr_qdot st) (combine (dr_R st') (dr_M st'));
    dn_iters : dr_nIters st' = S (dr_nIters st)
  }.
  Lemma body_next nKMat nPrint st st' : dr_body jvp p pts nKMat nPrint st = Ok st' -> exists c, dr_next nKMat st st' c.
  Proof.
    unfold dr_body. cbv zeta. set (q := map2 xadd _ _).
    destruct (assembleVec p pts q) as [R|] eqn:ER; [|discriminate]. cbn [bind].
    destruct (max_abs R) as [e|] eqn:Ee; [|discriminate]. cbn [bind].
    set (c := calC _ _ _). destruct (vmax _) as [me|]; [|discriminate]. cbn [bind].
    destruct (_ && _).
    - destruct (assembleCSR jvp p pts q) as [A|] eqn:EA; [|discriminate]. cbn [bind].
      destruct (masses (length q) A) as [M|] eqn:EM; [|discriminate]. cbn [bind fst snd].
      destruct (printInfo nPrint); [|discriminate]. cbn [bind]. injection 1 as <-. exists c.
      constructor; cbn [dr_q dr_qdot dr_M dr_R dr_error dr_nIters]; auto; [right; eauto|]. apply calC_cases.
    - cbn [bind fst snd]. destruct (printInfo nPrint); [|discriminate]. cbn [bind]. injection 1 as <-. exists c.
      constructor; cbn [dr_q dr_qdot dr_M dr_R dr_error dr_nIters]; auto. apply calC_cases.
  Qed.

  Lemma next_inv nKMat u0 st st' c : dr_inv u0 st -> dr_next nKMat st st' c -> dr_inv u0 st'.
  Proof.
    intros [I1 I2 [I3 I3'] I4 I5 I6 I7] [N1 N2 N3 N4 N5 N6 N7].
    destruct (assembleVec_ok _ _ N2) as (Lq & LR & res & Hres & H0 & H1).
    assert (HM : length (dr_M st') = N /\ forall g, constrained_dof p g -> nth g (dr_M st') (Fin 0) = Fin (121 / 400)).
    { destruct N4 as [->|(A & EA & EM)]; [now split|]. destruct (masses_ok _ A _ EA EM) as (_ & LM & HM). now split. }
    destruct HM as [LM HM].
    assert (Lv : length (dr_qdot st') = N).
    { rewrite N6, length_map2, combine_length. len_lia. }
    assert (Nv : forall g, (g < N)%nat -> nth g (dr_qdot st') (Fin 0) =
              dr_velocity c (nth g (dr_qdot st) (Fin 0)) (nth g (dr_R st') (Fin 0)) (nth g (dr_M st') (Fin 0))).
    { intros g Hg. rewrite N6. rewrite (nth_map2 _ _ _ _ (Fin 0) (Fin 0, Fin 0)) by (rewrite ?combine_length; len_lia).
      change (car Xops) with xr in *. rewrite combine_nth by len_lia. reflexivity. }
    assert (Nq : forall g, (g < N)%nat -> nth g (dr_q st') (Fin 0) = xadd (nth g (dr_q st) (Fin 0)) (xmul dr_h (nth g (dr_qdot st) (Fin 0)))).
    { intros g Hg. rewrite N1. rewrite (nth_map2 _ _ _ _ (Fin 0) (xmul dr_h (Fin 0))) by (rewrite ?map_length; len_lia). now rewrite map_nth. }
    constructor; auto.
    - destruct I4 as [I4|I4].
      + left. apply all_nan_nth. intros g Hg. rewrite Nv by len_lia. rewrite (nth_all_nan (dr_qdot st) g I4) by len_lia. apply velocity_nan_v.
      + destruct N5 as [->|Nc].
        * left. apply all_nan_nth. intros g Hg. rewrite Nv by len_lia. apply velocity_nan_c.
        * right. intros g C. pose proof (cdof_lt g C) as Hg. rewrite Nv by exact Hg. change (car Xops) with xr in *. rewrite (I4 g C), (H0 g C), (HM g C).
          destruct (velocity_rest c (or_intror Nc)) as [->|E]; [|exact E]. destruct Nc as (r & Hr & _). discriminate.
    - destruct I5 as [I5|I5].
      + left. apply all_nan_nth. intros g Hg. rewrite Nq by len_lia. rewrite (nth_all_nan (dr_q st) g I5) by len_lia. reflexivity.
      + destruct I4 as [I4|I4].
        * left. apply all_nan_nth. intros g Hg. rewrite Nq by len_lia. rewrite (nth_all_nan (dr_qdot st) g I4) by len_lia.
          now rewrite xmul_nan_r, xadd_nan_r.
        * right. intros g C. pose proof (cdof_lt g C) as Hg. refine (eq_trans (Nq g Hg) _). rewrite (I4 g C). unfold dr_h. cbn [xmul].
          replace (1 * 0) with 0 by lra. refine (eq_trans _ (I5 g C)). change (@zero Xops) with (Fin 0).
          destruct (nth g (dr_q st) (Fin 0)); cbn; try reflexivity. f_equal. lra.
  Qed.

  Lemma relaxes_inv nKMat nPrint u0 n st st' : relaxes jvp p pts nKMat nPrint n st st' -> dr_inv u0 st ->
    dr_inv u0 st' /\ dr_nIters st' = (n + dr_nIters st)%nat.
  Proof.
    induction 1 as [st|n st st1 st2 Hr IH Hb]; intros H; [now split|]. destruct (IH H) as [H1 E1].
    destruct (body_next _ _ _ _ Hb) as [c Hc]. split; [exact (next_inv _ _ _ _ _ H1 Hc)|]. rewrite (dn_iters _ _ _ _ Hc), E1. reflexivity.
  Qed.
  Lemma relaxes_cons nKMat nPrint n st st1 st2 : dr_body jvp p pts nKMat nPrint st = Ok st1 ->
    relaxes jvp p pts nKMat nPrint n st1 st2 -> relaxes jvp p pts nKMat nPrint (S n) st st2.
  Proof.
    intros Hb H. induction H as [st1|n st1 st2 st3 Hr IH Hb'].
    - econstructor; [constructor|exact Hb].
    - econstructor; [exact (IH Hb)|exact Hb'].
  Qed.
  Lemma loop_relaxes fuel tol nKMat nPrint : forall st st', dr_loop jvp p pts fuel tol nKMat nPrint st = Done (Ok st') ->
    xgtb (dr_error st') tol = false /\ exists n, relaxes jvp p pts nKMat nPrint n st st' /\ (n <= fuel)%nat /\
      (n = 0%nat <-> xgtb (dr_error st) tol = false).
  Proof using Type. clear NC.
    induction fuel as [|fuel IH]; intros st st'; cbn [dr_loop]; destruct (xgtb (dr_error st) tol) eqn:E; try discriminate.
    - injection 1 as <-. split; [exact E|]. exists 0%nat. split; [constructor|]. split; [lia|]. tauto.
    - destruct (dr_body jvp p pts nKMat nPrint st) as [st1|] eqn:Hb; [|discriminate]. intros H. apply IH in H as (H1 & n & H2 & H3 & _).
      split; [exact H1|]. exists (S n). split; [eapply relaxes_cons; eassumption|]. split; [lia|]. split; [lia|discriminate].
    - injection 1 as <-. split; [exact E|]. exists 0%nat. split; [constructor|]. split; [lia|]. tauto.
  Qed.
End Relax.
