(** The derivative of the constraint; the adjoint identity: proofs. *)
From Coq Require Import List Arith Lia Bool Reals Lra.
From Verif Require Import Num Arr ArrFacts Fe Problem SpecAssembly AssemblyFacts ProblemFacts ResidualFacts DerivFacts AgreeFacts SolverBc SpecBc BcFacts BcMain
  XNum LinSolve Newton NewtonFacts Adjoint SpecAdjoint AdjointFacts.
Import ListNotations.
Local Open Scope R_scope.

Lemma ravel_line3 shapes (sol dsol : list (list (list Rops))) (t : R) : has_shapes shapes sol -> has_shapes shapes dsol ->
  ravel (line3 sol dsol t) = line1 (ravel sol) (ravel dsol) (t : Rops).
Proof.
  intros H1 H2. pose proof (line3_shapes sol dsol (t : Rops) shapes H1 H2) as H3.
  pose proof (ravel_length _ _ H1) as L1. pose proof (ravel_length _ _ H2) as L2. pose proof (ravel_length _ _ H3) as L3.
  apply (list_ext (0 : Rops)).
  - unfold line1. rewrite length_map2. rewrite L1, L2, L3. lia.
  - rewrite L3. intros k Hk. rewrite <- all_dofs_total in Hk. destruct (dof_number_surj _ _ Hk) as (v & n & j & Hv & <-).
    rewrite (nth_line1 Rops_ring) by (now rewrite L1, L2).
    rewrite !(nth_ravel_dof (@zero Rops) shapes) by auto. apply (get_line3 _ _ _ shapes); auto.
Qed.

Lemma bind_inv {A B} (x : result A) (f : A -> result B) y : bind x f = Ok y -> exists a, x = Ok a /\ f a = Ok y.
Proof. destruct x as [a|]; [|discriminate]. intros H. now exists a. Qed.

Section Main.
  Context {V : Type}.
  Notation K := Rops.
  Variable jvp : (list K -> list K) -> list K -> list K -> list K.
  Variable sqrtK : R -> R.
  Variable prob : list R -> problem K V.
  Variable pts : list R -> list (list (list K)).
  Variable params : list R.
  Variable sol : list (list (list K)).
  Notation p := (prob params).
  Notation n := (num_total_dofs_all_vars p).
  Hypothesis REG : regular_problem jvp sqrtK p (pts params) sol.
  Notation c := (constraint_of sqrtK prob pts n).

  Lemma n_eq : all_dofs (global_shapes p) = n.
  Proof. exact (all_dofs_total (global_shapes p)). Qed.
  Lemma sol_len s : sol_ok p s -> length (ravel s) = n.
  Proof. intros H. apply ravel_length. exact (sol_shapes_ok p s H). Qed.
  Lemma sol_roundtrip s : sol_ok p s -> unravel (sol_shapes p) (ravel s) = s.
  Proof. intros H. apply unravel_ravel. exact (sol_shapes_ok p s H). Qed.
  Lemma constraint_at s : sol_ok p s -> exists r, compute_residual sqrtK p (pts params) s = Ok r /\
    constraint_fn sqrtK prob pts (ravel s) params = Ok (apply_bc_vec (ravel r) (ravel s) p (@one K)) /\
    length (apply_bc_vec (ravel r) (ravel s) p (@one K)) = n.
  Proof.
    destruct REG as (WF & NC & SOL & IVS & BC & RNG & kf & KER & _). intros H.
    pose proof (compute_residual_ok sqrtK p (pts params) s kf WF NC H IVS KER) as E.
    eexists. split; [exact E|]. assert (Lr := residual_length sqrtK p (pts params) s kf WF NC H IVS KER _ E). split.
    - unfold constraint_fn, g_unflatten. rewrite sol_len by exact H. rewrite Nat.eqb_refl. cbn [bind]. rewrite sol_roundtrip by exact H. rewrite E. reflexivity.
    - destruct (apply_bc_vec_ring Rops_ring p BC _ (ravel s) (@one K) Lr) as [L _]; [|rewrite L; exact n_eq].
      rewrite sol_len by exact H. symmetry. exact n_eq.
  Qed.

  Lemma c_app u th : length u = n -> c (u ++ th) = match constraint_fn sqrtK prob pts u th with Ok r => r | Err _ => [] end.
  Proof.
    intros H. unfold constraint_of. rewrite <- H. rewrite firstn_app, firstn_all, Nat.sub_diag, skipn_app, skipn_all, Nat.sub_diag. cbn [firstn skipn app].
    now rewrite app_nil_r.
  Qed.
  Lemma c_len : length (c (ravel sol ++ params)) = n.
  Proof.
    destruct REG as (_ & _ & SOL & _). rewrite c_app by (now apply sol_len). destruct (constraint_at sol SOL) as (r & _ & E & L). now rewrite E.
  Qed.

  Lemma dsol_of (d : list K) : length d = n -> sol_ok p (unravel (sol_shapes p) d) /\ ravel (unravel (sol_shapes p) d) = d.
  Proof.
    intros H. split; [|now apply ravel_unravel]. apply sol_ok_iff. exact (unravel_shapes (sol_shapes p) d H).
  Qed.

  (** The assembled tangent is the derivative with respect to the dofs. *)
  Lemma tangent_is_partial J r0 W : has_derivative c (ravel sol ++ params) J -> newton_update jvp sqrtK p (pts params) sol = Ok (r0, W) ->
    forall k (d : list K), (k < n)%nat -> length d = n -> rsum n (fun j => J k j * nth j d 0) = rsum n (fun j => tangent p W k j * nth j d 0).
  Proof.
    intros D HW k d Hk Hd. pose proof REG as REG'. destruct REG' as (WF & NC & SOL & IVS & BC & RNG & kf & KER & JC & JF).
    destruct (dsol_of d Hd) as [DSOL Ed]. set (dsol := unravel (sol_shapes p) d) in *.
    set (x := fun t : R => (ravel (line3 sol dsol (t : K)) ++ params)%list).
    assert (Ex : forall t, ravel (line3 sol dsol (t : K)) = line1 (ravel sol) d (t : K)).
    { intros t. rewrite (ravel_line3 (sol_shapes p)); [now rewrite Ed|exact (sol_shapes_ok p sol SOL)|exact (sol_shapes_ok p dsol DSOL)]. }
    assert (Ll : forall t, length (ravel (line3 sol dsol (t : K))) = n) by (intros t; apply sol_len, line_ok; auto).
    assert (x0 : x 0 = (ravel sol ++ params)%list).
    { unfold x. rewrite Ex. f_equal. apply (list_ext (0 : K)).
      - unfold line1. rewrite length_map2, Hd, (sol_len sol SOL). apply Nat.min_id.
      - intros i Hi. rewrite (nth_line1 Rops_ring) by (now rewrite Hd, (sol_len sol SOL)). change (nth i (ravel sol) 0 + 0 * nth i d 0 = nth i (ravel sol) 0). lra. }
    assert (Vx : velocity x (d ++ repeat 0 (length params))).
    { intros i Hi. rewrite app_length, repeat_length, Hd in Hi. destruct (Nat.lt_ge_cases i n) as [L|L].
      - rewrite (app_nth1 d) by lia. apply (dlim_ext (fun t => nth i (ravel sol) 0 + t * nth i d 0)).
        + intros t. unfold x. rewrite app_nth1 by (now rewrite Ll). rewrite Ex. symmetry. apply (nth_line1 Rops_ring). now rewrite Hd, (sol_len sol SOL).
        + assert (D1 : derivable_pt_lim (fun t => nth i (ravel sol) 0 + t * nth i d 0) 0 (0 + (1 * nth i d 0 + 0 * 0))).
          { apply (derivable_pt_lim_plus (fun _ => nth i (ravel sol) 0) (fun t => t * nth i d 0)); [apply derivable_pt_lim_const|].
            apply (derivable_pt_lim_mult (fun t => t) (fun _ => nth i d 0)); [apply derivable_pt_lim_id|apply derivable_pt_lim_const]. }
          assert (Ea : forall a, 0 + (1 * a + 0 * 0) = a) by (intros; ring). rewrite Ea in D1. exact D1.
      - rewrite app_nth2 by lia. rewrite nth_repeat. apply (dlim_ext (fun _ => nth (i - n) params 0)).
        + intros t. unfold x. rewrite app_nth2; rewrite Ll; [reflexivity|lia].
        + apply derivable_pt_lim_const. }
    assert (Lx : forall t, length (x t) = length (ravel sol ++ params)) by (intros t; unfold x; rewrite !app_length, Ll, (sol_len sol SOL); reflexivity).
    assert (Ldx : length (d ++ repeat 0 (length params)) = length (ravel sol ++ params)) by (now rewrite !app_length, repeat_length, Hd, (sol_len sol SOL)).
    pose proof (chain_rule c _ J x _ D x0 Lx Ldx Vx k) as CR. rewrite app_length, (sol_len sol SOL) in CR.
    rewrite c_len in CR. specialize (CR Hk).
    assert (RES : forall t, exists r, compute_residual sqrtK p (pts params) (line3 sol dsol (t : K)) = Ok r).
    { intros t. eexists. apply (compute_residual_ok sqrtK p (pts params) _ kf WF NC (line_ok p sol dsol SOL DSOL t) IVS KER). }
    set (res := fun t : R => match compute_residual sqrtK p (pts params) (line3 sol dsol (t : K)) with Ok r => r | Err _ => [] end).
    assert (HR : forall t : R, compute_residual sqrtK p (pts params) (line3 sol dsol (t : K)) = Ok (res t)).
    { intros t. unfold res. destruct (RES t) as [r ->]. reflexivity. }
    pose proof (tangent_derivative jvp sqrtK p (pts params) sol dsol kf WF NC SOL DSOL IVS KER JC JF BC RNG k res r0 W ltac:(rewrite n_eq; exact Hk) HR HW) as TD.
    rewrite Ed, n_eq in TD.
    assert (EQ : forall t, nth k (c (x t)) 0 = nth k (apply_bc_vec (ravel (res t)) (ravel (line3 sol dsol (t : K))) p (@one K)) (@zero K)).
    { intros t. unfold x. rewrite c_app by apply Ll. destruct (constraint_at _ (line_ok p sol dsol SOL DSOL t)) as (r & E1 & E2 & _). rewrite HR in E1. injection E1 as <-.
      now rewrite E2. }
    pose proof (dlim_ext _ _ 0 _ EQ CR) as CR'. pose proof (uniqueness_limite _ _ _ _ CR' TD) as U. rewrite rsum_app in U.
    rewrite (rsum_zero (length params)) in U.
    2:{ intros i Hi. rewrite app_nth2 by lia. rewrite nth_repeat. lra. }
    rewrite Rplus_0_r in U. rewrite (rsum_ext n _ (fun j => J k j * nth j d 0)) in U; [exact U|].
    intros j Hj. now rewrite app_nth1 by lia.
  Qed.

  Variable vjp : (list R -> list R) -> list R -> list R -> list R.
  Variable solve : mat K -> list R -> result (list R).
  Variable P : option (mat K).

  Lemma derivative_local f g x J r : 0 < r -> (forall d, length d = length x -> norm1 d < r -> g (plus x d) = f (plus x d)) ->
    has_derivative f x J -> has_derivative g x J.
  Proof.
    intros Hr H D eps He. destruct (D eps He) as (dl & Hdl & HD). exists (Rmin dl r). split; [now apply Rmin_pos|]. intros d Ld Nd.
    pose proof (Rmin_l dl r). pose proof (Rmin_r dl r).
    assert (E0 : g x = f x).
    { rewrite <- (plus_zeros x). apply H; [apply repeat_length|]. rewrite norm1_zeros. exact Hr. }
    rewrite H, E0 by (auto; lra). apply HD; [exact Ld|lra].
  Qed.
  Lemma partial_same J : has_derivative c (ravel sol ++ params) J -> exists r, 0 < r /\
    forall d, length d = length params -> norm1 d < r ->
      partial_params_c_fn sqrtK prob pts sol (plus params d) = c (ravel sol ++ plus params d).
  Proof.
    intros D. pose proof REG as (_ & _ & SOL & _). destruct (D 1 ltac:(lra)) as (r & Hr & H). exists r. split; [exact Hr|]. intros d Ld Nd.
    destruct (H (repeat 0 (length (ravel sol)) ++ d)%list) as [HL _].
    { now rewrite !app_length, repeat_length, Ld. }
    { rewrite norm1_app, norm1_zeros. lra. }
    rewrite plus_app, plus_zeros, c_len in HL by (apply repeat_length). rewrite c_app in HL |- * by (now apply sol_len).
    unfold partial_params_c_fn, constraint_fn_sol_to_sol. destruct (constraint_fn sqrtK prob pts (ravel sol) (plus params d)) as [y|] eqn:E; [|reflexivity]. cbn [bind].
    assert (N : num_total_dofs_all_vars (prob (plus params d)) = n).
    { unfold constraint_fn, g_unflatten in E. destruct (Nat.eqb_spec (length (ravel sol)) (num_total_dofs_all_vars (prob (plus params d)))) as [E'|]; [|discriminate].
      rewrite <- E'. now apply sol_len. }
    unfold g_unflatten. match goal with |- context [(?a =? ?b)%nat] => destruct (Nat.eqb_spec a b) as [E1|X] end; [now apply ravel_unravel|].
    destruct X. exact (eq_trans HL (eq_sym N)).
  Qed.
  Lemma partial_has J : has_derivative c (ravel sol ++ params) J ->
    has_derivative (partial_params_c_fn sqrtK prob pts sol) params (fun k j => J k (n + j)%nat).
  Proof.
    intros D. destruct (partial_same J D) as (r & Hr & E). pose proof REG as (_ & _ & SOL & _).
    apply (derivative_local (fun th => c (ravel sol ++ th)) _ _ _ r Hr); [exact E|].
    pose proof (partial_derivative c (ravel sol) params J D) as H.
    assert (Ls : @length R (ravel sol) = n) by exact (sol_len sol SOL). rewrite Ls in H. exact H.
  Qed.

  Lemma product_ok (A : mat K) (x y : list R) : mat_mul_vec A x = Ok y -> is_product A x y.
  Proof. intros H. apply mat_mul_vec_ok in H as (L1 & L2 & E). split; [exact L1|]. split; [exact L2|exact E]. Qed.

  Lemma along_velocity x d : length d = length x -> velocity (along x d) d.
  Proof.
    intros L i Hi. apply (dlim_ext (fun t => nth i x 0 + t * nth i d 0)).
    - intros t. symmetry. apply (nth_line1 (K := Rops) Rops_ring). now symmetry.
    - assert (D1 : derivable_pt_lim (fun t => nth i x 0 + t * nth i d 0) 0 (0 + (1 * nth i d 0 + 0 * 0))).
      { apply (derivable_pt_lim_plus (fun _ => nth i x 0) (fun t => t * nth i d 0)); [apply derivable_pt_lim_const|].
        apply (derivable_pt_lim_mult (fun t => t) (fun _ => nth i d 0)); [apply derivable_pt_lim_id|apply derivable_pt_lim_const]. }
      assert (Ea : forall a, 0 + (1 * a + 0 * 0) = a) by (intros; ring). rewrite Ea in D1. exact D1.
  Qed.
  Lemma along_0 x d : length d = length x -> along x d 0 = x.
  Proof.
    intros L. apply (list_ext 0).
    - unfold along. rewrite length_map2. lia.
    - intros i _. pose proof (nth_line1 (K := Rops) Rops_ring x d 0 i (eq_sym L)) as E. change (nth i (along x d 0) 0 = nth i x 0 + 0 * nth i d 0) in E.
      rewrite E. lra.
  Qed.

  (** the algebra *)
  Lemma adjoint_algebra N np (A Jth : nat -> nat -> R) (a v du dth g e : nat -> R) :
    (forall k, (k < N)%nat -> e k = rsum N (fun j => A k j * du j) + rsum np (fun j => Jth k j * dth j)) ->
    rsum N (fun k => a k * e k) = 0 ->
    rsum N (fun k => a k * rsum N (fun j => A k j * du j)) = rsum N (fun j => v j * du j) ->
    (forall j, (j < np)%nat -> g j = - rsum N (fun k => Jth k j * a k)) ->
    rsum N (fun j => v j * du j) = rsum np (fun j => g j * dth j).
  Proof.
    intros He H1 H2 Hg. rewrite <- H2.
    assert (E : rsum np (fun j => g j * dth j) = - rsum N (fun k => a k * rsum np (fun j => Jth k j * dth j))).
    { transitivity (rsum np (fun j => - (1) * rsum N (fun k => a k * (Jth k j * dth j)))).
      - apply rsum_ext. intros j Hj. rewrite Hg by exact Hj. rewrite Ropp_mult_distr_l_reverse, <- rsum_mul_r.
        replace (- rsum N (fun i => Jth i j * a i * dth j)) with (- (1) * rsum N (fun i => Jth i j * a i * dth j)) by lra. f_equal. apply rsum_ext. intros; ring.
      - rewrite rsum_mul_l, rsum_swap.
        replace (- rsum N (fun k => a k * rsum np (fun j => Jth k j * dth j))) with (- (1) * rsum N (fun k => a k * rsum np (fun j => Jth k j * dth j))) by lra.
        f_equal. apply rsum_ext. intros k Hk. apply rsum_mul_l. }
    rewrite E. rewrite (rsum_ext N (fun k => a k * e k) (fun k => a k * rsum N (fun j => A k j * du j) + a k * rsum np (fun j => Jth k j * dth j))) in H1.
    - rewrite rsum_plus in H1. lra.
    - intros k Hk. rewrite He by exact Hk. ring.
  Qed.

  Lemma velocity_app x1 x2 d1 d2 : (forall t, length (x1 t) = length d1) -> velocity x1 d1 -> velocity x2 d2 ->
    velocity (fun t => (x1 t ++ x2 t)%list) (d1 ++ d2).
  Proof.
    intros L V1 V2 i Hi. rewrite app_length in Hi. destruct (Nat.lt_ge_cases i (length d1)) as [Hl|Hl].
    - rewrite app_nth1 by exact Hl. apply (dlim_ext (fun t => nth i (x1 t) 0)); [|now apply V1]. intros t. rewrite app_nth1; [reflexivity|now rewrite L].
    - rewrite app_nth2 by exact Hl. apply (dlim_ext (fun t => nth (i - length d1) (x2 t) 0)); [|apply V2; lia]. intros t. rewrite app_nth2; rewrite L; [reflexivity|exact Hl].
  Qed.
  Definition times (Q : mat K) (y : list R) : list R := map (fun i => rsum (m_cols Q) (fun j => m_at Q i j * nth j y 0)) (seq 0 (m_rows Q)).
  Lemma times_nth Q y i : (i < m_rows Q)%nat -> nth i (times Q y) 0 = rsum (m_cols Q) (fun j => m_at Q i j * nth j y 0).
  Proof. intros H. unfold times. rewrite (nth_map_in _ _ _ 0%nat) by (now rewrite seq_length). now rewrite seq_nth. Qed.
  Lemma times_length Q y : length (times Q y) = m_rows Q.
  Proof. unfold times. now rewrite map_length, seq_length. Qed.
  Lemma product_velocity Q y u dy : length dy = m_cols Q -> (forall t, is_product Q (y t) (u t)) -> velocity y dy -> velocity u (times Q dy).
  Proof.
    intros L H Vy i Hi. rewrite times_length in Hi. rewrite times_nth by exact Hi.
    apply (dlim_ext (fun t => rsum (m_cols Q) (fun j => m_at Q i j * nth j (y t) 0))).
    - intros t. symmetry. now apply (H t).
    - apply (dlim_sum_n (m_cols Q) (fun j t => m_at Q i j * nth j (y t) 0)). intros j Hj.
      apply (derivable_pt_lim_scal (fun t => nth j (y t) 0)). apply Vy. now rewrite L.
  Qed.

  Lemma adjoint_identity J v g : has_derivative c (ravel sol ++ params) J -> vjp_correct vjp (partial_params_c_fn sqrtK prob pts sol) params ->
    (forall A b x, solve A b = Ok x -> solves_exactly A b x) -> sol_ok p v ->
    implicit_vjp jvp sqrtK prob pts P vjp solve sol params v = Ok g ->
    length g = length params /\
    forall dparams (y u : R -> list R) dy r, length dparams = length params -> 0 < r ->
      u 0 = ravel sol -> (forall t, full_of P (y t) (u t) /\ length (u t) = n) -> length dy = length (y 0) -> velocity y dy ->
      (forall t, Rabs t < r -> equilibrium sqrtK prob pts P (along params dparams t) (u t)) ->
      derivable_pt_lim (fun t => inner (ravel v) (u t)) 0 (inner g dparams).
  Proof.
    intros D VJ SE SV H. unfold implicit_vjp in H. destruct (newton_update jvp sqrtK p (pts params) sol) as [[r0 W]|] eqn:HW; [|discriminate]. cbn [bind snd] in H.
    apply (bind_inv (A := list R)) in H as (vv & Ev & H). apply (bind_inv (A := list R)) in H as (lam & Es & H). apply SE in Es.
    apply (bind_inv (A := list R)) in H as (a & Ea & H).
    unfold g_unflatten in H. match type of H with context [(?u =? ?w)%nat] => destruct (Nat.eqb_spec u w) as [La|]; [|discriminate] end. cbn [bind] in H.
    unfold vjp_linear_fn in H. destruct (constraint_fn_sol_to_sol sqrtK prob pts sol params) as [cs|]; [|discriminate]. cbn [bind] in H.
    rewrite (proj2 (dsol_of a La)) in H. injection H as <-.
    pose proof (partial_has J D) as DP. destruct (partial_same J D) as (rr & Hrr & EP).
    assert (LP : @length R (partial_params_c_fn sqrtK prob pts sol params) = n).
    { pose proof (EP (repeat 0 (length params)) ltac:(apply repeat_length) ltac:(now rewrite norm1_zeros)) as E0. rewrite !plus_zeros in E0. rewrite E0. exact c_len. }
    destruct (VJ _ a DP) as [Lg Vg]; [exact (eq_trans La (eq_sym LP))|]. rewrite LP in Vg. split; [now rewrite map_length|].
    intros dparams y u dy r Ldp Hr Hu0 Hfull Ldy Vy Heq. pose proof REG as (_ & _ & SOL & _).
    (* the velocity of u *)
    set (du := match P with None => dy | Some Q => times Q dy end).
    assert (Ldu : length du = n /\ velocity u du).
    { unfold du. destruct P as [Q|].
      - assert (LQ : m_rows Q = n) by (destruct (Hfull 0) as [(_ & L2 & _) L3]; congruence).
        split; [now rewrite times_length|]. apply product_velocity with (y := y); [|intros t; apply Hfull|exact Vy].
        rewrite Ldy. apply (Hfull 0).
      - split; [rewrite Ldy; destruct (Hfull 0) as [E L]; cbn in E; congruence|].
        intros i Hi. apply (dlim_ext (fun t => nth i (y t) 0)); [|now apply Vy]. intros t. destruct (Hfull t) as [E _]. cbn in E. now rewrite E. }
    destruct Ldu as [Ldu Vu].
    set (z := fun t : R => (u t ++ along params dparams t)%list).
    assert (z0 : z 0 = (ravel sol ++ params)%list) by (unfold z; now rewrite Hu0, along_0).
    assert (Lz : forall t, length (z t) = length (ravel sol ++ params)).
    { intros t. unfold z. rewrite !app_length, (proj2 (Hfull t)). unfold along. rewrite length_map2, Ldp, Nat.min_id. f_equal. symmetry. exact (sol_len sol SOL). }
    assert (Vz : velocity z (du ++ dparams)).
    { apply velocity_app; [intros t; now rewrite (proj2 (Hfull t))|exact Vu|now apply along_velocity]. }
    assert (Ldz : length (du ++ dparams) = length (ravel sol ++ params)).
    { rewrite !app_length, Ldu, Ldp. f_equal. symmetry. exact (sol_len sol SOL). }
    pose proof (chain_rule c _ J z _ D z0 Lz Ldz Vz) as CR. rewrite c_len in CR. rewrite app_length in CR.
    rewrite (sol_len sol SOL) in CR.
    change (@length K params) with (@length R params) in CR.
    set (A := tangent p W). set (Jth := fun k j => J k (n + j)%nat).
    set (e := fun k => rsum n (fun j => A k j * nth j du 0) + rsum (length params) (fun j => Jth k j * nth j dparams 0)).
    assert (CR' : forall k, (k < n)%nat -> derivable_pt_lim (fun t => nth k (c (z t)) 0) 0 (e k)).
    { intros k Hk. specialize (CR k Hk). rewrite rsum_app in CR.
      rewrite (rsum_ext n _ (fun j => J k j * nth j du 0)) in CR by (intros j Hj; rewrite app_nth1 by lia; reflexivity).
      assert (TP : rsum n (fun j => J k j * nth j du 0) = rsum n (fun j => A k j * nth j du 0)) by exact (tangent_is_partial J r0 W D HW k du Hk Ldu).
      rewrite TP in CR.
      rewrite (rsum_ext (length params) _ (fun j => Jth k j * nth j dparams 0)) in CR; [exact CR|].
      intros j Hj. rewrite app_nth2 by lia. unfold Jth. do 2 f_equal. lia. }
    (* the derivative of the objective *)
    assert (DV : derivable_pt_lim (fun t => inner (ravel v) (u t)) 0 (rsum n (fun j => nth j (ravel v) 0 * nth j du 0))).
    { assert (Lv : @length R (ravel v) = n) by exact (sol_len v SV). unfold inner. rewrite Lv.
      apply (dlim_sum_n n (fun j t => nth j (ravel v) 0 * nth j (u t) 0)). intros j Hj.
      apply (derivable_pt_lim_scal (fun t => nth j (u t) 0)). apply Vu. now rewrite Ldu. }
    unfold inner at 2. rewrite map_length, Lg.
    match goal with |- derivable_pt_lim _ _ ?l => replace l with (rsum n (fun j => nth j (ravel v) 0 * nth j du 0)) end; [exact DV|].
    refine (adjoint_algebra n (length params) A Jth (fun k => nth k a 0) (fun j => nth j (ravel v) 0) (fun j => nth j du 0) (fun j => nth j dparams 0)
                  (fun j => nth j (map opp (vjp (partial_params_c_fn sqrtK prob pts sol) params a)) 0) e _ _ _ _); [reflexivity|..].
    - (* sum a_k e_k = 0 *)
      destruct P as [Q|].
      + assert (LQ : m_rows Q = n) by (destruct (Hfull 0) as [(_ & L2 & _) L3]; congruence).
        apply product_ok in Ea as (La1 & La2 & Ea).
        assert (Z : forall i, (i < m_cols Q)%nat -> rsum n (fun k => m_at Q k i * e k) = 0).
        { intros i Hi. assert (DZ : derivable_pt_lim (fun t => rsum n (fun k => m_at Q k i * nth k (c (z t)) 0)) 0 (rsum n (fun k => m_at Q k i * e k))).
          { apply (dlim_sum_n n (fun k t => m_at Q k i * nth k (c (z t)) 0)). intros k Hk. apply (derivable_pt_lim_scal (fun t => nth k (c (z t)) 0)). now apply CR'. }
          apply (uniqueness_limite _ _ _ _ DZ). apply (dlim_local (fun _ => 0) _ 0 r Hr); [|apply derivable_pt_lim_const].
          intros t Ht. destruct (Heq t Ht) as (rt & E1 & E2). unfold z. rewrite c_app by apply Hfull. rewrite E1. rewrite <- LQ. symmetry. now apply E2. }
        rewrite (rsum_ext n _ (fun k => rsum (m_cols Q) (fun i => nth i lam 0 * (m_at Q k i * e k)))).
        * rewrite rsum_swap. apply rsum_zero. intros i Hi. rewrite rsum_mul_l, Z by exact Hi. lra.
        * intros k Hk. pose proof (Ea k ltac:(lia)) as Eak. rewrite Eak. rewrite <- rsum_mul_r. apply rsum_ext. intros; ring.
      + apply rsum_zero. intros k Hk. replace (e k) with 0; [lra|].
        apply (uniqueness_limite (fun t => nth k (c (z t)) 0) 0); [|now apply CR'].
        apply (dlim_local (fun _ => 0) _ 0 r Hr); [|apply derivable_pt_lim_const].
        intros t Ht. destruct (Heq t Ht) as (rt & E1 & E2). unfold z. rewrite c_app by apply Hfull. rewrite E1. symmetry.
        destruct (Nat.lt_ge_cases k (length rt)) as [Lk|Lk]; [now apply E2|now apply nth_overflow].
    - (* sum a_k (A du)_k = v . du *)
      unfold solves_exactly in Es. destruct P as [Q|].
      + assert (LQ : m_rows Q = n) by (destruct (Hfull 0) as [(_ & L2 & _) L3]; congruence).
        apply product_ok in Ea as (La1 & La2 & Ea). apply product_ok in Ev as (Lv1 & Lv2 & Ev).
        destruct Es as (Lx1 & Lx2 & Es). cbn [g_get_A mat_T mat_mul m_rows m_cols m_at] in Es, Ev, Lv2.
        assert (Edu : forall j, (j < n)%nat -> nth j du 0 = rsum (m_cols Q) (fun l => m_at Q j l * nth l dy 0)).
        { intros j Hj. unfold du. apply times_nth. lia. }
        transitivity (rsum (m_cols Q) (fun l => nth l vv 0 * nth l dy 0)).
        * rewrite (rsum_ext n _ (fun k => rsum (m_cols Q) (fun i => rsum n (fun j => rsum (m_cols Q) (fun l => nth i lam 0 * (m_at Q k i * (A k j * (m_at Q j l * nth l dy 0)))))))).
          2:{ intros k Hk. pose proof (Ea k ltac:(lia)) as Eak. rewrite Eak. rewrite <- rsum_mul_r. apply rsum_ext. intros i Hi.
              rewrite <- rsum_mul_l. apply rsum_ext. intros j Hj. rewrite Edu by exact Hj. rewrite <- !rsum_mul_l. apply rsum_ext. intros; ring. }
          rewrite (rsum_ext (m_cols Q) (fun l => nth l vv 0 * nth l dy 0)
             (fun l => rsum (m_cols Q) (fun i => rsum n (fun k => rsum n (fun j => nth i lam 0 * (m_at Q k i * (A k j * (m_at Q j l * nth l dy 0)))))))).
          2:{ intros l Hl. pose proof (Es l Hl) as El. rewrite El. rewrite <- rsum_mul_r. apply rsum_ext. intros i Hi.
              match goal with |- ?x * _ * _ = _ => replace x with (rsum n (fun k => m_at Q k i * rsum n (fun j => A k j * m_at Q j l))) by (rewrite LQ; reflexivity) end.
              rewrite Rmult_assoc, <- rsum_mul_r. apply rsum_ext. intros k Hk.
              rewrite (Rmult_comm (m_at Q k i)), <- !rsum_mul_r. apply rsum_ext. intros; ring. }
          (* exchange the order of summation *)
          rewrite (rsum_swap n (m_cols Q)). symmetry. rewrite (rsum_swap (m_cols Q) (m_cols Q)). apply rsum_ext. intros i Hi.
          rewrite (rsum_swap (m_cols Q) n). apply rsum_ext. intros k Hk. apply rsum_swap.
        * rewrite (rsum_ext (m_cols Q) _ (fun l => rsum n (fun j => m_at Q j l * nth j (ravel v) 0 * nth l dy 0))).
          2:{ intros l Hl. pose proof (Ev l Hl) as El. rewrite El. rewrite LQ. symmetry. apply rsum_mul_r. }
          rewrite rsum_swap. apply rsum_ext. intros j Hj. rewrite Edu by exact Hj. rewrite <- rsum_mul_l. apply rsum_ext. intros; ring.
      + injection Ea as <-. injection Ev as <-. destruct Es as (Lx1 & Lx2 & Es). cbn [g_get_A mat_T m_rows m_cols m_at] in Es.
        rewrite (rsum_ext n (fun j => nth j (ravel v) 0 * nth j du 0) (fun j => rsum n (fun k => A k j * nth k lam 0 * nth j du 0))).
        2:{ intros j Hj. pose proof (Es j Hj) as Ej. etransitivity; [exact (f_equal (fun b => b * nth j du 0) Ej)|]. symmetry. apply rsum_mul_r. }
        rewrite rsum_swap. apply rsum_ext. intros k Hk. rewrite <- rsum_mul_l. apply rsum_ext. intros; ring.
    - intros j Hj. rewrite (nth_map_in _ _ _ 0) by (now rewrite Lg). rewrite Vg by exact Hj. reflexivity.
  Qed.
End Main.

(** ** Multipoint constraints *)
Lemma reduced_inv {K : ops} {V} jvp sqrtK (p : problem K V) pts (P : mat K) y r A :
  g_update_helper jvp sqrtK p pts (Some P) y = Ok (r, A) ->
  exists u res W, mat_mul_vec P y = Ok u /\ length u = num_total_dofs_all_vars p /\ newton_update jvp sqrtK p pts (unravel (sol_shapes p) u) = Ok (res, W) /\
    mat_mul_vec (mat_T P) (apply_bc_vec (ravel res) u p one) = Ok r /\ A = g_get_A p (Some P) W.
Proof.
  unfold g_update_helper. intros H. apply bind_inv in H as (u & Eu & H). apply bind_inv in H as (s & Es & H). apply bind_inv in H as ((res & W) & Ew & H).
  apply bind_inv in H as (r' & Er & H). injection H as <- <-. unfold g_unflatten in Es. destruct (Nat.eqb_spec (length u) (num_total_dofs_all_vars p)) as [L|]; [|discriminate].
  injection Es as <-. exists u, res, W. auto.
Qed.
Lemma reduced_matrix {K : ops} {V} (p : problem K V) (P : mat K) W : m_rows P = num_total_dofs_all_vars p ->
  m_rows (g_get_A p (Some P) W) = m_cols P /\ m_cols (g_get_A p (Some P) W) = m_cols P /\
  forall i j, m_at (g_get_A p (Some P) W) i j =
    sum_n (m_rows P) (fun k => mul (m_at P k i) (sum_n (m_rows P) (fun l => mul (tangent p W k l) (m_at P l j)))).
Proof. intros E. cbn [g_get_A mat_mul mat_T m_rows m_cols m_at]. rewrite E. repeat split. Qed.
Lemma reduced_all {K : ops} {V} jvp sqrtK (p : problem K V) pts (P : mat K) y r A :
  g_update_helper jvp sqrtK p pts (Some P) y = Ok (r, A) ->
  exists u r' A', g_update_helper jvp sqrtK p pts None u = Ok (r', A') /\
    (length y = m_cols P /\ length u = m_rows P /\
     forall i, (i < m_rows P)%nat -> nth i u zero = sum_n (m_cols P) (fun j => mul (m_at P i j) (nth j y zero))) /\
    (length r' = m_rows P /\ length r = m_cols P /\
     forall j, (j < m_cols P)%nat -> nth j r zero = sum_n (m_rows P) (fun i => mul (m_at P i j) (nth i r' zero))) /\
    m_rows A' = m_rows P /\ m_cols A' = m_rows P /\ m_rows A = m_cols P /\ m_cols A = m_cols P /\
    forall i j, m_at A i j = sum_n (m_rows P) (fun k => mul (m_at P k i) (sum_n (m_rows P) (fun l => mul (m_at A' k l) (m_at P l j)))).
Proof.
  intros H. apply reduced_inv in H as (u & res & W & Eu & Lu & EW & Er & ->). apply mat_mul_vec_ok in Eu as (L1 & L2 & E). apply mat_mul_vec_ok in Er as (L3 & L4 & E').
  cbn [mat_T m_rows m_cols m_at] in *. assert (EP : m_rows P = num_total_dofs_all_vars p) by congruence.
  destruct (reduced_matrix p P W EP) as (R1 & R2 & R3).
  exists u, (apply_bc_vec (ravel res) u p one), (mkMat (num_total_dofs_all_vars p) (num_total_dofs_all_vars p) (tangent p W)). split.
  - unfold g_update_helper. cbn [bind]. unfold g_unflatten. rewrite Lu, Nat.eqb_refl. cbn [bind]. rewrite EW. reflexivity.
  - cbn [m_rows m_cols m_at]. rewrite <- EP. auto 12.
Qed.

Section ReducedR.
  Context {V : Type}.
  Notation K := Rops.
  Variable jvp : (list K -> list K) -> list K -> list K -> list K.
  Variable sqrtK : R -> R.
  Variable p : problem K V.
  Variable pts : list (list (list K)).
  Variable P : mat K.
  Notation n := (num_total_dofs_all_vars p).
  Notation at_ y := (unravel (sol_shapes p) (times P y)).

  Lemma times_of y u : mat_mul_vec P y = Ok u -> u = times P y.
  Proof.
    intros H. apply product_ok in H as (L1 & L2 & E). apply (list_ext 0); [now rewrite times_length|]. intros i Hi. rewrite times_nth by (now rewrite <- L2). apply E. now rewrite <- L2.
  Qed.
  Lemma times_product y u : is_product P y u -> u = times P y.
  Proof.
    intros (L1 & L2 & E). apply (list_ext 0); [now rewrite times_length|]. intros i Hi. rewrite times_nth by (now rewrite <- L2). apply E. now rewrite <- L2.
  Qed.
  Lemma times_along y d t : length y = m_cols P -> length d = m_cols P -> times P (along y d t) = line1 (times P y) (times P d) (t : K).
  Proof.
    intros Ly Ld. apply (list_ext 0).
    - unfold line1. rewrite length_map2. change (length (times P (along y d t)) = Nat.min (length (times P y)) (length (times P d))). rewrite !times_length. lia.
    - intros i Hi. rewrite times_length in Hi. pose proof (nth_line1 (K := K) Rops_ring (times P y) (times P d) t i) as E.
      change (length (times P y) = length (times P d) -> nth i (line1 (K := K) (times P y) (times P d) t) 0 = nth i (times P y) 0 + t * nth i (times P d) 0) in E.
      etransitivity; [|symmetry; apply E; now rewrite !times_length]. rewrite !times_nth by exact Hi. rewrite <- rsum_mul_l, <- rsum_plus. apply rsum_ext. intros j Hj.
      pose proof (nth_line1 (K := K) Rops_ring y d t j (eq_trans Ly (eq_sym Ld))) as E2. change (nth j (along y d t) 0 = nth j y 0 + t * nth j d 0) in E2. rewrite E2. ring.
  Qed.

  Lemma reduced_derivative y dy r0 A (r : R -> list R) (A' : R -> mat K) :
    regular_problem jvp sqrtK p pts (at_ y) -> length y = m_cols P -> length dy = m_cols P ->
    g_update_helper jvp sqrtK p pts (Some P) y = Ok (r0, A) ->
    (forall t, g_update_helper jvp sqrtK p pts (Some P) (along y dy t) = Ok (r t, A' t)) ->
    m_rows A = m_cols P /\ m_cols A = m_cols P /\
    forall i, (i < m_cols P)%nat -> derivable_pt_lim (fun t => nth i (r t) 0) 0 (rsum (m_cols P) (fun j => m_at A i j * nth j dy 0)).
  Proof.
    intros REG Ly Ldy H0 HT. apply reduced_inv in H0 as (u & res & W & Eu & Lu & EW & _ & ->). pose proof (times_of y u Eu) as ->.
    apply product_ok in Eu as (_ & LP & _). assert (EP : m_rows P = n) by (rewrite <- LP; exact Lu).
    destruct (reduced_matrix p P W EP) as (R1 & R2 & R3). split; [exact R1|]. split; [exact R2|]. intros i Hi.
    pose proof REG as (WF & NC & SOL & IVS & BC & RNG & kf & KER & JC & JF).
    assert (Ldu : length (times P dy) = n) by (now rewrite times_length).
    destruct (dsol_of (fun _ => p) [] (times P dy) Ldu) as [DSOL Ed].
    set (dsol := at_ dy) in *. set (sol := at_ y) in *.
    assert (Es : ravel sol = times P y) by (apply ravel_unravel; exact Lu).
    assert (EL : forall t : R, line3 sol dsol (t : K) = at_ (along y dy t)).
    { intros t. rewrite times_along by auto. unfold n in *.
      rewrite <- (unravel_ravel (sol_shapes p) (line3 sol dsol (t : K))).
      - f_equal. exact (eq_trans (ravel_line3 (sol_shapes p) sol dsol t (sol_shapes_ok p sol SOL) (sol_shapes_ok p dsol DSOL)) (f_equal2 (fun a b => line1 (K := K) a b t) Es Ed)).
      - apply line3_shapes; [exact (sol_shapes_ok p sol SOL)|exact (sol_shapes_ok p dsol DSOL)]. }
    set (rs := fun t : R => match compute_residual sqrtK p pts (line3 sol dsol (t : K)) with Ok r => r | Err _ => [] end).
    assert (HR : forall t : R, compute_residual sqrtK p pts (line3 sol dsol (t : K)) = Ok (rs t)).
    { intros t. unfold rs. rewrite (compute_residual_ok sqrtK p pts _ kf WF NC (line_ok p sol dsol SOL DSOL t) IVS KER). reflexivity. }
    assert (RT : forall t, is_product (mat_T P) (apply_bc_vec (ravel (rs t)) (ravel (line3 sol dsol (t : K))) p (@one K)) (r t)).
    { intros t. pose proof (HT t) as H. apply reduced_inv in H as (ut & rt & Wt & Eut & Lut & EWt & Er & _). pose proof (times_of _ ut Eut) as ->.
      rewrite <- EL in EWt. apply product_ok in Er. assert (E1 : rt = rs t).
      { pose proof (newton_agrees jvp sqrtK p pts (line3 sol dsol (t : K))) as AG. unfold rmap in AG. rewrite EWt in AG. cbn [bind fst] in AG. rewrite HR in AG. congruence. }
      rewrite E1 in Er. assert (E2 : ravel (line3 sol dsol (t : K)) = times P (along y dy t)). { rewrite EL. apply ravel_unravel. exact Lut. }
      rewrite E2. exact Er. }
    apply (dlim_ext (fun t => rsum (m_rows P) (fun k => m_at P k i * nth k (apply_bc_vec (ravel (rs t)) (ravel (line3 sol dsol (t : K))) p (@one K)) 0))).
    { intros t. destruct (RT t) as (_ & _ & E). symmetry. exact (E i Hi). }
    assert (DD : derivable_pt_lim (fun t => rsum (m_rows P) (fun k => m_at P k i * nth k (apply_bc_vec (ravel (rs t)) (ravel (line3 sol dsol (t : K))) p (@one K)) 0)) 0
      (rsum (m_rows P) (fun k => m_at P k i * rsum n (fun l => tangent p W k l * nth l (times P dy) 0)))).
    { apply (dlim_sum_n (m_rows P) (fun k t => m_at P k i * nth k (apply_bc_vec (ravel (rs t)) (ravel (line3 sol dsol (t : K))) p (@one K)) 0)). intros k Hk.
      apply (derivable_pt_lim_scal (fun t => nth k (apply_bc_vec (ravel (rs t)) (ravel (line3 sol dsol (t : K))) p (@one K)) 0)).
      pose proof (n_eq (fun _ => p) []) as NE. cbv beta in NE.
      pose proof (tangent_derivative jvp sqrtK p pts sol dsol kf WF NC SOL DSOL IVS KER JC JF BC RNG k rs res W ltac:(rewrite NE, <- EP; exact Hk) HR EW) as TD.
      rewrite NE in TD. match type of TD with derivable_pt_lim _ _ ?e0 => assert (El : e0 = rsum n (fun l => tangent p W k l * nth l (times P dy) 0)) end.
      { apply (rsum_ext n). intros l _. exact (f_equal (fun q => tangent p W k l * nth l q 0) Ed). }
      rewrite <- El. exact TD. }
    match goal with |- derivable_pt_lim _ _ ?e0 => replace e0 with (rsum (m_rows P) (fun k => m_at P k i * rsum n (fun l => tangent p W k l * nth l (times P dy) 0))) end; [exact DD|].
    transitivity (rsum (m_cols P) (fun j => rsum (m_rows P) (fun k => rsum (m_rows P) (fun l => m_at P k i * (tangent p W k l * (m_at P l j * nth j dy 0)))))).
    - rewrite rsum_swap. apply rsum_ext. intros k Hk. rewrite rsum_swap. rewrite <- EP. rewrite <- rsum_mul_l. apply rsum_ext. intros l Hl.
      rewrite times_nth by exact Hl. rewrite <- !rsum_mul_l. reflexivity.
    - apply rsum_ext. intros j Hj. pose proof (R3 i j) as E3.
      etransitivity; [|exact (f_equal (fun a => a * nth j dy 0) (eq_sym E3))].
      change (rsum (m_rows P) (fun k => rsum (m_rows P) (fun l => m_at P k i * (tangent p W k l * (m_at P l j * nth j dy 0)))) =
        rsum (m_rows P) (fun k => m_at P k i * rsum (m_rows P) (fun l => tangent p W k l * m_at P l j)) * nth j dy 0).
      rewrite <- rsum_mul_r. apply rsum_ext. intros k Hk. rewrite (Rmult_comm (m_at P k i)), <- !rsum_mul_r. apply rsum_ext. intros; ring.
  Qed.
End ReducedR.

(** The derivative is unique. *)
Lemma derivative_unique f x J J' : has_derivative f x J -> has_derivative f x J' ->
  forall k j, (k < length (f x))%nat -> (j < length x)%nat -> J k j = J' k j.
Proof.
  intros D D' k j Hk Hj. set (e := map (fun i => if (i =? j)%nat then 1 else 0) (seq 0 (length x))).
  assert (Le : length e = length x) by (unfold e; now rewrite map_length, seq_length).
  assert (Ee : forall i, (i < length x)%nat -> nth i e 0 = if (i =? j)%nat then 1 else 0).
  { intros i Hi. unfold e. rewrite (nth_map_in _ _ _ 0%nat) by (now rewrite seq_length). now rewrite seq_nth. }
  assert (La : forall t, length (along x e t) = length x) by (intros t; unfold along; rewrite length_map2; lia).
  assert (V : velocity (along x e) e) by (now apply along_velocity).
  pose proof (chain_rule f x J _ e D (along_0 x e Le) La Le V k Hk) as C1. pose proof (chain_rule f x J' _ e D' (along_0 x e Le) La Le V k Hk) as C2.
  pose proof (uniqueness_limite _ _ _ _ C1 C2) as U. rewrite !(rsum_single _ j) in U; auto; try (intros i Hi Hn; rewrite Ee by exact Hi; destruct (Nat.eqb_spec i j); [contradiction|ring]).
  rewrite !Ee, Nat.eqb_refl in U by exact Hj. lra.
Qed.
Lemma vjp_correct_at vjp f x J : has_derivative f x J ->
  (forall v, length v = length (f x) -> length (vjp f x v) = length x /\
    forall j, (j < length x)%nat -> nth j (vjp f x v) 0 = rsum (length (f x)) (fun k => J k j * nth k v 0)) ->
  vjp_correct vjp f x.
Proof.
  intros D H J' v D' Lv. destruct (H v Lv) as [L E]. split; [exact L|]. intros j Hj. rewrite E by exact Hj. apply rsum_ext. intros k Hk.
  now rewrite (derivative_unique f x J J' D D' k j Hk Hj).
Qed.
