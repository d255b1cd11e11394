(** Proofs for C79: existence and uniqueness for linear elasticity. *)
From Coq Require Import Reals List Arith Lia Lra Bool.
From Verif Require Import Num Arr ArrFacts Fe Problem SpecAssembly BatchFacts ProblemFacts AssemblyFacts DerivFacts FeFacts SolverBc SpecBc BcFacts BcMain SpecWeak KernelFacts SpecEnergy EnergyFacts
  Elastic ElasticFacts SpecElastic ElasticMain LinAlg SpecWave SpecSolve.
Import ListNotations.

Section Form.
  Variables (lam mu : R) (d : nat).
  Local Open Scope R_scope.
  Lemma ebil_linear G H Y t : ebil lam mu d (fun k j => G k j + t * H k j) Y = ebil lam mu d G Y + t * ebil lam mu d H Y.
  Proof.
    unfold ebil. rewrite trace_line.
    replace (sum_n (K := Rops) d (fun i => sum_n (K := Rops) d (fun j => strain (fun k l => G k l + t * H k l) i j * strain Y i j)))
      with (sum_n (K := Rops) d (fun i => sum_n (K := Rops) d (fun j => strain G i j * strain Y i j)) + t * sum_n (K := Rops) d (fun i => sum_n (K := Rops) d (fun j => strain H i j * strain Y i j))).
    - cbn; req; ring.
    - rewrite <- Rsum_mul, <- Rsum_plus. apply Rsum_ext. intros i Hi. rewrite <- Rsum_mul, <- Rsum_plus. apply Rsum_ext. intros j Hj. unfold strain. cbn; req; field.
  Qed.
  Lemma ebil_definite G : 0 <= lam -> 0 < mu -> ebil lam mu d G G = 0 -> forall i j, (i < d)%nat -> (j < d)%nat -> strain G i j = 0.
  Proof.
    intros HL HM Z i j Hi Hj. unfold ebil in Z. set (T := trace d (strain G)) in *.
    set (S := sum_n (K := Rops) d (fun i => sum_n (K := Rops) d (fun j => strain G i j * strain G i j))) in *.
    assert (S0 : 0 <= S) by (apply Rsum_nonneg; intros; apply Rsum_nonneg; intros; apply Rle_0_sqr).
    assert (T0 : 0 <= lam * (T * T)) by (apply Rmult_le_pos; auto; apply Rle_0_sqr).
    assert (SZ : S = 0). { assert (0 <= 2 * mu * S) by (apply Rmult_le_pos; lra). assert (X : 2 * mu * S = 0) by lra. apply Rmult_integral in X. destruct X; lra. }
    unfold S in SZ. pose proof (Rsum_zero_all _ _ (fun k _ => Rsum_nonneg _ _ (fun j _ => Rle_0_sqr _)) SZ i Hi) as Y.
    pose proof (Rsum_zero_all _ _ (fun j _ => Rle_0_sqr _) Y j Hj) as Y'. cbn in Y'. apply Rmult_integral in Y'. destruct Y'; auto.
  Qed.
End Form.

Section Elastic.
  Let KR : ring_laws Rops := Rops_ring.
  Context {V : Type}.
  Variables (lam mu : R) (sqrtK : Rops -> Rops) (p : problem Rops V) (f : fe Rops) (P : list (list Rops)).
  Hypothesis WF : wf_problem p.
  Hypothesis NC : (0 < p_num_cells p)%nat.
  Hypothesis EL : elastic_problem lam mu p f.
  Hypothesis IVS : ivs_ok p.
  Hypothesis MAPS : maps_ok (vec f) (dim f) (maps p).
  Hypothesis LAM : (0 <= lam)%R. Hypothesis MU : (0 < mu)%R.
  Hypothesis JP : forall c q, (c < p_num_cells p)%nat -> (q < num_quads f)%nat -> (0 < get_JxW P f c q)%R.
  Hypothesis RIGID : no_free_motion p f P.
  Local Open Scope R_scope.
  Local Notation N := (length (points f)).
  Let STD : standard_problem p f := proj1 EL.

  Definition elform (x v : list (list Rops)) : R := over_cells (K := Rops) p f P (fun c q => ebil lam mu (dim f) (sol_to_grad P f x c q) (sol_to_grad P f v c q)).
  Definition elload (v : list (list Rops)) : R :=
    - (over_cells (K := Rops) p f P (fun c q => dot1 (K := Rops) (vec f) (source p f P [] c q) (convert_from_dof_to_quad f v c q))
       + over_faces (K := Rops) sqrtK p f P (fun s e c fc q => dot1 (K := Rops) (vec f) (traction p f P [] s e q) (convert_from_dof_to_face_quad f v c fc q))).
  Lemma el_shape x : sol_ok p [x] <-> shaped N (vec f) x.
  Proof.
    unfold sol_ok, fe_of. rewrite (fes_f p f STD). cbn. split.
    - intros [_ H]. apply (H 0%nat). lia.
    - intros H. split; [reflexivity|]. intros v Hv. assert (v = 0)%nat as -> by lia. exact H.
  Qed.
  Lemma elform_linear y x v t : sol_ok p [y] -> sol_ok p [x] -> sol_ok p [v] -> elform (along (K := Rops) x v t) y = elform x y + t * elform v y.
  Proof.
    intros SY SX SV. unfold elform, over_cells. rewrite <- Rsum_mul, <- Rsum_plus. apply Rsum_ext. intros c Hc. rewrite <- Rsum_mul, <- Rsum_plus. apply Rsum_ext. intros q Hq.
    cbn [mul Rops]. rewrite (ebil_ext lam mu (dim f) _ (fun k j => sol_to_grad P f x c q k j + t * sol_to_grad P f v c q k j) _ (sol_to_grad P f y c q)).
    - rewrite ebil_linear. cbn; req; ring.
    - intros k l Hk Hl. apply (grad_along KR p f P x WF NC STD SX v t c q k l SV Hc). now rewrite (VD lam mu p f EL).
    - auto.
  Qed.
  Lemma elform_sym x y : elform x y = elform y x.
  Proof. unfold elform, over_cells. apply Rsum_ext. intros c Hc. apply Rsum_ext. intros q Hq. cbn [mul Rops]. now rewrite ebil_sym. Qed.
  Lemma elform_definite d : sol_ok p [d] -> (forall n k b, (n < N)%nat -> (k < vec f)%nat -> prescribed f n k = Some b -> get2 (@zero Rops) d n k = 0) -> elform d d = 0 ->
    forall n k, (n < N)%nat -> (k < vec f)%nat -> get2 (@zero Rops) d n k = 0.
  Proof.
    intros SD HD Z. apply RIGID; auto. intros c q i j Hc Hq. apply (ebil_definite lam mu (dim f)); auto.
    assert (DP : forall c q, 0 <= ebil lam mu (dim f) (sol_to_grad P f d c q) (sol_to_grad P f d c q)) by (intros; apply ebil_nonneg; lra).
    assert (JW : forall c q, (c < p_num_cells p)%nat -> (q < num_quads f)%nat -> 0 <= get_JxW P f c q) by (intros; apply Rlt_le, JP; auto).
    unfold elform, over_cells in Z.
    pose proof (Rsum_zero_all _ _ (fun e He => Rsum_nonneg _ _ (fun q Hq => Rmult_le_pos _ _ (DP e q) (JW e q He Hq))) Z c Hc) as Z1.
    pose proof (Rsum_zero_all _ _ (fun q Hq => Rmult_le_pos _ _ (DP c q) (JW c q Hc Hq)) Z1 q Hq) as Z2.
    apply Rmult_integral in Z2. destruct Z2 as [Z2|Z2]; [exact Z2|]. pose proof (JP c q Hc Hq). lra.
  Qed.
  Definition elres (x : list (list Rops)) : list (list Rops) := match compute_residual sqrtK p [P] [x] with Ok [r] => r | _ => [] end.
  Lemma elres_ok x : sol_ok p [x] -> compute_residual sqrtK p [P] [x] = Ok [elres x].
  Proof.
    intros SX. destruct (residual_weak KR sqrtK p f P x WF NC STD SX IVS MAPS) as (r & E & _). unfold elres. now rewrite E.
  Qed.
  Lemma elwork x v : sol_ok p [x] -> sol_ok p [v] -> work (K := Rops) N (vec f) v (elres x) = elform x v - elload v.
  Proof.
    intros SX SV. rewrite (any_work KR sqrtK p f P x WF NC STD SX IVS MAPS v (elres x) SV (elres_ok x SX)). unfold elload, elform.
    rewrite (over_cells_ext p f P (fun c q => add (dot2 (K := Rops) (vec f) (dim f) (stress p f P x c q) (sol_to_grad P f v c q)) (dot1 (K := Rops) (vec f) (source p f P x c q) (convert_from_dof_to_quad f v c q)))
      (fun c q => ebil lam mu (dim f) (sol_to_grad P f x c q) (sol_to_grad P f v c q) + dot1 (K := Rops) (vec f) (source p f P [] c q) (convert_from_dof_to_quad f v c q))).
    - rewrite over_cells_plus. cbn [add Rops]. unfold Rminus. rewrite Ropp_involutive, Rplus_assoc. f_equal. f_equal.
      apply over_faces_ext; auto. intros s e q Hs He Hq c fc Hc. apply dot1_ext; auto. intros k Hk. apply (traction_dead lam mu p f P EL).
    - intros c q Hc Hq. cbn [add Rops]. f_equal; [apply (el_stress_dot lam mu p f P EL)|]. apply dot1_ext; auto. intros k Hk. apply (source_dead lam mu p f P EL).
  Qed.
  Theorem elastic_one_solution : exists x, solved sqrtK p f P x /\ forall y, solved sqrtK p f P y ->
    forall n k, (n < N)%nat -> (k < vec f)%nat -> get2 (@zero Rops) y n k = get2 (@zero Rops) x n k.
  Proof.
    assert (B1 : forall y x v t, shaped N (vec f) y -> shaped N (vec f) x -> shaped N (vec f) v -> elform (along (K := Rops) x v t) y = elform x y + t * elform v y).
    { intros y x v t Y X W. apply elform_linear; now apply el_shape. }
    assert (WK : forall x v, shaped N (vec f) x -> shaped N (vec f) v -> (work (K := Rops) N (vec f) v (elres x) = elform x v - elload v)%R).
    { intros x v X W. apply elwork; now apply el_shape. }
    assert (DEF : forall d, shaped N (vec f) d -> (forall n k b, (n < N)%nat -> (k < vec f)%nat -> prescribed f n k = Some b -> get2 (@zero Rops) d n k = 0) -> elform d d = 0 ->
       forall n k, (n < N)%nat -> (k < vec f)%nat -> get2 (@zero Rops) d n k = 0).
    { intros d SD. apply elform_definite. now apply el_shape. }
    destruct (field_solvable N (vec f) elform elload elres (prescribed f)) as (x & SX & HX & ZX); auto.
    { intros y x v t Y X W. rewrite elform_sym, B1 by auto. now rewrite (elform_sym x y), (elform_sym v y). }
    exists x. split.
    - split; [now apply el_shape|]. split; [exact HX|]. exists (elres x). split; [apply elres_ok; now apply el_shape|exact ZX].
    - intros y (SY & HY & r & E & ZY) n k Hn Hk. rewrite (elres_ok y SY) in E. injection E as <-.
      apply (field_unique N (vec f) elform elload elres (prescribed f)); auto.
      + intros a b t n' k' A B Hn' Hk'. apply (nth_along p f a STD); auto; now apply el_shape.
      + intros a b t A B. apply el_shape. apply along_ok; now apply el_shape.
      + now apply el_shape.
  Qed.
  (** it minimises the potential energy *)
  Theorem elastic_best x y : solved sqrtK p f P x -> sol_ok p [y] -> (forall n k b, (n < N)%nat -> (k < vec f)%nat -> prescribed f n k = Some b -> get2 (@zero Rops) y n k = b) ->
    potential_energy lam mu sqrtK p f P x <= potential_energy lam mu sqrtK p f P (along (K := Rops) x (along (K := Rops) y x (-1)) 1).
  Proof.
    intros (SX & HX & r & E & ZX) SY HY. apply (elastic_minimum lam mu sqrtK p f P x WF NC EL SX IVS MAPS _ r); auto; [lra| | |].
    - intros; apply Rlt_le, JP; auto.
    - apply along_ok; auto.
    - intros n k Hn Hk. destruct (prescribed f n k) as [b|] eqn:B; [left|right; auto]. rewrite (nth_along p f y STD) by auto. rewrite (HX n k b), (HY n k b) by auto. cbn; req; ring.
  Qed.

  (** the matrix of the linear systems is regular, at every state and with every correct jvp *)
  Lemma global_one : global_shapes p = [(N, vec f)].
  Proof. unfold global_shapes. now rewrite (fes_f p f STD). Qed.
  Lemma all_one : all_dofs (global_shapes p) = (N * vec f)%nat.
  Proof. rewrite global_one. unfold all_dofs. cbn. lia. Qed.
  Lemma concat_fld z g : (g < N * vec f)%nat -> nth g (concat (fld N (vec f) z)) 0 = z g.
  Proof.
    intros Hg. assert (Hm : (vec f <> 0)%nat) by lia. unfold fld. rewrite <- flat_map_concat_map.
    assert (Hn : (g / vec f < N)%nat) by (apply Nat.div_lt_upper_bound; auto; lia). assert (Hk : (g mod vec f < vec f)%nat) by (now apply Nat.mod_upper_bound).
    assert (E : g = (g / vec f * vec f + g mod vec f)%nat) by (rewrite (Nat.div_mod g (vec f)) at 1 by auto; lia).
    rewrite E at 1. rewrite (nth_flat_table 0 (fun n k => z (n * vec f + k)%nat) (vec f) N _ _ Hk Hn). now rewrite <- E.
  Qed.
  Theorem elastic_regular jvp kf sol r0 W : sol_ok p [sol] -> kernels_ok p kf ->
    (forall c, (c < p_num_cells p)%nat -> jvp_correct jvp (cell_fun p [P] [sol] c) (cell_values p [sol] c)) ->
    (forall s i, (s < length (boundary_inds_list p))%nat -> (i < num_sel_faces p s)%nat ->
       jvp_correct jvp (face_fun sqrtK p [P] [sol] kf s i) (cell_values p [sol] (face_cell p s i))) ->
    bcs_ok p -> (forall f, In f (fes p) -> bc_in_range f) -> newton_update jvp sqrtK p [P] [sol] = Ok (r0, W) ->
    forall x : nat -> Rops, (forall g, (g < all_dofs (global_shapes p))%nat -> matvec (K := Rops) (all_dofs (global_shapes p)) (tangent p W) x g = 0) ->
    forall g, (g < all_dofs (global_shapes p))%nat -> x g = 0.
  Proof.
    intros SOL KO JC JF BC RNG NU x Z. rewrite all_one in *.
    set (v := fld N (vec f) x). assert (SV : sol_ok p [v]) by (apply el_shape, fld_shaped).
    assert (FO : fe_of p 0 = f) by (unfold fe_of; now rewrite (fes_f p f STD)).
    assert (SPEC : forall n k h, (n < N)%nat -> (k < vec f)%nat ->
      (constrained f n k -> tangent p W (n * vec f + k)%nat h = if (n * vec f + k =? h)%nat then 1 else 0) /\
      (~ constrained f n k -> tangent p W (n * vec f + k)%nat h = coo_entry (p_I p) (p_J p) W (n * vec f + k) h)).
    { intros n k h Hn Hk. assert (VD0 : valid_dof (global_shapes p) 0 n k) by (rewrite global_one; unfold valid_dof; cbn; auto).
      pose proof (tangent_spec p BC RNG W 0%nat n k h VD0) as Q. rewrite FO in Q.
      assert (DN : dof_number (global_shapes p) 0 n k = (n * vec f + k)%nat) by (rewrite global_one; reflexivity). rewrite DN in Q. exact Q. }
    assert (DM : forall g, (g < N * vec f)%nat -> (g / vec f < N)%nat /\ (g mod vec f < vec f)%nat /\ (g / vec f * vec f + g mod vec f = g)%nat).
    { intros g Hg. assert (Hm : (vec f <> 0)%nat) by lia. split; [apply Nat.div_lt_upper_bound; auto; lia|]. split; [now apply Nat.mod_upper_bound|].
      rewrite (Nat.div_mod g (vec f)) at 3 by auto. lia. }
    assert (HELD : forall n k, (n < N)%nat -> (k < vec f)%nat -> constrained f n k -> x (n * vec f + k)%nat = 0).
    { intros n k Hn Hk CO. assert (Hg : (n * vec f + k < N * vec f)%nat) by nia. pose proof (Z _ Hg) as E. unfold matvec in E. rewrite <- E. symmetry.
      etransitivity; [|apply (Rsum_delta _ _ x Hg)]. apply Rsum_ext. intros h Hh. cbn [mul Rops]. now rewrite (proj1 (SPEC n k h Hn Hk) CO). }
    assert (FREE : forall n k, (n < N)%nat -> (k < vec f)%nat -> ~ constrained f n k ->
      sum_n (K := Rops) (N * vec f) (fun h => coo_entry (K := Rops) (p_I p) (p_J p) W (n * vec f + k) h * x h) = 0).
    { intros n k Hn Hk CO. assert (Hg : (n * vec f + k < N * vec f)%nat) by nia. etransitivity; [|exact (Z _ Hg)]. unfold matvec. apply Rsum_ext. intros h Hh. cbn [mul Rops].
      now rewrite (proj2 (SPEC n k h Hn Hk) CO). }
    assert (Q0 : quadratic_form p W v v = 0).
    { unfold quadratic_form. rewrite all_one. transitivity (sum_n (K := Rops) (N * vec f) (fun _ => 0 * 0)); [|rewrite Rsum_mul; req; ring]. apply Rsum_ext. intros g Hg.
      destruct (DM g Hg) as (Hn & Hk & E).
      transitivity (x g * sum_n (K := Rops) (N * vec f) (fun h => coo_entry (K := Rops) (p_I p) (p_J p) W g h * x h)).
      - rewrite <- Rsum_mul. apply Rsum_ext. intros h Hh. unfold v. rewrite !concat_fld by auto. cbn; req; ring.
      - destruct (prescribed f (g / vec f) (g mod vec f)) as [b|] eqn:B.
        + assert (CO : constrained f (g / vec f) (g mod vec f)) by (apply prescribed_constrained; eauto). pose proof (HELD _ _ Hn Hk CO) as H0. rewrite E in H0. rewrite H0. cbn; req; ring.
        + assert (CO : ~ constrained f (g / vec f) (g mod vec f)) by (intros CO; apply prescribed_constrained in CO as (b & CO); congruence).
          pose proof (FREE _ _ Hn Hk CO) as H0. rewrite E in H0. rewrite H0. cbn; req; ring. }
    destruct (elastic_tangents_ok lam mu p f P sol WF NC EL SOL) as (TO & _).
    rewrite (matrix_form jvp sqrtK p f P sol kf WF NC STD SOL IVS MAPS KO JC JF _ v v r0 W TO SV SV NU) in Q0.
    assert (Z1 : forall u, dot1 (K := Rops) (vec f) (fun k => 0%R) u = 0%R) by (intros; unfold dot1; apply (sum_n_zero_ext KR); intros; cbn; ring).
    assert (Q1 : elform v v = 0).
    { rewrite <- Q0. unfold tangent_form. cbn [t_stress t_source t_traction elastic_tangents].
      transitivity (elform v v + 0); [symmetry; apply Rplus_0_r|]. f_equal.
      - unfold elform. apply over_cells_ext. intros c q Hc Hq. rewrite Z1. rewrite (VD lam mu p f EL). rewrite stress_dot. symmetry. apply Rplus_0_r.
      - symmetry. unfold over_faces. transitivity (sum_n (K := Rops) (length (boundary_inds_list p)) (fun _ => 0 * 0)); [|rewrite Rsum_mul; req; ring].
        apply Rsum_ext. intros s Hs. transitivity (sum_n (K := Rops) (num_sel_faces p s) (fun _ => 0 * 0)); [|rewrite Rsum_mul; req; ring].
        apply Rsum_ext. intros e He. cbv zeta. transitivity (sum_n (K := Rops) (num_face_quads f) (fun _ => 0 * 0)); [|rewrite Rsum_mul; req; ring].
        apply Rsum_ext. intros q Hq. rewrite Z1. cbn; req; ring. }
    intros g Hg. destruct (DM g Hg) as (Hn & Hk & E). rewrite <- E.
    pose proof (elform_definite v SV) as Q2. unfold v in Q2 at 2. rewrite <- (fld_get N (vec f) x) by auto. apply Q2; auto.
    intros n k b Hn' Hk' B. unfold v. rewrite fld_get by auto. apply HELD; auto. apply prescribed_constrained. eauto.
  Qed.
End Elastic.
(** x + (y - x) = y *)
Lemma along_back N m (x y : list (list Rops)) : shaped N m x -> shaped N m y -> along (K := Rops) x (along (K := Rops) y x (-1)%R) 1%R = y.
Proof.
  intros (LX & RX) (LY & RY). unfold along. revert N y LX RX LY RY. induction x as [|r x IH]; intros N y LX RX LY RY; destruct y as [|s y]; cbn in LX, LY; try congruence; try (exfalso; lia); [reflexivity|].
  unfold map2 at 1 3. cbn [combine map fst snd]. f_equal.
  - assert (LR := RX r (or_introl eq_refl)). assert (LS := RY s (or_introl eq_refl)). clear - LR LS. revert m s LR LS. induction r as [|a r IH]; intros m s LR LS; destruct s as [|b s]; cbn in LR, LS; try congruence; try (exfalso; lia); [reflexivity|].
    unfold map2 at 1 2. cbn [combine map fst snd]. f_equal; [cbn; req; ring|]. destruct m as [|m]; [discriminate|]. apply (IH m); [now injection LR|now injection LS].
  - destruct N as [|N]; [discriminate|]. apply (IH N); [now injection LX|intros; apply RX; now right|now injection LY|intros; apply RY; now right].
Qed.

Theorem elastic_least {V : Type} lam mu sqrtK (p : problem Rops V) (f : fe Rops) P :
  wf_problem p -> (0 < p_num_cells p)%nat -> elastic_problem lam mu p f -> ivs_ok p -> maps_ok (vec f) (dim f) (maps p) -> (0 <= lam)%R -> (0 < mu)%R ->
  (forall c q, (c < p_num_cells p)%nat -> (q < num_quads f)%nat -> (0 < get_JxW P f c q)%R) ->
  forall x y, solved sqrtK p f P x -> sol_ok p [y] ->
  (forall n k b, (n < length (points f))%nat -> (k < vec f)%nat -> prescribed f n k = Some b -> get2 (@zero Rops) y n k = b) ->
  (potential_energy lam mu sqrtK p f P x <= potential_energy lam mu sqrtK p f P y)%R.
Proof.
  intros WF NC EL IVS MAPS L0 M0 JP x y SX SY BY.
  pose proof (elastic_best lam mu sqrtK p f P WF NC EL IVS MAPS L0 M0 JP x y SX SY BY) as H.
  rewrite (along_back (length (points f)) (vec f)) in H; [exact H| |]; apply (el_shape lam mu p f NC EL); [apply SX|exact SY].
Qed.
Theorem elastic_solve {V : Type} lam mu sqrtK (p : problem Rops V) (f : fe Rops) P :
  wf_problem p -> (0 < p_num_cells p)%nat -> elastic_problem lam mu p f -> ivs_ok p -> maps_ok (vec f) (dim f) (maps p) -> (0 <= lam)%R -> (0 < mu)%R ->
  (forall c q, (c < p_num_cells p)%nat -> (q < num_quads f)%nat -> (0 < get_JxW P f c q)%R) -> no_free_motion p f P ->
  forall jvp kf sol r0 W, sol_ok p [sol] -> kernels_ok p kf ->
  (forall c, (c < p_num_cells p)%nat -> jvp_correct jvp (cell_fun p [P] [sol] c) (cell_values p [sol] c)) ->
  (forall s i, (s < length (boundary_inds_list p))%nat -> (i < num_sel_faces p s)%nat ->
     jvp_correct jvp (face_fun sqrtK p [P] [sol] kf s i) (cell_values p [sol] (face_cell p s i))) ->
  bcs_ok p -> (forall f, In f (fes p) -> bc_in_range f) -> newton_update jvp sqrtK p [P] [sol] = Ok (r0, W) ->
  let n := all_dofs (global_shapes p) in
  forall b : nat -> Rops, exists x : nat -> Rops, (forall g, (g < n)%nat -> matvec (K := Rops) n (tangent p W) x g = b g) /\
    forall y : nat -> Rops, (forall g, (g < n)%nat -> matvec (K := Rops) n (tangent p W) y g = b g) -> forall g, (g < n)%nat -> y g = x g.
Proof.
  intros WF NC EL IVS MAPS L0 M0 JP RG jvp kf sol r0 W SOL KO JC JF BC RNG NU n b.
  assert (INJ : forall x : nat -> Rops, (forall g, (g < n)%nat -> matvec (K := Rops) n (tangent p W) x g = 0%R) -> forall g, (g < n)%nat -> x g = 0%R).
  { intros x. exact (elastic_regular lam mu sqrtK p f P WF NC EL IVS MAPS L0 M0 JP RG jvp kf sol r0 W SOL KO JC JF BC RNG NU x). }
  destruct (solvable n (tangent p W) b INJ) as (x & E). exists x. split; [exact E|].
  intros y EY g Hg. assert (D : (y g - x g = 0)%R); [|lra].
  apply (INJ (fun g => (y g - x g)%R)); auto. intros h Hh.
  transitivity (matvec (K := Rops) n (tangent p W) y h + (-1) * matvec (K := Rops) n (tangent p W) x h)%R.
  - unfold matvec. rewrite <- Rsum_mul, <- Rsum_plus. apply Rsum_ext. intros j Hj. cbn; req; ring.
  - rewrite EY by auto. pose proof (E h Hh) as EX. unfold matvec. cbn in EX |- *. rewrite EX. ring.
Qed.
