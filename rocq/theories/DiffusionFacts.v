(** Diffusion problems have exactly one solution (C81). *)
From Coq Require Import String List Arith Lia Bool Reals Lra.
From Verif Require Import Num Arr ArrFacts Fe Problem BatchFacts SpecAssembly AssemblyFacts ProblemFacts ResidualFacts DerivFacts FeFacts
  SolverBc SpecBc BcFacts BcMain SpecWeak KernelFacts SpecEnergy EnergyFacts ElasticFacts ElasticMain LinAlg SpecWave SpecLinear LinearFacts LinearElastic SpecPosed PosedFacts AffineFacts.
Import ListNotations.
Local Open Scope R_scope.

Section Diffusion.
  Let KR : ring_laws Rops := Rops_ring.
  Context {V : Type}.
  Variables (p : problem Rops V) (f : fe Rops) (P : list (list Rops)).
  Variables (kappa : list V -> R) (alpha : (nat -> R) -> list V -> R) (beta : nat -> (nat -> R) -> list V -> R).
  Hypothesis WF : wf_problem p.
  Hypothesis NC : (0 < p_num_cells p)%nat.
  Hypothesis STD : standard_problem p f.
  Hypothesis IVS : ivs_ok p.
  Hypothesis MAPS : maps_ok (vec f) (dim f) (maps p).
  Hypothesis DM : diffusion_maps kappa alpha beta (maps p).

  Definition dtan : tangents := mkTangents (fun c q H k j => kappa (iv_at p c q) * H k j) (fun c q h k => alpha_at alpha p f P c q * h k)
    (fun s e q h k => beta_at beta p f P s e q * h k).
  Lemma diff_affine_maps : affine_maps p f P dtan.
  Proof.
    destruct DM as (D1 & D2 & D3). intros x v t SX SV. split; [|split].
    - intros c q k j Hc Hq Hk Hj. unfold stress. cbn [t_stress dtan]. destruct (tensor_map (maps p)) as [tm|].
      + rewrite !D1. refine (eq_trans (f_equal (fun z : R => kappa (iv_at p c q) * z) (grad_along KR p f P x WF NC STD SX v t c q k j SV Hc Hk)) _). cbn; req; ring.
      + rewrite D1. cbn; req; ring.
    - intros c q k Hc Hq Hk. unfold source. cbn [t_source dtan]. unfold alpha_at. destruct (mass_map (maps p)) as [mm|].
      + pose proof (D2 (convert_from_dof_to_quad f (along (K := Rops) x v t) c q) (convert_from_dof_to_quad f x c q) (get_physical_quad_points P f c q) (iv_at p c q) k) as E.
        pose proof (value_along KR p f x WF NC STD SX v t c q k SV Hc Hk) as E2. cbn in *. rewrite E2 in E. lra.
      + rewrite D2. cbn; req; ring.
    - intros s e q k Hs He Hq Hk c fc. unfold traction. cbn [t_traction dtan]. unfold beta_at. fold c fc.
      assert (Hc : (c < p_num_cells p)%nat) by (now apply (face_cell_ok p WF s e)).
      destruct STD as (_ & _ & _ & _ & SM). destruct (surface_maps (maps p)) as [sms|] eqn:ES; [|rewrite SM in Hs; cbn in Hs; lia].
      destruct (nth_error sms s) as [sm|] eqn:EN; [|apply nth_error_None in EN; lia].
      pose proof (D3 sms s sm eq_refl EN (convert_from_dof_to_face_quad f (along (K := Rops) x v t) c fc q) (convert_from_dof_to_face_quad f x c fc q) (get_physical_surface_quad_points P f c fc q) (iv_face_at p s e q) k) as E.
      pose proof (face_value_along KR p f x WF NC STD SX v t c fc q k SV Hc Hk) as E2. cbn in *. rewrite E2 in E. lra.
  Qed.
  Theorem diffusion_affine : affine_residual p [P].
  Proof. exact (affine_from_maps p f P dtan WF NC STD IVS MAPS diff_affine_maps). Qed.

  Lemma dot2_scaled m d (a : R) (H : nat -> nat -> Rops) : dot2 (K := Rops) m d (fun k j => a * H k j) H = a * dot2 (K := Rops) m d H H.
  Proof. unfold dot2. rewrite <- Rsum_mul. apply Rsum_ext. intros k _. rewrite <- Rsum_mul. apply Rsum_ext. intros j _. cbn; req; ring. Qed.
  Lemma dot1_scaled m (a : R) (h : nat -> Rops) : dot1 (K := Rops) m (fun k => a * h k) h = a * dot1 (K := Rops) m h h.
  Proof. unfold dot1. rewrite <- Rsum_mul. apply Rsum_ext. intros k _. cbn; req; ring. Qed.
  Lemma sq_nonneg (x : R) : 0 <= x * x.
  Proof. nra. Qed.
  Lemma dot1_pos m (h : nat -> Rops) : 0 <= dot1 (K := Rops) m h h.
  Proof. apply Rsum_nonneg. intros k _. apply sq_nonneg. Qed.
  Lemma dot2_pos m d (H : nat -> nat -> Rops) : 0 <= dot2 (K := Rops) m d H H.
  Proof. apply Rsum_nonneg. intros k _. apply Rsum_nonneg. intros j _. apply sq_nonneg. Qed.
  Lemma sq_zero (x : R) : x * x = 0 -> x = 0.
  Proof. nra. Qed.
  Lemma dot1_zero m (h : nat -> Rops) : dot1 (K := Rops) m h h = 0 -> forall k, (k < m)%nat -> h k = 0.
  Proof. intros Z k Hk. apply sq_zero. revert k Hk. apply Rsum_zero_all; auto. intros; apply sq_nonneg. Qed.
  Lemma dot2_zero m d (H : nat -> nat -> Rops) : dot2 (K := Rops) m d H H = 0 -> forall k j, (k < m)%nat -> (j < d)%nat -> H k j = 0.
  Proof.
    intros Z k j Hk Hj. apply sq_zero. revert j Hj. apply Rsum_zero_all; [intros; apply sq_nonneg|].
    revert k Hk. apply Rsum_zero_all; auto. intros k _. apply Rsum_nonneg. intros; apply sq_nonneg.
  Qed.
  Hypothesis DIFF : diffusive kappa alpha beta p f P.
  Theorem diffusion_definite : no_free_field kappa alpha beta p f P -> definite p f P dtan.
  Proof.
    intros NF d SD HZ Z. destruct DIFF as (D1 & D2).
    set (cq := fun c q => kappa (iv_at p c q) * dot2 (K := Rops) (vec f) (dim f) (sol_to_grad P f d c q) (sol_to_grad P f d c q)
      + alpha_at alpha p f P c q * dot1 (K := Rops) (vec f) (convert_from_dof_to_quad f d c q) (convert_from_dof_to_quad f d c q)).
    set (sq := fun s e c fc q => beta_at beta p f P s e q * dot1 (K := Rops) (vec f) (convert_from_dof_to_face_quad f d c fc q) (convert_from_dof_to_face_quad f d c fc q)).
    assert (E : over_cells (K := Rops) p f P cq + over_faces (K := Rops) sqrt p f P sq = 0).
    { rewrite <- Z. unfold tangent_form. f_equal.
      - unfold over_cells. apply Rsum_ext. intros c _. apply Rsum_ext. intros q _. f_equal. unfold cq. cbn [t_stress t_source dtan]. now rewrite dot2_scaled, dot1_scaled.
      - unfold over_faces. apply Rsum_ext. intros s _. apply Rsum_ext. intros e _. cbv zeta. apply Rsum_ext. intros q _. f_equal. unfold sq. cbn [t_traction dtan]. now rewrite dot1_scaled. }
    assert (CQ : forall c q, (c < p_num_cells p)%nat -> (q < num_quads f)%nat -> 0 <= cq c q * get_JxW P f c q).
    { intros c q Hc Hq. destruct (D1 c q Hc Hq) as (A & B & C).
      destruct (Req_dec (cq c q) 0) as [X|X]; [rewrite X; rewrite Rmult_0_l; lra|].
      assert (J : 0 < get_JxW P f c q).
      { apply C. destruct A as [A|A]; [now left|]. destruct B as [B|B]; [now right|]. exfalso. apply X. unfold cq. rewrite <- A, <- B. req; ring. }
      apply Rmult_le_pos; [|apply Rlt_le, J].
      unfold cq. pose proof (dot2_pos (vec f) (dim f) (sol_to_grad P f d c q)). pose proof (dot1_pos (vec f) (convert_from_dof_to_quad f d c q)).
      apply Rplus_le_le_0_compat; now apply Rmult_le_pos. }
    assert (SQ : forall s e q, (s < length (boundary_inds_list p))%nat -> (e < num_sel_faces p s)%nat -> (q < num_face_quads f)%nat ->
       let c := fst (nth e (nth s (boundary_inds_list p) []) (0%nat, 0%nat)) in
       let fc := snd (nth e (nth s (boundary_inds_list p) []) (0%nat, 0%nat)) in 0 <= sq s e c fc q * nanson_scale sqrt P f c fc q).
    { intros s e q Hs He Hq c fc. destruct (D2 s e q Hs He Hq) as (A & B). destruct A as [A|A]; [|unfold sq; rewrite <- A, !Rmult_0_l; lra].
      apply Rmult_le_pos; [|apply Rlt_le, (B A)]. apply Rlt_le in A.
      unfold sq. apply Rmult_le_pos; auto. apply dot1_pos. }
    assert (C0 : 0 <= over_cells (K := Rops) p f P cq).
    { apply Rsum_nonneg. intros c Hc. apply Rsum_nonneg. intros q Hq. now apply CQ. }
    assert (S0 : 0 <= over_faces (K := Rops) sqrt p f P sq).
    { apply Rsum_nonneg. intros s Hs. apply Rsum_nonneg. intros e He. apply Rsum_nonneg. intros q Hq. now apply SQ. }
    assert (CZ : over_cells (K := Rops) p f P cq = 0) by lra. assert (SZ : over_faces (K := Rops) sqrt p f P sq = 0) by lra.
    assert (CC : forall c q, (c < p_num_cells p)%nat -> (q < num_quads f)%nat -> cq c q = 0).
    { intros c q Hc Hq. destruct (D1 c q Hc Hq) as (_ & _ & J). assert (X : cq c q * get_JxW P f c q = 0).
      { revert q Hq J. assert (Y : sum_n (K := Rops) (num_quads f) (fun q => cq c q * get_JxW P f c q) = 0).
        { revert c Hc. apply Rsum_zero_all; auto. intros c Hc. apply Rsum_nonneg. intros q Hq. now apply CQ. }
        intros q Hq _. revert q Hq. apply Rsum_zero_all; auto. }
      apply Rmult_integral in X as [X|X]; auto. destruct (D1 c q Hc Hq) as (A & B & _).
      destruct A as [A|A]; [specialize (J (or_introl A)); cbn in J, X; lra|]. destruct B as [B|B]; [specialize (J (or_intror B)); cbn in J, X; lra|].
      unfold cq. rewrite <- A, <- B. req; ring. }
    assert (SS : forall s e q, (s < length (boundary_inds_list p))%nat -> (e < num_sel_faces p s)%nat -> (q < num_face_quads f)%nat ->
       let c := fst (nth e (nth s (boundary_inds_list p) []) (0%nat, 0%nat)) in
       let fc := snd (nth e (nth s (boundary_inds_list p) []) (0%nat, 0%nat)) in sq s e c fc q = 0).
    { intros s e q Hs He Hq c fc. destruct (D2 s e q Hs He Hq) as (_ & J). fold c fc in J. assert (X : sq s e c fc q * nanson_scale sqrt P f c fc q = 0).
      { pose proof (Rsum_zero_all _ _ (fun s Hs => Rsum_nonneg _ _ (fun e He => Rsum_nonneg _ _ (fun q Hq => SQ s e q Hs He Hq))) SZ s Hs) as Y1.
        pose proof (Rsum_zero_all _ _ (fun e He => Rsum_nonneg _ _ (fun q Hq => SQ s e q Hs He Hq)) Y1 e He) as Y2.
        exact (Rsum_zero_all _ _ (fun q Hq => SQ s e q Hs He Hq) Y2 q Hq). }
      apply Rmult_integral in X as [X|X]; auto. destruct (D2 s e q Hs He Hq) as (A & _). fold c fc in A.
      destruct A as [A|A]; [specialize (J A); cbn in J, X; lra|]. unfold sq. rewrite <- A. req; ring. }
    apply (NF d SD HZ).
    - intros c q k j Hc Hq Hk Hj K0. destruct (D1 c q Hc Hq) as (A & B & _). pose proof (CC c q Hc Hq) as X. unfold cq in X.
      pose proof (dot2_pos (vec f) (dim f) (sol_to_grad P f d c q)). pose proof (dot1_pos (vec f) (convert_from_dof_to_quad f d c q)).
      apply (dot2_zero (vec f) (dim f)); auto. nra.
    - intros c q k Hc Hq Hk K0. destruct (D1 c q Hc Hq) as (A & B & _). pose proof (CC c q Hc Hq) as X. unfold cq in X.
      pose proof (dot2_pos (vec f) (dim f) (sol_to_grad P f d c q)). pose proof (dot1_pos (vec f) (convert_from_dof_to_quad f d c q)).
      apply (dot1_zero (vec f)); auto. nra.
    - intros s e q k Hs He Hq Hk K0 c fc. pose proof (SS s e q Hs He Hq) as X. unfold sq in X. fold c fc in X.
      pose proof (dot1_pos (vec f) (convert_from_dof_to_face_quad f d c fc q)).
      apply (dot1_zero (vec f)); auto. nra.
  Qed.
  Hypothesis BC : bcs_ok p.
  Hypothesis NF : no_free_field kappa alpha beta p f P.
  Theorem diffusion_free : no_free_change p [P].
  Proof. exact (definite_free p f P dtan WF NC STD IVS MAPS diff_affine_maps (diffusion_definite NF)). Qed.
  Theorem diffusion_one : one_solution p [P].
  Proof. exact (one_from_free p [P] (std_kf p) WF NC IVS (std_kernels p f STD) BC diffusion_affine diffusion_free). Qed.
End Diffusion.
