(** Maps that are affine in the solution (C81). *)
From Coq Require Import String List Arith Lia Bool Reals Lra.
From Verif Require Import Num Arr ArrFacts Fe Problem BatchFacts SpecAssembly AssemblyFacts ProblemFacts ResidualFacts DerivFacts FeFacts
  SolverBc SpecBc BcFacts BcMain SpecWeak KernelFacts SpecEnergy EnergyFacts ElasticFacts ElasticMain LinAlg SpecWave SpecLift LiftFacts XNum NewtonFacts SpecLinear LinearFacts LinearElastic SpecPosed PosedFacts.
Import ListNotations.
Local Open Scope R_scope.

Section Affine.
  Let KR : ring_laws Rops := Rops_ring.
  Context {V : Type}.
  Variables (p : problem Rops V) (f : fe Rops) (P : list (list Rops)) (D : tangents).
  Hypothesis WF : wf_problem p.
  Hypothesis NC : (0 < p_num_cells p)%nat.
  Hypothesis STD : standard_problem p f.
  Hypothesis IVS : ivs_ok p.
  Hypothesis MAPS : maps_ok (vec f) (dim f) (maps p).
  Hypothesis AM : affine_maps p f P D.
  Local Notation N := (length (points f)).

  Lemma one_shape x : sol_ok p [x] <-> shaped N (vec f) x.
  Proof.
    unfold sol_ok, fe_of. rewrite (fes_f p f STD). cbn. split.
    - intros [_ H]. apply (H 0%nat). lia.
    - intros H. split; [reflexivity|]. intros v Hv. assert (v = 0)%nat as -> by lia. exact H.
  Qed.
  Definition ares (x : list (list Rops)) : list (list Rops) := match compute_residual sqrt p [P] [x] with Ok [r] => r | _ => [] end.
  Lemma ares_ok x : sol_ok p [x] -> compute_residual sqrt p [P] [x] = Ok [ares x].
  Proof.
    intros SX. destruct (residual_weak KR sqrt p f P x WF NC STD SX IVS MAPS) as (r & E & _). unfold ares. now rewrite E.
  Qed.
  Lemma dot2_line m d (A B C : nat -> nat -> Rops) (t : R) (A' : nat -> nat -> Rops) : (forall k j, (k < m)%nat -> (j < d)%nat -> A' k j = A k j + t * B k j) ->
    dot2 (K := Rops) m d A' C = dot2 (K := Rops) m d A C + t * dot2 (K := Rops) m d B C.
  Proof.
    intros H. unfold dot2. rewrite <- Rsum_mul, <- Rsum_plus. apply Rsum_ext. intros k Hk. rewrite <- Rsum_mul, <- Rsum_plus. apply Rsum_ext. intros j Hj.
    rewrite H by auto. cbn; req; ring.
  Qed.
  Lemma dot1_line m (A B C : nat -> Rops) (t : R) (A' : nat -> Rops) : (forall k, (k < m)%nat -> A' k = A k + t * B k) ->
    dot1 (K := Rops) m A' C = dot1 (K := Rops) m A C + t * dot1 (K := Rops) m B C.
  Proof.
    intros H. unfold dot1. rewrite <- Rsum_mul, <- Rsum_plus. apply Rsum_ext. intros k Hk. rewrite H by auto. cbn; req; ring.
  Qed.
  Lemma over_cells_line (g h g' : nat -> nat -> R) t : (forall c q, (c < p_num_cells p)%nat -> (q < num_quads f)%nat -> g' c q = g c q + t * h c q) ->
    over_cells (K := Rops) p f P g' = over_cells (K := Rops) p f P g + t * over_cells (K := Rops) p f P h.
  Proof.
    intros H. unfold over_cells. rewrite <- Rsum_mul, <- Rsum_plus. apply Rsum_ext. intros c Hc. rewrite <- Rsum_mul, <- Rsum_plus. apply Rsum_ext. intros q Hq.
    rewrite H by auto. cbn; req; ring.
  Qed.
  Lemma over_faces_line (g h g' : nat -> nat -> nat -> nat -> nat -> R) t :
    (forall s e q, (s < length (boundary_inds_list p))%nat -> (e < num_sel_faces p s)%nat -> (q < num_face_quads f)%nat ->
       let c := fst (nth e (nth s (boundary_inds_list p) []) (0%nat, 0%nat)) in
       let fc := snd (nth e (nth s (boundary_inds_list p) []) (0%nat, 0%nat)) in
       g' s e c fc q = g s e c fc q + t * h s e c fc q) ->
    over_faces (K := Rops) sqrt p f P g' = over_faces (K := Rops) sqrt p f P g + t * over_faces (K := Rops) sqrt p f P h.
  Proof.
    intros H. unfold over_faces. rewrite <- Rsum_mul, <- Rsum_plus. apply Rsum_ext. intros s Hs. rewrite <- Rsum_mul, <- Rsum_plus. apply Rsum_ext. intros e He.
    cbv zeta. rewrite <- Rsum_mul, <- Rsum_plus. apply Rsum_ext. intros q Hq. rewrite H by auto. cbn; req; ring.
  Qed.
  Lemma work_line x v w t : sol_ok p [x] -> sol_ok p [v] -> sol_ok p [w] ->
    work (K := Rops) N (vec f) w (ares (along (K := Rops) x v t)) = work (K := Rops) N (vec f) w (ares x) + t * tangent_form sqrt p f P D v w.
  Proof.
    intros SX SV SW. pose proof (along_ok p x SX v t SV) as SA.
    rewrite (any_work KR sqrt p f P _ WF NC STD SA IVS MAPS w _ SW (ares_ok _ SA)).
    rewrite (any_work KR sqrt p f P _ WF NC STD SX IVS MAPS w _ SW (ares_ok _ SX)).
    destruct (AM x v t SX SV) as (A1 & A2 & A3). unfold tangent_form.
    match goal with |- _ = add (over_cells _ _ _ ?g) (over_faces _ _ _ _ ?g2) + _ * (over_cells _ _ _ ?h + over_faces _ _ _ _ ?h2) =>
      rewrite (over_cells_line g h _ t), (over_faces_line g2 h2 _ t) end.
    - cbn; req; ring.
    - intros s e q Hs He Hq c fc. apply dot1_line. intros k Hk. apply A3; auto.
    - intros c q Hc Hq. cbn [add Rops]. rewrite (dot2_line _ _ (stress p f P x c q) (t_stress D c q (sol_to_grad P f v c q)) _ t) by (intros; now apply A1).
      rewrite (dot1_line _ (source p f P x c q) (t_source D c q (convert_from_dof_to_quad f v c q)) _ t) by (intros; now apply A2). cbn; req; ring.
  Qed.
  Lemma ares_entry x n k : (n < N)%nat -> (k < vec f)%nat ->
    get2 (@zero Rops) (ares x) n k = work (K := Rops) N (vec f) (fld N (vec f) (unit_at (n * vec f + k))) (ares x).
  Proof.
    intros Hn Hk. assert (Hg : (n * vec f + k < N * vec f)%nat) by nia.
    rewrite work_unit by auto. f_equal; [rewrite Nat.div_add_l, Nat.div_small by lia; lia|].
    rewrite Nat.add_comm, Nat.mod_add by lia. symmetry. now apply Nat.mod_small.
  Qed.
  Lemma std_global : global_shapes p = [(N, vec f)].
  Proof. unfold global_shapes. now rewrite (fes_f p f STD). Qed.
  Theorem affine_from_maps : affine_residual p [P].
  Proof.
    intros sol dsol t r0 r1 r SX SD E0 E1 E g.
    destruct (sol_one p f STD sol SX) as (x & -> & HX). destruct (sol_one p f STD dsol SD) as (d & -> & HD).
    change (line3 [x] [d] 1) with [along (K := Rops) x d 1] in E1. change (line3 [x] [d] t) with [along (K := Rops) x d t] in E.
    assert (OK : forall s, sol_ok p [along (K := Rops) x d s]) by (intros; apply along_ok; auto).
    rewrite ares_ok in E0, E1, E by auto. injection E0 as <-. injection E1 as <-. injection E as <-.
    assert (SH : forall y, sol_ok p [y] -> has_shapes (global_shapes p) [ares y]).
    { intros y SY. pose proof (residual_shapes sqrt p [P] [y] (std_kf p) WF NC SY (std_kernels p f STD)) as S.
      pose proof (compute_residual_ok sqrt p [P] [y] (std_kf p) WF NC SY IVS (std_kernels p f STD)) as E.
      rewrite ares_ok in E by auto. injection E as E. exact (eq_ind_r (has_shapes (global_shapes p)) S E). }
    assert (LN : forall y, sol_ok p [y] -> length (ravel [ares y]) = all_dofs (global_shapes p)) by (intros y SY; rewrite AssemblyFacts.all_dofs_total; now apply ravel_length, SH).
    destruct (Nat.lt_ge_cases g (all_dofs (global_shapes p))) as [Hg|Hg].
    - destruct (dof_number_surj _ _ Hg) as (v & k & j & Hv & <-).
      rewrite !(nth_ravel_dof (@zero Rops) (global_shapes p)) by auto.
      pose proof Hv as (Hv1 & Hv2 & Hv3). rewrite std_global in Hv1, Hv2, Hv3. cbn in Hv1. assert (v = 0)%nat as -> by lia. cbn in Hv2, Hv3. cbn [nth].
      rewrite !ares_entry by auto. rewrite !work_line by (auto; apply one_shape, fld_shaped). Req. ring.
    - rewrite !nth_overflow by (rewrite LN; auto). cbn. Req. ring.
  Qed.
  Theorem definite_free : definite p f P D -> no_free_change p [P].
  Proof.
    intros DEF sol dsol rx ry SX SD EX EY H.
    destruct (sol_one p f STD sol SX) as (x & -> & HX). destruct (sol_one p f STD dsol SD) as (d & -> & HD).
    change (line3 [x] [d] 1) with [along (K := Rops) x d 1] in EY.
    rewrite ares_ok in EX by auto. rewrite ares_ok in EY by (now apply along_ok). injection EX as <-. injection EY as <-.
    unfold fe_of in *. rewrite (fes_f p f STD) in *. cbn [length] in *.
    assert (HZ : held_zero f d) by (intros n k b Hn Hk Q; specialize (H 0%nat n k); cbn [nth] in H; specialize (H ltac:(lia) Hn Hk); now rewrite Q in H).
    assert (Z : tangent_form sqrt p f P D d d = 0).
    { pose proof (work_line x d d 1 SX SD SD) as W.
      assert (EQ : work (K := Rops) N (vec f) d (ares (along (K := Rops) x d 1)) = work (K := Rops) N (vec f) d (ares x)).
      { unfold work. apply Rsum_ext. intros n Hn. apply Rsum_ext. intros k Hk. specialize (H 0%nat n k). cbn [nth] in H. specialize (H ltac:(lia) Hn Hk).
        destruct (prescribed f n k) eqn:Q; rewrite H; cbn; req; ring. }
      rewrite EQ in W. cbn in W. lra. }
    intros v n j Hv Hn Hj. assert (v = 0)%nat as -> by lia. cbn [nth] in *. apply DEF; auto.
  Qed.
  Lemma std_solves x : solves p [P] [x] <-> solved sqrt p f P x.
  Proof.
    unfold solves, solved. split.
    - intros (SO & res & E & H). split; auto. rewrite (ares_ok x SO) in E. injection E as <-.
      unfold fe_of in H. rewrite (fes_f p f STD) in H. cbn [length nth] in H. split.
      + intros n k b Hn Hk Q. specialize (H 0%nat n k). cbn [nth] in H. specialize (H ltac:(lia) Hn Hk). now rewrite Q in H.
      + exists (ares x). split; [now apply ares_ok|].
        intros n k Hn Hk Q. specialize (H 0%nat n k). cbn [nth] in H. specialize (H ltac:(lia) Hn Hk). now rewrite Q in H.
    - intros (SO & HP & r & E & H). split; auto. exists [r]. split; auto. unfold fe_of. rewrite (fes_f p f STD). cbn [length].
      intros v n j Hv Hn Hj. assert (v = 0)%nat as -> by lia. cbn [nth] in *.
      destruct (prescribed f n j) as [b|] eqn:Q; auto.
  Qed.
End Affine.
