(** Linear problems with two variables (C82, C83): weak form of a solution, affine residual, unnoticed changes. *)
From Coq Require Import String List Arith Lia Bool Reals Lra.
From Verif Require Import Num Arr ArrFacts Fe Problem BatchFacts SpecAssembly AssemblyFacts ProblemFacts ResidualFacts DerivFacts FeFacts
  SolverBc SpecBc BcFacts BcMain SpecWeak KernelFacts SpecEnergy EnergyFacts ElasticFacts LinAlg LiftFacts XNum NewtonFacts SpecLinear LinearFacts SpecPosed PosedFacts
  SpecCoupled CoupledFacts.
Import ListNotations.
Local Open Scope R_scope.

Lemma dot2_lin m d (A B C A' : nat -> nat -> Rops) (t : R) : (forall k j, (k < m)%nat -> (j < d)%nat -> A' k j = A k j + t * B k j) ->
  dot2 (K := Rops) m d A' C = dot2 (K := Rops) m d A C + t * dot2 (K := Rops) m d B C.
Proof.
  intros H. unfold dot2. rewrite <- Rsum_mul, <- Rsum_plus. apply Rsum_ext. intros k Hk. rewrite <- Rsum_mul, <- Rsum_plus. apply Rsum_ext. intros j Hj.
  rewrite H by auto. cbn; req; ring.
Qed.
Lemma dot1_lin m (A B C A' : nat -> Rops) (t : R) : (forall k, (k < m)%nat -> A' k = A k + t * B k) ->
  dot1 (K := Rops) m A' C = dot1 (K := Rops) m A C + t * dot1 (K := Rops) m B C.
Proof.
  intros H. unfold dot1. rewrite <- Rsum_mul, <- Rsum_plus. apply Rsum_ext. intros k Hk. rewrite H by auto. cbn; req; ring.
Qed.
Lemma dot2_lin_r m d (A B C A' : nat -> nat -> Rops) (t : R) : (forall k j, (k < m)%nat -> (j < d)%nat -> A' k j = A k j + t * B k j) ->
  dot2 (K := Rops) m d C A' = dot2 (K := Rops) m d C A + t * dot2 (K := Rops) m d C B.
Proof.
  intros H. unfold dot2. rewrite <- Rsum_mul, <- Rsum_plus. apply Rsum_ext. intros k Hk. rewrite <- Rsum_mul, <- Rsum_plus. apply Rsum_ext. intros j Hj.
  rewrite H by auto. cbn; req; ring.
Qed.
Lemma dot1_lin_r m (A B C A' : nat -> Rops) (t : R) : (forall k, (k < m)%nat -> A' k = A k + t * B k) ->
  dot1 (K := Rops) m C A' = dot1 (K := Rops) m C A + t * dot1 (K := Rops) m C B.
Proof.
  intros H. unfold dot1. rewrite <- Rsum_mul, <- Rsum_plus. apply Rsum_ext. intros k Hk. rewrite H by auto. cbn; req; ring.
Qed.
Lemma over_lin {V} (p : problem Rops V) f P (g h g' : nat -> nat -> R) t : (forall c q, (c < p_num_cells p)%nat -> (q < num_quads f)%nat -> g' c q = g c q + t * h c q) ->
  over_cells (K := Rops) p f P g' = over_cells (K := Rops) p f P g + t * over_cells (K := Rops) p f P h.
Proof.
  intros H. unfold over_cells. rewrite <- Rsum_mul, <- Rsum_plus. apply Rsum_ext. intros c Hc. rewrite <- Rsum_mul, <- Rsum_plus. apply Rsum_ext. intros q Hq.
  rewrite H by auto. cbn; req; ring.
Qed.
Lemma work_line_r N m (v r r' : list (list Rops)) : (forall n k, (n < N)%nat -> (k < m)%nat -> get2 (@zero Rops) v n k = 0 \/ get2 (@zero Rops) r n k = get2 (@zero Rops) r' n k) ->
  work (K := Rops) N m v r = work (K := Rops) N m v r'.
Proof.
  intros H. unfold work. apply Rsum_ext. intros n Hn. apply Rsum_ext. intros k Hk. destruct (H n k Hn Hk) as [-> | ->]; cbn; req; ring.
Qed.
Lemma entry_work N m (r : list (list Rops)) n k : (n < N)%nat -> (k < m)%nat ->
  get2 (@zero Rops) r n k = work (K := Rops) N m (fld N m (unit_at (n * m + k))) r.
Proof.
  intros Hn Hk. assert (Hg : (n * m + k < N * m)%nat) by nia.
  rewrite work_unit by auto. f_equal; [rewrite Nat.div_add_l, Nat.div_small by lia; lia|].
  rewrite Nat.add_comm, Nat.mod_add by lia. symmetry. now apply Nat.mod_small.
Qed.
Definition nil_field N m : list (list Rops) := fld N m (fun _ => 0).
Lemma nil_get N m n k : (n < N)%nat -> (k < m)%nat -> get2 (@zero Rops) (nil_field N m) n k = 0.
Proof. intros. unfold nil_field. now rewrite fld_get. Qed.
Lemma nil_work N m r : work (K := Rops) N m (nil_field N m) r = 0.
Proof. apply work_zero. intros n k Hn Hk. left. now apply nil_get. Qed.
Lemma unit_held (f : fe Rops) n k : (n < length (points f))%nat -> (k < vec f)%nat -> prescribed f n k = None ->
  held_zero f (fld (length (points f)) (vec f) (unit_at (n * vec f + k))).
Proof.
  intros Hn Hk PN n' k' b Hn' Hk' PS. rewrite fld_get by auto. unfold unit_at. destruct (Nat.eqb_spec (n * vec f + k) (n' * vec f + k')); [|reflexivity].
  exfalso. assert (n = n' /\ k = k') as [-> ->] by (apply (Nat.div_mod_unique (vec f)); lia). congruence.
Qed.

Section Linear.
  Let KR : ring_laws Rops := Rops_ring.
  Context {V : Type}.
  Variables (p : problem Rops V) (f0 f1 : fe Rops) (F T : coupled_form (K := Rops) (V := V)) (P0 P1 : list (list Rops)).
  Hypothesis CP : coupled_problem p f0 f1 F.
  Hypothesis WF : wf_problem p.
  Hypothesis NC : (0 < p_num_cells p)%nat.
  Hypothesis FO : form_ok (vec f0) (dim f0) (vec f1) (dim f1) F.
  Hypothesis IVS : forall iv, In iv (internal_vars p) -> length iv = p_num_cells p.
  Local Notation N0 := (length (points f0)).
  Local Notation N1 := (length (points f1)).
  Local Notation wk v z r0 r1 := (work (K := Rops) N0 (vec f0) v r0 + work (K := Rops) N1 (vec f1) z r1).
  Local Notation zr := (@zero Rops).

  Lemma c_res u w : sol_ok p [u; w] -> exists r0 r1, compute_residual sqrt p [P0; P1] [u; w] = Ok [r0; r1].
  Proof. intros S. destruct (coupled_residual KR sqrt p f0 f1 F P0 P1 CP WF NC FO IVS u w S) as (r0 & r1 & E & _). eauto. Qed.
  Lemma c_weak u w v z r0 r1 : sol_ok p [u; w] -> sol_ok p [v; z] -> compute_residual sqrt p [P0; P1] [u; w] = Ok [r0; r1] ->
    wk v z r0 r1 = coupled_work (K := Rops) p f0 f1 P0 P1 F u w v z.
  Proof. intros S S' E. exact (coupled_weak KR sqrt p f0 f1 F P0 P1 CP WF NC FO IVS u w S v z r0 r1 S' E). Qed.
  Lemma c_fields u w : sol_ok p [u; w] <-> shaped N0 (vec f0) u /\ shaped N1 (vec f1) w.
  Proof.
    split.
    - intros S. destruct (cp_sol p f0 f1 F CP NC [u; w] S) as (u' & w' & E & H). injection E as <- <-. exact H.
    - intros [A B]. exact (cp_sol_ok p f0 f1 F CP NC u w A B).
  Qed.
  Lemma c_unit0 n k : sol_ok p [fld N0 (vec f0) (unit_at (n * vec f0 + k)); nil_field N1 (vec f1)].
  Proof. apply c_fields. split; apply fld_shaped. Qed.
  Lemma c_unit1 n k : sol_ok p [nil_field N0 (vec f0); fld N1 (vec f1) (unit_at (n * vec f1 + k))].
  Proof. apply c_fields. split; apply fld_shaped. Qed.
  (** the quantification over the dofs, variable by variable *)
  Lemma c_dofs (Q : nat -> nat -> nat -> Prop) :
    (forall v n j, (v < length (fes p))%nat -> (n < length (points (fe_of p v)))%nat -> (j < vec (fe_of p v))%nat -> Q v n j) <->
    (forall n j, (n < N0)%nat -> (j < vec f0)%nat -> Q 0%nat n j) /\ (forall n j, (n < N1)%nat -> (j < vec f1)%nat -> Q 1%nat n j).
  Proof.
    pose proof (cp_len p f0 f1 F CP) as L. pose proof (cp_fe p f0 f1 F CP NC 0 ltac:(lia)) as E0. pose proof (cp_fe p f0 f1 F CP NC 1 ltac:(lia)) as E1. cbn in E0, E1. split.
    - intros H. split; intros n j; [specialize (H 0%nat n j)|specialize (H 1%nat n j)]; rewrite ?E0, ?E1 in H; intros; apply H; auto; lia.
    - intros [H0 H1] v n j Hv. rewrite L in Hv. destruct v as [|[|v]]; [rewrite E0; auto|rewrite E1; auto|lia].
  Qed.
  Theorem solves_weak u w : solves p [P0; P1] [u; w] <->
    sol_ok p [u; w] /\
    (forall n k b, (n < N0)%nat -> (k < vec f0)%nat -> prescribed f0 n k = Some b -> get2 zr u n k = b) /\
    (forall n k b, (n < N1)%nat -> (k < vec f1)%nat -> prescribed f1 n k = Some b -> get2 zr w n k = b) /\
    (forall v z, sol_ok p [v; z] -> held_zero f0 v -> held_zero f1 z -> coupled_work (K := Rops) p f0 f1 P0 P1 F u w v z = 0).
  Proof.
    pose proof (cp_fe p f0 f1 F CP NC 0 ltac:(lia)) as E0. pose proof (cp_fe p f0 f1 F CP NC 1 ltac:(lia)) as E1. cbn in E0, E1.
    split.
    - intros (SO & res & ER & H). pose proof (proj1 (c_dofs _) H) as [H0 H1]. clear H. cbv beta in H0, H1. rewrite E0 in H0. rewrite E1 in H1.
      destruct (c_res u w SO) as (r0 & r1 & ER'). rewrite ER in ER'. injection ER' as ->. cbn [nth] in H0, H1.
      split; [exact SO|split; [|split]].
      + intros n k b Hn Hk PS. specialize (H0 n k Hn Hk). now rewrite PS in H0.
      + intros n k b Hn Hk PS. specialize (H1 n k Hn Hk). now rewrite PS in H1.
      + intros v z SV Z0 Z1. rewrite <- (c_weak u w v z r0 r1 SO SV ER). rewrite !work_zero; [lra| |].
        * intros n k Hn Hk. specialize (H1 n k Hn Hk). destruct (prescribed f1 n k) eqn:PS; [left; eapply Z1; eauto|now right].
        * intros n k Hn Hk. specialize (H0 n k Hn Hk). destruct (prescribed f0 n k) eqn:PS; [left; eapply Z0; eauto|now right].
    - intros (SO & H0 & H1 & HW). split; [exact SO|]. destruct (c_res u w SO) as (r0 & r1 & ER). exists [r0; r1]. split; [exact ER|]. apply c_dofs. rewrite E0, E1. cbn [nth]. split; intros n j Hn Hj.
      + destruct (prescribed f0 n j) as [b|] eqn:PS; [now apply H0|]. rewrite (entry_work N0 (vec f0) r0 n j Hn Hj).
        pose proof (c_weak u w _ _ r0 r1 SO (c_unit0 n j) ER) as W. rewrite nil_work in W. rewrite HW in W; [lra|apply c_unit0|now apply unit_held|].
        intros a b c Ha Hb _. now apply nil_get.
      + destruct (prescribed f1 n j) as [b|] eqn:PS; [now apply H1|]. rewrite (entry_work N1 (vec f1) r1 n j Hn Hj).
        pose proof (c_weak u w _ _ r0 r1 SO (c_unit1 n j) ER) as W. rewrite nil_work in W. rewrite HW in W; [lra|apply c_unit1| |now apply unit_held].
        intros a b c Ha Hb _. now apply nil_get.
  Qed.

  Hypothesis FA : form_affine (vec f0) (dim f0) (vec f1) (dim f1) F T.
  Lemma coupled_work_line u w du dw v z t : sol_ok p [u; w] -> sol_ok p [du; dw] -> sol_ok p [v; z] ->
    coupled_work (K := Rops) p f0 f1 P0 P1 F (along (K := Rops) u du t) (along (K := Rops) w dw t) v z
    = coupled_work (K := Rops) p f0 f1 P0 P1 F u w v z + t * coupled_work (K := Rops) p f0 f1 P0 P1 T du dw v z.
  Proof.
    intros SU SD SV. unfold coupled_work.
    match goal with |- add ?x ?y = add (over_cells _ _ _ ?g) (over_cells _ _ _ ?g2) + _ * add (over_cells _ _ _ ?h) (over_cells _ _ _ ?h2) =>
      rewrite (over_lin p f0 P0 g h _ t), (over_lin p f1 P1 g2 h2 _ t) end.
    - cbn; req; ring.
    - intros c q Hc Hq. destruct (FO _ _ (state_along KR p f0 f1 F P0 P1 CP WF NC u w du dw t c q SU SD Hc)) as (_ & _ & A1 & A2).
      destruct (FA (state_at p f0 f1 P0 P1 u w c q) (state_at p f0 f1 P0 P1 du dw c q) t eq_refl) as (_ & _ & B1 & B2).
      cbn [add Rops]. rewrite (dot2_lin _ _ (flux1 F (state_at p f0 f1 P0 P1 u w c q)) (flux1 T (state_at p f0 f1 P0 P1 du dw c q)) _ _ t)
        by (intros k j Hk Hj; rewrite A1 by auto; now apply B1).
      rewrite (dot1_lin _ (source1 F (state_at p f0 f1 P0 P1 u w c q)) (source1 T (state_at p f0 f1 P0 P1 du dw c q)) _ _ t)
        by (intros k Hk; rewrite A2 by auto; now apply B2). cbn; req; ring.
    - intros c q Hc Hq. destruct (FO _ _ (state_along KR p f0 f1 F P0 P1 CP WF NC u w du dw t c q SU SD Hc)) as (A1 & A2 & _).
      destruct (FA (state_at p f0 f1 P0 P1 u w c q) (state_at p f0 f1 P0 P1 du dw c q) t eq_refl) as (B1 & B2 & _).
      cbn [add Rops]. rewrite (dot2_lin _ _ (flux0 F (state_at p f0 f1 P0 P1 u w c q)) (flux0 T (state_at p f0 f1 P0 P1 du dw c q)) _ _ t)
        by (intros k j Hk Hj; rewrite A1 by auto; now apply B1).
      rewrite (dot1_lin _ (source0 F (state_at p f0 f1 P0 P1 u w c q)) (source0 T (state_at p f0 f1 P0 P1 du dw c q)) _ _ t)
        by (intros k Hk; rewrite A2 by auto; now apply B2). cbn; req; ring.
  Qed.
  Lemma c_change u w du dw v z t r0 r1 s0 s1 : sol_ok p [u; w] -> sol_ok p [du; dw] -> sol_ok p [v; z] ->
    compute_residual sqrt p [P0; P1] [u; w] = Ok [r0; r1] -> compute_residual sqrt p [P0; P1] (line3 (K := Rops) [u; w] [du; dw] t) = Ok [s0; s1] ->
    wk v z s0 s1 = wk v z r0 r1 + t * coupled_work (K := Rops) p f0 f1 P0 P1 T du dw v z.
  Proof.
    intros SU SD SV E E'. rewrite (c_weak u w v z r0 r1 SU SV E).
    assert (SA : sol_ok p [along (K := Rops) u du t; along (K := Rops) w dw t]) by (exact (cp_line_ok p u w du dw t SU SD)).
    rewrite (c_weak _ _ v z s0 s1 SA SV E'). now apply coupled_work_line.
  Qed.
  Lemma c_change0 u w du dw t r0 r1 s0 s1 n k : sol_ok p [u; w] -> sol_ok p [du; dw] ->
    compute_residual sqrt p [P0; P1] [u; w] = Ok [r0; r1] -> compute_residual sqrt p [P0; P1] (line3 (K := Rops) [u; w] [du; dw] t) = Ok [s0; s1] ->
    (n < N0)%nat -> (k < vec f0)%nat ->
    get2 zr s0 n k = get2 zr r0 n k + t * coupled_work (K := Rops) p f0 f1 P0 P1 T du dw (fld N0 (vec f0) (unit_at (n * vec f0 + k))) (nil_field N1 (vec f1)).
  Proof.
    intros SU SD E E' Hn Hk. rewrite (entry_work N0 (vec f0) s0 n k Hn Hk), (entry_work N0 (vec f0) r0 n k Hn Hk).
    pose proof (c_change u w du dw _ _ t r0 r1 s0 s1 SU SD (c_unit0 n k) E E') as W. rewrite !nil_work in W. lra.
  Qed.
  Lemma c_change1 u w du dw t r0 r1 s0 s1 n k : sol_ok p [u; w] -> sol_ok p [du; dw] ->
    compute_residual sqrt p [P0; P1] [u; w] = Ok [r0; r1] -> compute_residual sqrt p [P0; P1] (line3 (K := Rops) [u; w] [du; dw] t) = Ok [s0; s1] ->
    (n < N1)%nat -> (k < vec f1)%nat ->
    get2 zr s1 n k = get2 zr r1 n k + t * coupled_work (K := Rops) p f0 f1 P0 P1 T du dw (nil_field N0 (vec f0)) (fld N1 (vec f1) (unit_at (n * vec f1 + k))).
  Proof.
    intros SU SD E E' Hn Hk. rewrite (entry_work N1 (vec f1) s1 n k Hn Hk), (entry_work N1 (vec f1) r1 n k Hn Hk).
    pose proof (c_change u w du dw _ _ t r0 r1 s0 s1 SU SD (c_unit1 n k) E E') as W. rewrite !nil_work in W. lra.
  Qed.
  Lemma line_pair (u w du dw : list (list Rops)) (t : R) : line3 (K := Rops) [u; w] [du; dw] t = [along (K := Rops) u du t; along (K := Rops) w dw t].
  Proof. reflexivity. Qed.
  Theorem coupled_affine : affine_residual p [P0; P1].
  Proof.
    intros x d t r r1 rt SX SD E E1 Et g.
    destruct (cp_sol p f0 f1 F CP NC x SX) as (u & w & -> & _). destruct (cp_sol p f0 f1 F CP NC d SD) as (du & dw & -> & _).
    assert (SA : forall t, sol_ok p [along (K := Rops) u du t; along (K := Rops) w dw t]) by (intros; exact (cp_line_ok p u w du dw t0 SX SD)).
    destruct (coupled_residual KR sqrt p f0 f1 F P0 P1 CP WF NC FO IVS _ _ SX) as (a0 & a1 & Ea & Sa & _). rewrite E in Ea. injection Ea as ->.
    destruct (coupled_residual KR sqrt p f0 f1 F P0 P1 CP WF NC FO IVS _ _ (SA 1)) as (b0 & b1 & Eb & Sb & _). pose proof (eq_trans (eq_sym E1) Eb) as Q. injection Q as ->.
    destruct (coupled_residual KR sqrt p f0 f1 F P0 P1 CP WF NC FO IVS _ _ (SA t)) as (c0 & c1 & Ec & Sc & _). pose proof (eq_trans (eq_sym Et) Ec) as Q. injection Q as ->.
    destruct (Nat.lt_ge_cases g (all_dofs (global_shapes p))) as [Hg|Hg].
    - destruct (dof_number_surj _ _ Hg) as (v & n & j & VD & <-).
      pose proof (nth_ravel_dof (@zero Rops) _ _ v n j (sol_shapes_ok p _ Sc) VD) as Qc. pose proof (nth_ravel_dof (@zero Rops) _ _ v n j (sol_shapes_ok p _ Sb) VD) as Qb.
      pose proof (nth_ravel_dof (@zero Rops) _ _ v n j (sol_shapes_ok p _ Sa) VD) as Qa. refine (eq_trans Qc (eq_trans _ (f_equal2 (fun x y : R => (1 - t) * x + t * y) (eq_sym Qa) (eq_sym Qb)))).
      destruct VD as (Hv & Hn & Hj). rewrite (cp_global p f0 f1 F CP) in Hv, Hn, Hj. destruct v as [|[|v]]; cbn [nth fst snd] in *; [| |cbn in Hv; lia].
      + rewrite (c_change0 u w du dw t a0 a1 c0 c1 n j SX SD E Et Hn Hj), (c_change0 u w du dw 1 a0 a1 b0 b1 n j SX SD E E1 Hn Hj). cbn; req; ring.
      + rewrite (c_change1 u w du dw t a0 a1 c0 c1 n j SX SD E Et Hn Hj), (c_change1 u w du dw 1 a0 a1 b0 b1 n j SX SD E E1 Hn Hj). cbn; req; ring.
    - assert (OV : forall y, sol_ok p y -> nth g (ravel y) zr = zr).
      { intros y SY. apply nth_overflow. pose proof (ravel_length _ _ (sol_shapes_ok p y SY)) as RL. rewrite all_dofs_total in Hg. lia. }
      rewrite !OV by auto. cbn; req; ring.
  Qed.
  (** A change that goes unnoticed is orthogonal to every test field. *)
  Definition unnoticed (du dw : list (list Rops)) : Prop :=
    held_zero f0 du /\ held_zero f1 dw /\
    forall v z, sol_ok p [v; z] -> held_zero f0 v -> held_zero f1 z -> coupled_work (K := Rops) p f0 f1 P0 P1 T du dw v z = 0.
  Theorem coupled_no_free :
    (forall du dw, sol_ok p [du; dw] -> unnoticed du dw ->
       (forall n k, (n < N0)%nat -> (k < vec f0)%nat -> get2 zr du n k = 0) /\ (forall n k, (n < N1)%nat -> (k < vec f1)%nat -> get2 zr dw n k = 0)) ->
    no_free_change p [P0; P1].
  Proof.
    intros H x d rx ry SX SD EX EY HD.
    destruct (cp_sol p f0 f1 F CP NC x SX) as (u & w & -> & _). destruct (cp_sol p f0 f1 F CP NC d SD) as (du & dw & -> & _).
    destruct (c_res u w SX) as (r0 & r1 & Er). rewrite EX in Er. injection Er as ->.
    destruct (c_res _ _ (cp_line_ok p u w du dw 1 SX SD)) as (s0 & s1 & Es). pose proof (eq_trans (eq_sym EY) Es) as Q. injection Q as ->. clear Es.
    apply c_dofs. cbn [nth]. apply H; [exact SD|].
    pose proof (cp_fe p f0 f1 F CP NC 0 ltac:(lia)) as E0. pose proof (cp_fe p f0 f1 F CP NC 1 ltac:(lia)) as E1. cbn in E0, E1.
    pose proof (proj1 (c_dofs _) HD) as [H0 H1]. cbv beta in H0, H1. rewrite E0 in H0. rewrite E1 in H1. cbn [nth] in H0, H1.
    split; [|split].
    - intros n k b Hn Hk PS. specialize (H0 n k Hn Hk). now rewrite PS in H0.
    - intros n k b Hn Hk PS. specialize (H1 n k Hn Hk). now rewrite PS in H1.
    - intros v z SV Z0 Z1. pose proof (c_change u w du dw v z 1 r0 r1 s0 s1 SX SD SV EX EY) as W.
      rewrite (work_line_r N0 (vec f0) v s0 r0), (work_line_r N1 (vec f1) z s1 r1) in W; [lra| |].
      + intros n k Hn Hk. specialize (H1 n k Hn Hk). destruct (prescribed f1 n k) eqn:PS; [left; eapply Z1; eauto|now right].
      + intros n k Hn Hk. specialize (H0 n k Hn Hk). destruct (prescribed f0 n k) eqn:PS; [left; eapply Z0; eauto|now right].
  Qed.
  Theorem coupled_one_solution : bcs_ok p ->
    (forall du dw, sol_ok p [du; dw] -> unnoticed du dw ->
       (forall n k, (n < N0)%nat -> (k < vec f0)%nat -> get2 zr du n k = 0) /\ (forall n k, (n < N1)%nat -> (k < vec f1)%nat -> get2 zr dw n k = 0)) ->
    one_solution p [P0; P1].
  Proof.
    intros BC H. exact (one_from_free p [P0; P1] (cp_kf (K := Rops)) WF NC (cp_ivs p f0 f1 F CP IVS) (cp_kernels p f0 f1 F CP NC) BC coupled_affine (coupled_no_free H)).
  Qed.
End Linear.
