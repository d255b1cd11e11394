(** Proofs for C78: the time loop and the orientation of triangles. *)
From Coq Require Import String Reals List Arith Lia Lra Bool Permutation.
From Verif Require Import Num Arr ArrFacts Fe Problem SpecAssembly SpecBc ProblemFacts FeFacts AgreeFacts SpecWeak KernelFacts SpecEnergy EnergyFacts ElasticFacts
  UniversalFacts LinAlg Wave SpecWave WaveFacts.
Import ListNotations.

Section Loop.
  Context {K : ops}.
  Variables (c dt : K) (f : fe K) (solve : nat -> problem K (nat -> K) -> result (list (list K))).
  Lemma loop_ok n : forall i p w u h, wave_problem c dt p f -> time_loop solve n i p w u = Ok h ->
    List.length h = n /\
    forall j, (j < n)%nat -> let states := w :: u :: map snd h in
      fst (nth j h (p, [])) = stepped c dt f (nth j states []) (nth (S j) states []) /\
      solve (i + j)%nat (fst (nth j h (p, []))) = Ok (nth (S (S j)) states []).
  Proof.
    induction n as [|n IH]; intros i p w u h WP E; cbn [time_loop] in E.
    - injection E as <-. split; [reflexivity|]. intros j Hj. lia.
    - rewrite (set_params_ok c dt p f WP) in E. cbn [bind] in E.
      destruct (solve i (stepped c dt f w u)) as [sol|e] eqn:ES; [|discriminate]. cbn [bind] in E.
      destruct (time_loop solve n (S i) (stepped c dt f w u) u sol) as [rest|e] eqn:EL; [|discriminate]. injection E as <-.
      destruct (IH _ _ _ _ _ (stepped_wave c dt f w u) EL) as (L & H). split; [cbn; now rewrite L|].
      intros [|j] Hj.
      + cbn. rewrite Nat.add_0_r. auto.
      + specialize (H j ltac:(lia)). cbv zeta in H. cbv zeta. cbn [map snd nth].
        rewrite (nth_indep rest _ (stepped c dt f w u, [])) by lia. replace (i + S j)%nat with (S i + j)%nat by lia. exact H.
  Qed.
End Loop.

Section Run.
  Variables (sqrtK : Rops -> Rops) (c dt : R) (p : problem Rops (nat -> Rops)) (f : fe Rops) (P : list (list Rops)).
  Hypothesis WP : wave_problem (K := Rops) c dt p f.
  Hypothesis WF : wf_problem p.
  Hypothesis NC : (0 < p_num_cells p)%nat.
  Hypothesis JW : forall e q, (e < p_num_cells p)%nat -> (q < num_quads f)%nat -> (0 <= get_JxW P f e q)%R.
  Local Open Scope R_scope.

  Lemma square_nonneg m (a : nat -> R) : 0 <= dot1 (K := Rops) m a a.
  Proof. apply Rsum_nonneg. intros k Hk. cbn. nra. Qed.
  Lemma square2_nonneg m d (a : nat -> nat -> R) : 0 <= dot2 (K := Rops) m d a a.
  Proof. apply Rsum_nonneg. intros k Hk. apply Rsum_nonneg. intros j Hj. cbn. nra. Qed.
  Lemma loss_nonneg x u w : 0 <= wave_loss c dt p f P x u w.
  Proof.
    apply Rsum_nonneg. intros e He. apply Rsum_nonneg. intros q Hq. apply Rmult_le_pos; [|now apply JW].
    match goal with |- 0 <= / 2 * ?A + / 2 * ?B * ?C => assert (0 <= A) by apply square_nonneg; assert (0 <= C) by apply square2_nonneg; assert (0 <= B) by nra end.
    assert (0 <= (c * dt) ^ 2 * dot2 (K := Rops) (vec f) (dim f) (fun k j => sol_to_grad P f x e q k j - sol_to_grad P f u e q k j) (fun k j => sol_to_grad P f x e q k j - sol_to_grad P f u e q k j)) by now apply Rmult_le_pos.
    lra.
  Qed.
  Lemma energy_nonneg u w : 0 <= wave_energy c dt p f P u w.
  Proof.
    apply Rsum_nonneg. intros e He. apply Rsum_nonneg. intros q Hq. apply Rmult_le_pos; [|now apply JW].
    assert (0 <= dot1 (K := Rops) (vec f) (change f u w e q) (change f u w e q)) by apply square_nonneg.
    assert (0 <= (c * dt) ^ 2 * dot2 (K := Rops) (vec f) (dim f) (sol_to_grad P f u e q) (sol_to_grad P f u e q)).
    { apply Rmult_le_pos; [nra|apply square2_nonneg]. }
    lra.
  Qed.
  Lemma zeros_ok : vec f = 1%nat -> sol_ok p [zeros2 (@zero Rops) (List.length (points f)) 1].
  Proof.
    intros V1. split; [now rewrite (proj1 WP)|]. intros v Hv. rewrite (proj1 WP) in Hv. cbn in Hv. assert (v = 0)%nat as -> by lia.
    unfold fe_of. rewrite (proj1 WP). cbn [nth]. rewrite V1. unfold zeros2. split; [now rewrite repeat_length|].
    intros row Hr. apply repeat_spec in Hr. subst row. reflexivity.
  Qed.
  Theorem run_energy solve steps h : vec f = 1%nat ->
    wave_run (K := Rops) solve steps p (List.length (points f)) = Ok h ->
    (forall q x, In (q, x) h -> solved sqrtK q f P x) ->
    let z := zeros2 (@zero Rops) (List.length (points f)) 1 in
    let states := z :: z :: map snd h in
    (forall j, (S j < steps)%nat ->
       wave_energy c dt p f P (nth (3 + j) states []) (nth (2 + j) states []) +
       wave_loss c dt p f P (nth (3 + j) states []) (nth (2 + j) states []) (nth (1 + j) states [])
       = wave_energy c dt p f P (nth (2 + j) states []) (nth (1 + j) states [])) /\
    (forall j, (j < steps)%nat ->
       wave_energy c dt p f P (nth (2 + j) states []) (nth (1 + j) states []) <= wave_energy c dt p f P (nth 2 states []) (nth 1 states [])).
  Proof.
    intros V1 E H z states. unfold wave_run in E. destruct (loop_ok (K := Rops) c dt f solve steps 0 p _ _ h WP E) as (L & G). fold z states in G.
    assert (S2 : forall j, (j < steps)%nat -> solved sqrtK (fst (nth j h (p, []))) f P (nth (2 + j) states [])).
    { intros j Hj. apply H. assert (X : nth (2 + j) states [] = snd (nth j h (p, []))).
      { unfold states. cbn [nth Nat.add]. change ([] : list (list Rops)) with (snd (p, [] : list (list Rops))) at 1. apply map_nth. }
      rewrite X. rewrite <- surjective_pairing. apply nth_In. rewrite L. exact Hj. }
    assert (SO : forall j, (j < 2 + steps)%nat -> sol_ok p [nth j states []]).
    { intros [|[|j]] Hj; [exact (zeros_ok V1)|exact (zeros_ok V1)|]. destruct (S2 j ltac:(lia)) as (A & _). destruct (G j ltac:(lia)) as (B & _).
      rewrite B in A. apply (stepped_sol (K := Rops) c dt p f WP) in A. exact A. }
    assert (ST : forall j, (S j < steps)%nat ->
       wave_energy c dt p f P (nth (3 + j) states []) (nth (2 + j) states []) +
       wave_loss c dt p f P (nth (3 + j) states []) (nth (2 + j) states []) (nth (1 + j) states [])
       = wave_energy c dt p f P (nth (2 + j) states []) (nth (1 + j) states [])).
    { intros j Hj. apply (energy_step sqrtK c dt p f P WP WF NC); [apply SO; lia|apply SO; lia| |].
      - destruct (G (S j) Hj) as (B & _). pose proof (S2 (S j) Hj) as Q. rewrite B in Q. exact Q.
      - destruct (S2 j ltac:(lia)) as (_ & X & _). exact X. }
    split; [exact ST|]. induction j as [|j IH]; intros Hj; [apply Rle_refl|].
    eapply Rle_trans; [|apply IH; lia]. pose proof (ST j Hj). pose proof (loss_nonneg (nth (3 + j) states []) (nth (2 + j) states []) (nth (1 + j) states [])).
    change (2 + S j)%nat with (3 + j)%nat. change (1 + S j)%nat with (2 + j)%nat. lra.
  Qed.

  Theorem step_unique w u x y : c * dt <> 0 ->
    (forall e q, (e < p_num_cells p)%nat -> (q < num_quads f)%nat -> (0 < get_JxW P f e q)%R) ->
    solved sqrtK (stepped (K := Rops) c dt f w u) f P x -> solved sqrtK (stepped (K := Rops) c dt f w u) f P y ->
    forall e q k, (e < p_num_cells p)%nat -> (q < num_quads f)%nat -> (k < vec f)%nat ->
      convert_from_dof_to_quad f x e q k = convert_from_dof_to_quad f y e q k /\
      forall j, (j < dim f)%nat -> sol_to_grad P f x e q k j = sol_to_grad P f y e q k j.
  Proof.
    intros CD JP SX SY. assert (SX' := SX). assert (SY' := SY). destruct SX' as (OX & HX & rx & EX & _), SY' as (OY & HY & ry & EY & _).
    apply (stepped_sol (K := Rops) c dt p f WP) in OX. apply (stepped_sol (K := Rops) c dt p f WP) in OY.
    set (d := along (K := Rops) x y (-1)). assert (OD : sol_ok p [d]) by (apply minus_ok; auto).
    assert (HD : forall n k b, (n < List.length (points f))%nat -> (k < vec f)%nat -> prescribed f n k = Some b -> get2 (@zero Rops) d n k = 0).
    { intros n k b Hn Hk B. unfold d. rewrite (get_minus c dt p f WP) by auto. rewrite (HX n k b Hn Hk B), (HY n k b Hn Hk B). req; ring. }
    pose proof (wave_work Rops_ring sqrtK c dt p f P WP WF NC w u x d rx OX OD EX) as WX.
    pose proof (wave_work Rops_ring sqrtK c dt p f P WP WF NC w u y d ry OY OD EY) as WY.
    rewrite (no_work sqrtK f P _ x d rx SX EX HD) in WX. rewrite (no_work sqrtK f P _ y d ry SY EY HD) in WY.
    set (D := fun e q => (c * dt) ^ 2 * dot2 (K := Rops) (vec f) (dim f) (sol_to_grad P f d e q) (sol_to_grad P f d e q)
                        + dot1 (K := Rops) (vec f) (convert_from_dof_to_quad f d e q) (convert_from_dof_to_quad f d e q)).
    assert (Z : over_cells (K := Rops) p f P D = 0).
    { transitivity (over_cells (K := Rops) p f P D + 0); [symmetry; apply Rplus_0_r|]. rewrite WY at 1. rewrite WX. unfold over_cells.
      rewrite <- Rsum_plus. apply Rsum_ext. intros e He. rewrite <- Rsum_plus. apply Rsum_ext. intros q Hq.
      cbn [mul Rops]. rewrite <- Rmult_plus_distr_r. f_equal. unfold D, dot1, dot2. cbn [mul add sub one Rops].
      rewrite <- !Rsum_mul. repeat rewrite <- Rsum_plus. apply Rsum_ext. intros k Hk. rewrite <- !Rsum_mul.
      match goal with |- ?S1 + ?a + (?S2 + ?b) = ?S3 + ?d0 => enough (S1 + S2 = S3 /\ a + b = d0) as [? ?] by lra end. split.
      - rewrite <- Rsum_plus. apply Rsum_ext. intros j Hj. unfold d. rewrite (grad_minus c dt p f P WP WF NC) by auto. req; ring.
      - unfold d. rewrite (value_minus c dt p f WP WF NC) by auto. req; ring. }
    assert (DP : forall e q, 0 <= D e q).
    { intros e q. unfold D. apply Rplus_le_le_0_compat; [apply Rmult_le_pos; [nra|apply square2_nonneg]|apply square_nonneg]. }
    assert (DZ : forall e q, (e < p_num_cells p)%nat -> (q < num_quads f)%nat -> D e q = 0).
    { intros e q He Hq. unfold over_cells in Z.
      pose proof (Rsum_zero_all _ _ (fun e He => Rsum_nonneg _ _ (fun q Hq => Rmult_le_pos _ _ (DP e q) (JW e q He Hq))) Z e He) as Z1.
      pose proof (Rsum_zero_all _ _ (fun q Hq => Rmult_le_pos _ _ (DP e q) (JW e q He Hq)) Z1 q Hq) as Z2.
      apply Rmult_integral in Z2. destruct Z2 as [Z2|Z2]; [exact Z2|]. pose proof (JP e q He Hq). lra. }
    intros e q k He Hq Hk. specialize (DZ e q He Hq). unfold D in DZ.
    assert (C2 : 0 < (c * dt) ^ 2) by nra.
    pose proof (square2_nonneg (vec f) (dim f) (sol_to_grad P f d e q)) as N2. pose proof (square_nonneg (vec f) (convert_from_dof_to_quad f d e q)) as N1.
    assert (Z1 : dot1 (K := Rops) (vec f) (convert_from_dof_to_quad f d e q) (convert_from_dof_to_quad f d e q) = 0).
    { pose proof (Rmult_le_pos _ _ (Rlt_le _ _ C2) N2). lra. }
    assert (Z2 : dot2 (K := Rops) (vec f) (dim f) (sol_to_grad P f d e q) (sol_to_grad P f d e q) = 0).
    { rewrite Z1 in DZ. assert (X : (c * dt) ^ 2 * dot2 (K := Rops) (vec f) (dim f) (sol_to_grad P f d e q) (sol_to_grad P f d e q) = 0) by lra.
      apply Rmult_integral in X. destruct X; lra. }
    split.
    - unfold dot1 in Z1. pose proof (Rsum_zero_all _ _ (fun k _ => Rle_0_sqr _) Z1 k Hk) as Y. cbn in Y. apply Rmult_integral in Y.
      unfold d in Y. rewrite (value_minus c dt p f WP WF NC) in Y by auto. lra.
    - intros j Hj. unfold dot2 in Z2. pose proof (Rsum_zero_all _ _ (fun k _ => Rsum_nonneg _ _ (fun j _ => Rle_0_sqr _)) Z2 k Hk) as Y.
      pose proof (Rsum_zero_all _ _ (fun j _ => Rle_0_sqr _) Y j Hj) as Y'. cbn in Y'. apply Rmult_integral in Y'.
      unfold d in Y'. rewrite (grad_minus c dt p f P WP WF NC) in Y' by auto. lra.
  Qed.
End Run.

(** ** Triangles *)
Section Triangles.
  Local Open Scope R_scope.
  Variables (points : list (list R)) (s : string) (n : nat).
  Hypothesis KIND : (s = "TRI3"%string /\ n = 3%nat) \/ (s = "TRI6"%string /\ n = 6%nat).
  Hypothesis PTS : forall p, In p points -> (2 <= List.length p)%nat.

  Lemma corner_ok (cell : list nat) i : (i < List.length cell)%nat -> (forall m, In m cell -> (m < List.length points)%nat) ->
    corner points cell i = Some (nth 0 (nth (nth i cell 0%nat) points []) 0, nth 1 (nth (nth i cell 0%nat) points []) 0).
  Proof.
    intros Hi H. unfold corner. rewrite (nth_error_nth' cell 0%nat Hi). assert (Hm : (nth i cell 0%nat < List.length points)%nat) by (apply H, nth_In; auto).
    rewrite (nth_error_nth' points [] Hm). pose proof (PTS _ (nth_In points [] Hm)) as L. destruct (nth (nth i cell 0%nat) points []) as [|x [|y t]]; cbn in L; try lia. reflexivity.
  Qed.
  Definition reorder : list nat := if (n =? 3)%nat then [0; 2; 1]%nat else [0; 2; 1; 5; 4; 3]%nat.
  Definition flipped (cell : list nat) : list nat := map (fun i => nth i cell 0%nat) reorder.
  Lemma cell_ok (cell : list nat) : List.length cell = n -> (forall m, In m cell -> (m < List.length points)%nat) ->
    transform_cell points s cell =
      if Rlt_dec (signed_area2 points cell) 0 then Done (flipped cell) else if Rlt_dec 0 (signed_area2 points cell) then Done cell else Exit.
  Proof.
    intros L H. assert (N3 : (3 <= n)%nat) by (destruct KIND as [[_ ->]|[_ ->]]; lia).
    unfold transform_cell. rewrite !corner_ok by (auto; lia). unfold orientation, signed_area2. cbn [fst snd].
    set (x0 := nth 0 (nth (nth 0 cell 0%nat) points []) 0). set (y0 := nth 1 (nth (nth 0 cell 0%nat) points []) 0).
    set (x1 := nth 0 (nth (nth 1 cell 0%nat) points []) 0). set (y1 := nth 1 (nth (nth 1 cell 0%nat) points []) 0).
    set (x2 := nth 0 (nth (nth 2 cell 0%nat) points []) 0). set (y2 := nth 1 (nth (nth 2 cell 0%nat) points []) 0). cbv zeta.
    assert (X : (y1 - y0) * (x2 - x1) - (x1 - x0) * (y2 - y1) = - ((x1 - x0) * (y2 - y0) - (x2 - x0) * (y1 - y0))) by ring. rewrite X. clear X.
    set (a := (x1 - x0) * (y2 - y0) - (x2 - x0) * (y1 - y0)).
    assert (PK : forall l, (forall i, In i l -> (i < n)%nat) -> pick_nodes cell l = Some (map (fun i => nth i cell 0%nat) l)).
    { intros l Hl. unfold pick_nodes. replace (forallb _ l) with true; auto. symmetry. apply forallb_forall. intros i Hi. apply Nat.ltb_lt. rewrite L. auto. }
    destruct (Rlt_dec 0 (- a)), (Rlt_dec a 0); try lra.
    - unfold flipped, reorder. destruct KIND as [[-> E]|[-> E]]; rewrite E in *.
      + cbn [string_dec]. destruct (string_dec "TRI3" "TRI3"); [|congruence]. rewrite PK; [reflexivity|]. cbn. intuition lia.
      + destruct (string_dec "TRI6" "TRI3"); [discriminate|]. destruct (string_dec "TRI6" "TRI6"); [|congruence]. rewrite PK; [reflexivity|]. cbn. intuition lia.
    - destruct (Rlt_dec (- a) 0), (Rlt_dec 0 a); try lra; reflexivity.
  Qed.
  Lemma cases_cell (cell : list nat) : List.length cell = n -> (exists a b c0, cell = [a; b; c0] /\ n = 3%nat) \/ (exists a b c0 d e g, cell = [a; b; c0; d; e; g] /\ n = 6%nat).
  Proof.
    intros L. destruct KIND as [[_ E]|[_ E]]; rewrite E in L.
    - destruct cell as [|a [|b [|c0 [|? ?]]]]; try discriminate. left. now exists a, b, c0.
    - destruct cell as [|a [|b [|c0 [|d [|e [|g [|? ?]]]]]]]; try discriminate. right. now exists a, b, c0, d, e, g.
  Qed.
  Lemma flipped_area (cell : list nat) : List.length cell = n -> signed_area2 points (flipped cell) = - signed_area2 points cell.
  Proof.
    intros L. unfold flipped, reorder. destruct (cases_cell cell L) as [(a & b & c0 & -> & E)|(a & b & c0 & d & e & g & -> & E)]; rewrite E; cbn [Nat.eqb map nth]; unfold signed_area2; cbn [nth]; ring.
  Qed.
  Lemma flipped_perm cell : List.length cell = n -> Permutation (flipped cell) cell.
  Proof.
    intros L. unfold flipped, reorder. destruct (cases_cell cell L) as [(a & b & c0 & -> & E)|(a & b & c0 & d & e & g & -> & E)]; rewrite E; cbn [Nat.eqb map nth].
    - apply perm_skip, perm_swap.
    - apply perm_skip. eapply perm_trans; [apply perm_swap|]. do 2 apply perm_skip. eapply perm_trans; [apply perm_swap|].
      eapply perm_trans; [apply perm_skip, perm_swap|]. eapply perm_trans; [apply perm_swap|]. apply Permutation_refl.
  Qed.
  Lemma flipped_between cell a b m : List.length cell = n -> n = 6%nat -> (between (flipped cell) a b m <-> between cell a b m).
  Proof.
    intros L N6. unfold flipped, reorder. destruct (cases_cell cell L) as [(? & ? & ? & -> & E)|(x0 & x1 & x2 & x3 & x4 & x5 & -> & E)]; [lia|]. rewrite E. cbn [Nat.eqb map nth].
    unfold between, sides6. split; intros (i & j & k & I & H); cbn in I; destruct I as [I|[I|[I|[]]]]; injection I as <- <- <-; cbn in H.
    - exists 2%nat, 0%nat, 5%nat. cbn. intuition.
    - exists 1%nat, 2%nat, 4%nat. cbn. intuition.
    - exists 0%nat, 1%nat, 3%nat. cbn. intuition.
    - exists 2%nat, 0%nat, 5%nat. cbn. intuition.
    - exists 1%nat, 2%nat, 4%nat. cbn. intuition.
    - exists 0%nat, 1%nat, 3%nat. cbn. intuition.
  Qed.
  Definition turned (cell : list nat) : list nat := if Rlt_dec (signed_area2 points cell) 0 then flipped cell else cell.
  Lemma loop_tri (cells : list (list nat)) : (forall cell, In cell cells -> List.length cell = n /\ forall i, In i cell -> (i < List.length points)%nat) ->
    (Exists (fun cell => signed_area2 points cell = 0) cells /\ transform_loop points s cells = Exit) \/
    (Forall (fun cell => signed_area2 points cell <> 0) cells /\ transform_loop points s cells = Done (map turned cells)).
  Proof.
    induction cells as [|cell t IH]; intros H; [right; auto|]. destruct (H cell (or_introl eq_refl)) as (L & I).
    cbn [transform_loop]. rewrite (cell_ok cell L I). destruct IH as [[A B]|[A B]]; [intros; apply H; now right| |].
    - destruct (Rlt_dec (signed_area2 points cell) 0); [|destruct (Rlt_dec 0 (signed_area2 points cell))]; rewrite ?B; left; auto.
    - destruct (Rlt_dec (signed_area2 points cell) 0) as [Z|Z]; [|destruct (Rlt_dec 0 (signed_area2 points cell)) as [Z'|Z']]; rewrite ?B.
      + right. split; [constructor; auto; lra|]. cbn. unfold turned at 2. destruct (Rlt_dec (signed_area2 points cell) 0); [reflexivity|lra].
      + right. split; [constructor; auto; lra|]. cbn. unfold turned at 2. destruct (Rlt_dec (signed_area2 points cell) 0); [lra|reflexivity].
      + left. split; [constructor; lra|reflexivity].
  Qed.
  Theorem transform_spec (cells : list (list nat)) : cells <> [] -> (forall cell, In cell cells -> List.length cell = n /\ forall i, In i cell -> (i < List.length points)%nat) ->
    (transform_cells cells points s = Exit <-> exists cell, In cell cells /\ signed_area2 points cell = 0) /\
    (transform_cells cells points s = Exit \/ exists new, transform_cells cells points s = Done new) /\
    (forall new, transform_cells cells points s = Done new ->
       List.length new = List.length cells /\
       forall i, (i < List.length cells)%nat ->
         signed_area2 points (nth i new []) = Rabs (signed_area2 points (nth i cells [])) /\ 0 < signed_area2 points (nth i new []) /\
         Permutation (nth i new []) (nth i cells []) /\
         (0 < signed_area2 points (nth i cells []) -> nth i new [] = nth i cells []) /\
         (n = 6%nat -> forall a b m, between (nth i new []) a b m <-> between (nth i cells []) a b m)).
  Proof.
    intros NE H. unfold transform_cells. destruct (loop_tri cells H) as [[A B]|[A B]]; rewrite B.
    - apply Exists_exists in A. split; [tauto|]. split; [auto|]. intros new E. discriminate.
    - assert (NT : exists x y, map turned cells = x :: y) by (destruct cells; [congruence|eexists; eexists; reflexivity]).
      assert (EQ : match Done (map turned cells) with Done [] => Raised ValueErr | r => r end = Done (map turned cells)) by (destruct NT as (x & y & ->); reflexivity).
      rewrite EQ. split; [split; [discriminate|]|split; [eauto|]].
      + intros (cell & I & Z). rewrite Forall_forall in A. now destruct (A cell I).
      + intros new E. injection E as <-. rewrite map_length. split; [reflexivity|]. intros i Hi.
        rewrite (nth_map_in turned cells i [] []) by auto. assert (I := nth_In cells [] Hi). destruct (H _ I) as (L & _).
        rewrite Forall_forall in A. specialize (A _ I). unfold turned. destruct (Rlt_dec (signed_area2 points (nth i cells [])) 0) as [Z|Z].
        * rewrite flipped_area by auto. rewrite Rabs_left by auto. split; [reflexivity|]. split; [lra|]. split; [now apply flipped_perm|].
          split; [lra|]. intros N6 a b m. now apply flipped_between.
        * rewrite Rabs_right by lra. split; [reflexivity|]. split; [lra|]. split; [apply Permutation_refl|]. split; [auto|]. tauto.
  Qed.
End Triangles.
