(** Fluxes that grow with the gradient and stresses that grow with the strain, for C85. *)
From Coq Require Import Reals String List Arith Lia Lra Bool.
From Verif Require Import Num Arr ArrFacts Fe Problem SpecAssembly BatchFacts ProblemFacts Basis SpecBasis SpecFe FeFacts GeomFacts SolverBc SpecBc BcFacts SpecWeak KernelFacts SpecEnergy EnergyFacts
  Elastic ElasticFacts SpecElastic ElasticMain SpecSolve LinAlg SpecWave SpecLinear SpecPosed AffineFacts DynamicsFacts SpecPlasticity PlasticityMain FieldFacts PosedMain SpecMonotone MonoFacts MonoMain.
Import ListNotations.
Local Open Scope R_scope.
Local Notation sum n g := (sum_n (K := Rops) n g).
Local Ltac rr := cbv beta; cbn [add mul zero Rops]; req; try change (car Rops) with R; ring.

Lemma dot2_schwarz m d (A B : nat -> nat -> R) : dot2 (K := Rops) m d A B * dot2 (K := Rops) m d A B <= dot2 (K := Rops) m d A A * dot2 (K := Rops) m d B B.
Proof.
  assert (CV : forall A B : nat -> nat -> R, dot2 (K := Rops) m d A B = sum m (fun i => 1 * sum d (fun j => 1 * (A i j * B i j)))).
  { intros X Y. unfold dot2. apply Rsum_ext. intros i Hi. rewrite Rmult_1_l. apply Rsum_ext. intros j Hj. rr. }
  rewrite !CV. apply schwarz_sum. intros i Hi. split; [lra|]. split; [apply Rsum_nonneg; intros j Hj; rewrite Rmult_1_l; apply Rle_0_sqr|].
  split; [apply Rsum_nonneg; intros j Hj; rewrite Rmult_1_l; apply Rle_0_sqr|]. apply schwarz_sum. intros j Hj. split; [lra|]. split; [apply Rle_0_sqr|]. split; [apply Rle_0_sqr|]. apply Req_le. ring.
Qed.
Lemma dot2_nn m d (A : nat -> nat -> R) : 0 <= dot2 (K := Rops) m d A A.
Proof. apply Rsum_nonneg. intros i Hi. apply Rsum_nonneg. intros j Hj. apply Rle_0_sqr. Qed.
Lemma dot2_ext m d (A A' B B' : nat -> nat -> R) : (forall i j, (i < m)%nat -> (j < d)%nat -> A i j = A' i j /\ B i j = B' i j) -> dot2 (K := Rops) m d A B = dot2 (K := Rops) m d A' B'.
Proof. intros H. apply Rsum_ext. intros i Hi. apply Rsum_ext. intros j Hj. destruct (H i j Hi Hj) as (-> & ->). reflexivity. Qed.
Lemma dot2_comm m d (A B : nat -> nat -> R) : dot2 (K := Rops) m d A B = dot2 (K := Rops) m d B A.
Proof. apply Rsum_ext. intros i Hi. apply Rsum_ext. intros j Hj. rr. Qed.
Lemma dot2_lin m d (A B C : nat -> nat -> R) t : dot2 (K := Rops) m d (fun i j => A i j + t * B i j) C = dot2 (K := Rops) m d A C + t * dot2 (K := Rops) m d B C.
Proof. unfold dot2. rewrite <- Rsum_mul, <- Rsum_plus. apply Rsum_ext. intros i Hi. rewrite <- Rsum_mul, <- Rsum_plus. apply Rsum_ext. intros j Hj. rr. Qed.
Lemma grad_inner m d : semi_inner m d (grad_product m d).
Proof.
  unfold grad_product. split; [|split; [|split]].
  - intros x t y z. cbn [lcomb fst]. apply dot2_lin.
  - intros x y. apply dot2_comm.
  - intros x. apply dot2_nn.
  - intros x x' y (S1 & _). apply dot2_ext. auto.
Qed.
Lemma strain_inner d : semi_inner d d (strain_product d).
Proof.
  unfold strain_product. split; [|split; [|split]].
  - intros x t y z. cbn [lcomb fst]. rewrite <- dot2_lin. apply dot2_ext. intros i j Hi Hj. split; [ring|reflexivity].
  - intros x y. apply dot2_comm.
  - intros x. apply dot2_nn.
  - intros x x' y (S1 & _). apply dot2_ext. intros i j Hi Hj. rewrite !S1 by auto. auto.
Qed.
Lemma dot2_sym d (S H : nat -> nat -> R) : (forall i j, (i < d)%nat -> (j < d)%nat -> S i j = S j i) -> dot2 (K := Rops) d d S H = dot2 (K := Rops) d d S (sym2 H).
Proof.
  intros SS. unfold dot2, sym2. 
  assert (T : sum d (fun i => sum d (fun j => S i j * H j i)) = sum d (fun i => sum d (fun j => S i j * H i j))).
  { etransitivity; [apply Rsum_swap|]. apply Rsum_ext. intros i Hi. apply Rsum_ext. intros j Hj. now rewrite (SS j i). }
  transitivity (/ 2 * (sum d (fun i => sum d (fun j => S i j * H i j)) + sum d (fun i => sum d (fun j => S i j * H j i)))).
  - rewrite T. cbn [mul Rops]. match goal with |- ?a = / 2 * (?b + ?c) => change (@eq R a (/ 2 * (a + a))); generalize a end. intros a. change R in a. field.
  - rewrite <- Rsum_plus, <- Rsum_mul. apply Rsum_ext. intros i Hi. rewrite <- Rsum_plus, <- Rsum_mul. apply Rsum_ext. intros j Hj. rr.
Qed.

Section Use.
  Context {V : Type}.
  Variables (p : problem Rops V) (f : fe Rops) (P : list (list Rops)) (tm : (nat -> nat -> Rops) -> list V -> nat -> nat -> Rops) (k L : R).
  Hypothesis TM : tensor_map (maps p) = Some tm.
  Hypothesis DS : dead_source (maps p).
  Lemma flux_dead c q x y : lsame (vec f) (dim f) (lminus (flux_at p f P c q x) (flux_at p f P c q y)) (minus2 (tm (fst x) (iv_at p c q)) (tm (fst y) (iv_at p c q)), fun _ => 0).
  Proof.
    unfold flux_at, lminus, lcomb, minus2. cbn [fst snd]. rewrite TM. split; intros; cbn [fst snd]; [rr|].
    destruct (mass_map (maps p)) as [mm|] eqn:E; [|ring]. rewrite (DS mm (snd x) (snd y) _ _ k0 E). rr.
  Qed.
  Lemma lwork_dead c q x y z : lwork (vec f) (dim f) (lminus (flux_at p f P c q x) (flux_at p f P c q y)) z =
    dot2 (K := Rops) (vec f) (dim f) (minus2 (tm (fst x) (iv_at p c q)) (tm (fst y) (iv_at p c q))) (fst z).
  Proof.
    destruct (flux_dead c q x y) as (F1 & F2). cbn [fst snd] in *. unfold lwork.
    rewrite (dot2_ext _ _ _ (minus2 (tm (fst x) (iv_at p c q)) (tm (fst y) (iv_at p c q))) (fst z) (fst z)) by (intros; split; auto).
    assert (Z : dot1 (K := Rops) (vec f) (snd (lminus (flux_at p f P c q x) (flux_at p f P c q y))) (snd z) = 0).
    { apply (sum_n_zero_ext Rops_ring). intros i Hi. rewrite (F2 i Hi). rr. }
    rewrite Z. ring.
  Qed.
  Lemma grows_flux : (forall c q, (c < p_num_cells p)%nat -> (q < num_quads f)%nat -> flux_grows (vec f) (dim f) (fun G => tm G (iv_at p c q)) k L) ->
    grows p f P (fun _ _ => grad_product (vec f) (dim f)) k L.
  Proof.
    intros FG c q Hc Hq x y. destruct (FG c q Hc Hq (fst x) (fst y)) as (G1 & G2).
    assert (ED : forall B, dot2 (K := Rops) (vec f) (dim f) B (fst (lminus x y)) = dot2 (K := Rops) (vec f) (dim f) B (minus2 (fst x) (fst y))).
    { intros B. apply dot2_ext. intros i j Hi Hj. split; [reflexivity|]. unfold lminus, lcomb, minus2. cbn [fst]. ring. }
    assert (EE : grad_product (vec f) (dim f) (lminus x y) (lminus x y) = dot2 (K := Rops) (vec f) (dim f) (minus2 (fst x) (fst y)) (minus2 (fst x) (fst y))).
    { unfold grad_product. rewrite ED, dot2_comm, ED. reflexivity. }
    rewrite EE. split.
    - rewrite lwork_dead, ED. exact G1.
    - intros z b. unfold b. rewrite lwork_dead. apply Rle_trans with (1 := dot2_schwarz _ _ _ _). apply Rmult_le_compat_r; [apply dot2_nn|exact G2].
  Qed.
  Lemma grows_stress : vec f = dim f -> (forall c q, (c < p_num_cells p)%nat -> (q < num_quads f)%nat -> stress_grows (dim f) (fun G => tm G (iv_at p c q)) k L) ->
    grows p f P (fun _ _ => strain_product (dim f)) k L.
  Proof.
    intros VD SG c q Hc Hq x y. destruct (SG c q Hc Hq (fst x) (fst y)) as (S0 & G1 & G2).
    assert (ED : forall B, dot2 (K := Rops) (dim f) (dim f) B (sym2 (fst (lminus x y))) = dot2 (K := Rops) (dim f) (dim f) B (sym2 (minus2 (fst x) (fst y)))).
    { intros B. apply dot2_ext. intros i j Hi Hj. split; [reflexivity|]. unfold lminus, lcomb, minus2, sym2. cbn [fst]. ring. }
    assert (EE : strain_product (dim f) (lminus x y) (lminus x y) = dot2 (K := Rops) (dim f) (dim f) (sym2 (minus2 (fst x) (fst y))) (sym2 (minus2 (fst x) (fst y)))).
    { unfold strain_product. fold (sym2 (fst (lminus x y))). rewrite ED, dot2_comm, ED. reflexivity. }
    rewrite EE. split.
    - rewrite lwork_dead, VD, (dot2_sym _ _ _ S0), ED. exact G1.
    - intros z b. unfold b. rewrite lwork_dead, VD, (dot2_sym _ _ _ S0). apply Rle_trans with (1 := dot2_schwarz _ _ _ _). unfold strain_product. apply Rmult_le_compat_r; [apply dot2_nn|exact G2].
  Qed.
  Lemma strain_seen : vec f = dim f -> no_free_motion p f P -> all_seen p f P (fun _ _ => strain_product (dim f)).
  Proof.
    intros VD NF d SD HZ Z. apply (NF d SD HZ). intros c q i j Hc Hq Hi Hj. specialize (Z c q Hc Hq). unfold strain_product, field_at in Z. cbn [fst] in Z. unfold dot2 in Z.
    pose proof (Rsum_zero_all _ _ (fun i0 _ => Rsum_nonneg _ _ (fun j0 _ => Rle_0_sqr _)) Z i Hi) as Z1.
    pose proof (Rsum_zero_all _ _ (fun j0 _ => Rle_0_sqr _) Z1 j Hj) as Z2. apply Rmult_integral in Z2. destruct Z2 as [Z2|Z2]; exact Z2.
  Qed.
  Lemma grad_seen : (forall d, sol_ok p [d] -> held_zero f d ->
      (forall c q k j, (c < p_num_cells p)%nat -> (q < num_quads f)%nat -> (k < vec f)%nat -> (j < dim f)%nat -> sol_to_grad P f d c q k j = 0) ->
      forall n k, (n < List.length (points f))%nat -> (k < vec f)%nat -> get2 (@zero Rops) d n k = 0) -> all_seen p f P (fun _ _ => grad_product (vec f) (dim f)).
  Proof.
    intros NF d SD HZ Z. apply (NF d SD HZ). intros c q i j Hc Hq Hi Hj. specialize (Z c q Hc Hq). unfold grad_product, field_at in Z. cbn [fst] in Z. unfold dot2 in Z.
    pose proof (Rsum_zero_all _ _ (fun i0 _ => Rsum_nonneg _ _ (fun j0 _ => Rle_0_sqr _)) Z i Hi) as Z1.
    pose proof (Rsum_zero_all _ _ (fun j0 _ => Rle_0_sqr _) Z1 j Hj) as Z2. apply Rmult_integral in Z2. destruct Z2 as [Z2|Z2]; exact Z2.
  Qed.
End Use.

Theorem monotone_one : forall (V : Type) (p : problem Rops V) f P e k L, wf_problem p -> (0 < p_num_cells p)%nat -> standard_problem p f -> ivs_ok p -> maps_ok (vec f) (dim f) (maps p) ->
  (forall c q, (c < p_num_cells p)%nat -> (q < num_quads f)%nat -> 0 < get_JxW P f c q) ->
  (forall c q, (c < p_num_cells p)%nat -> (q < num_quads f)%nat -> semi_inner (vec f) (dim f) (e c q)) ->
  0 < k -> grows p f P e k L -> dead_tractions p -> all_seen p f P e -> one_solution p [P].
Proof.
  intros V p f P e k L WF NC STD IVS MAPS JP EI K0 G DT SEEN.
  destruct (grows_one p f P WF NC STD IVS MAPS (fun c q Hc Hq => Rlt_le _ _ (JP c q Hc Hq)) e k L EI K0 G DT JP SEEN) as (x & S & U). exists [x]. split; auto.
Qed.
Theorem flux_one : forall (V : Type) s sqrtK quad fquad normals pts cls v dir f (p : problem Rops V) P tm k L,
  fe_init (K := Rops) sqrtK s quad fquad normals pts cls v (element_dim s) dir = Ok f -> mesh_ok f -> sharp_rule s (fst quad) ->
  wf_problem p -> (0 < p_num_cells p)%nat -> standard_problem p f -> ivs_ok p -> maps_ok (vec f) (dim f) (maps p) ->
  tensor_map (maps p) = Some tm -> dead_source (maps p) -> dead_tractions p ->
  (forall c q, (c < p_num_cells p)%nat -> (q < num_quads f)%nat -> 0 < get_JxW P f c q) -> 0 < k ->
  (forall c q, (c < p_num_cells p)%nat -> (q < num_quads f)%nat -> flux_grows (vec f) (dim f) (fun G => tm G (iv_at p c q)) k L) ->
  anchored f -> one_solution p [P].
Proof.
  intros V s sqrtK quad fquad normals pts cls v dir f p P tm k L B MO SH WF NC STD IVS MAPS TM DS DT JP K0 FG AN.
  apply (monotone_one V p f P (fun _ _ => grad_product (vec f) (dim f)) k L); auto.
  - intros; apply grad_inner.
  - exact (grows_flux p f P tm k L TM DS FG).
  - apply grad_seen. intros d SD HZ ZG.
    apply (anchored_free s sqrtK quad fquad normals pts cls v dir f B MO SH P p (fun _ => 1) (fun _ _ => 0) (fun _ _ _ => 0) (fes_f p f STD) AN (fun _ _ _ _ => Rlt_0_1)); auto.
    + intros c q Hc Hq Z. pose proof (JP c q Hc Hq) as J. unfold get_JxW in J. rewrite Z in J. cbn in J. rewrite Rmult_0_l in J. lra.
    + intros c q k0 Hc Hq Hk X. unfold alpha_at in X. lra.
    + intros s0 e q k0 Hs He Hq Hk X. unfold beta_at in X. lra.
Qed.
Theorem stress_one : forall (V : Type) (p : problem Rops V) f P tm k L, wf_problem p -> (0 < p_num_cells p)%nat -> standard_problem p f -> ivs_ok p -> maps_ok (vec f) (dim f) (maps p) ->
  vec f = dim f -> tensor_map (maps p) = Some tm -> dead_source (maps p) -> dead_tractions p ->
  (forall c q, (c < p_num_cells p)%nat -> (q < num_quads f)%nat -> 0 < get_JxW P f c q) -> 0 < k ->
  (forall c q, (c < p_num_cells p)%nat -> (q < num_quads f)%nat -> stress_grows (dim f) (fun G => tm G (iv_at p c q)) k L) ->
  no_free_motion p f P -> one_solution p [P].
Proof.
  intros V p f P tm k L WF NC STD IVS MAPS VD TM DS DT JP K0 SG NF.
  apply (monotone_one V p f P (fun _ _ => strain_product (dim f)) k L); auto.
  - intros; rewrite VD; apply strain_inner.
  - exact (grows_stress p f P tm k L TM DS VD SG).
  - exact (strain_seen p f P VD NF).
Qed.
