(** Fields without gradient are constant on linked cells (C81). *)
From Coq Require Import String Reals List Arith Lia Lra Bool.
From Verif Require Import Num Arr ArrFacts Fe Problem SpecAssembly BatchFacts ProblemFacts Basis SpecBasis SpecFe FeFacts GeomFacts SpecBc SpecWeak KernelFacts
  SpecEnergy EnergyFacts ElasticFacts ElasticMain Mesh MeshFacts MeshMain MeshFe LinAlg SolveBox SpecPosed.
Import ListNotations.
Local Open Scope R_scope.

Lemma lin2d (A B C D a b : R) : a <> b -> (forall x, (x = a \/ x = b) -> (B - A) * (1 - x) + (D - C) * x = 0) -> B = A /\ D = C.
Proof.
  intros NE H. destruct (lin2 (B - A) (D - C) a b NE (H a (or_introl eq_refl)) (H b (or_intror eq_refl))). split; lra.
Qed.
Lemma grid3 (pts : list (list Rops)) : full_grid 3 pts -> exists a b : R, a <> b /\ forall x y z : R, (x = a \/ x = b) -> (y = a \/ y = b) -> (z = a \/ z = b) ->
  exists q, (q < List.length pts)%nat /\ nth q pts [] = [x; y; z].
Proof.
  intros (a & b & NE & H). exists a, b. split; auto. intros x y z Hx Hy Hz.
  assert (I : In [x; y; z] pts) by (apply H; [reflexivity|]; intros i Hi; destruct i as [|[|[|i]]]; cbn; auto; lia).
  apply (In_nth _ _ []) in I as (q & Hq & Eq). eauto.
Qed.
Lemma grid2 (pts : list (list Rops)) : full_grid 2 pts -> exists a b : R, a <> b /\ forall x y : R, (x = a \/ x = b) -> (y = a \/ y = b) ->
  exists q, (q < List.length pts)%nat /\ nth q pts [] = [x; y].
Proof.
  intros (a & b & NE & H). exists a, b. split; auto. intros x y Hx Hy.
  assert (I : In [x; y] pts) by (apply H; [reflexivity|]; intros i Hi; destruct i as [|[|i]]; cbn; auto; lia).
  apply (In_nth _ _ []) in I as (q & Hq & Eq). eauto.
Qed.
Lemma hex8_constant info (pts : list (list Rops)) (U : nat -> R) : get_elements "HEX8" = Ok info -> full_grid 3 pts ->
  (forall q i, (q < List.length pts)%nat -> (i < 3)%nat -> sum_n (K := Rops) 8 (fun a => U a * shape_grad info (nth q pts []) a i) = 0) ->
  forall a, (a < 8)%nat -> U a = U 0%nat.
Proof.
  intros E G S. destruct (grid3 pts G) as (a & b & NE & PT). injection E as <-.
  assert (B0 : U 1%nat - U 0%nat = 0 /\ U 2%nat - U 3%nat = 0 /\ U 5%nat - U 4%nat = 0 /\ U 6%nat - U 7%nat = 0).
  { apply (bil2 _ _ _ _ a b NE). intros y z Hy Hz. destruct (PT a y z (or_introl eq_refl) Hy Hz) as (q & Hq & Eq). specialize (S q 0%nat Hq ltac:(lia)).
    rewrite Eq in S. unfold shape_grad in S. cbn in S. cbn. lra. }
  assert (B1 : U 3%nat - U 0%nat = 0 /\ U 2%nat - U 1%nat = 0 /\ U 7%nat - U 4%nat = 0 /\ U 6%nat - U 5%nat = 0).
  { apply (bil2 _ _ _ _ a b NE). intros x z Hx Hz. destruct (PT x a z Hx (or_introl eq_refl) Hz) as (q & Hq & Eq). specialize (S q 1%nat Hq ltac:(lia)).
    rewrite Eq in S. unfold shape_grad in S. cbn in S. cbn. lra. }
  assert (B2 : U 4%nat - U 0%nat = 0 /\ U 5%nat - U 1%nat = 0 /\ U 7%nat - U 3%nat = 0 /\ U 6%nat - U 2%nat = 0).
  { apply (bil2 _ _ _ _ a b NE). intros x y Hx Hy. destruct (PT x y a Hx Hy (or_introl eq_refl)) as (q & Hq & Eq). specialize (S q 2%nat Hq ltac:(lia)).
    rewrite Eq in S. unfold shape_grad in S. cbn in S. cbn. lra. }
  intros n Hn. do 8 (destruct n as [|n]; [lra|]). lia.
Qed.
Lemma hex8_values info (pts : list (list Rops)) (U : nat -> R) : get_elements "HEX8" = Ok info -> full_grid 3 pts ->
  (forall q, (q < List.length pts)%nat -> sum_n (K := Rops) 8 (fun a => U a * shape_value info (nth q pts []) a) = 0) ->
  forall a, (a < 8)%nat -> U a = 0.
Proof.
  intros E G S. destruct (grid3 pts G) as (a & b & NE & PT). injection E as <-.
  assert (L : forall z, (z = a \/ z = b) -> (U 0%nat * (1 - z) + U 4%nat * z = 0) /\ (U 1%nat * (1 - z) + U 5%nat * z = 0) /\ (U 3%nat * (1 - z) + U 7%nat * z = 0) /\ (U 2%nat * (1 - z) + U 6%nat * z = 0)).
  { intros z Hz. apply (bil2 _ _ _ _ a b NE). intros x y Hx Hy. destruct (PT x y z Hx Hy Hz) as (q & Hq & Eq). specialize (S q Hq).
    rewrite Eq in S. unfold shape_value in S. cbn in S. cbn. lra. }
  destruct (L a (or_introl eq_refl)) as (A0 & A1 & A3 & A2). destruct (L b (or_intror eq_refl)) as (B0 & B1 & B3 & B2).
  destruct (lin2 _ _ a b NE A0 B0), (lin2 _ _ a b NE A1 B1), (lin2 _ _ a b NE A2 B2), (lin2 _ _ a b NE A3 B3).
  intros n Hn. do 8 (destruct n as [|n]; [assumption|]). lia.
Qed.
Lemma quad4_constant info (pts : list (list Rops)) (U : nat -> R) : get_elements "QUAD4" = Ok info -> full_grid 2 pts ->
  (forall q i, (q < List.length pts)%nat -> (i < 2)%nat -> sum_n (K := Rops) 4 (fun a => U a * shape_grad info (nth q pts []) a i) = 0) ->
  forall a, (a < 4)%nat -> U a = U 0%nat.
Proof.
  intros E G S. destruct (grid2 pts G) as (a & b & NE & PT). injection E as <-.
  assert (B0 : U 1%nat = U 0%nat /\ U 2%nat = U 3%nat).
  { apply (lin2d _ _ _ _ a b NE). intros y Hy. destruct (PT a y (or_introl eq_refl) Hy) as (q & Hq & Eq). specialize (S q 0%nat Hq ltac:(lia)).
    rewrite Eq in S. unfold shape_grad in S. cbn in S. cbn. lra. }
  assert (B1 : U 3%nat = U 0%nat /\ U 2%nat = U 1%nat).
  { apply (lin2d _ _ _ _ a b NE). intros x Hx. destruct (PT x a Hx (or_introl eq_refl)) as (q & Hq & Eq). specialize (S q 1%nat Hq ltac:(lia)).
    rewrite Eq in S. unfold shape_grad in S. cbn in S. cbn. lra. }
  intros n Hn. do 4 (destruct n as [|n]; [lra|]). lia.
Qed.
Lemma tri3_constant info (x : list Rops) (U : nat -> R) : get_elements "TRI3" = Ok info ->
  (forall i, (i < 2)%nat -> sum_n (K := Rops) 3 (fun a => U a * shape_grad info x a i) = 0) -> forall a, (a < 3)%nat -> U a = U 0%nat.
Proof.
  intros E S. injection E as <-. pose proof (S 0%nat ltac:(lia)) as S0. pose proof (S 1%nat ltac:(lia)) as S1. unfold shape_grad in S0, S1. cbn in S0, S1.
  intros n Hn. do 3 (destruct n as [|n]; [lra|]). lia.
Qed.
Lemma tet4_constant info (x : list Rops) (U : nat -> R) : get_elements "TET4" = Ok info ->
  (forall i, (i < 3)%nat -> sum_n (K := Rops) 4 (fun a => U a * shape_grad info x a i) = 0) -> forall a, (a < 4)%nat -> U a = U 0%nat.
Proof.
  intros E S. injection E as <-. pose proof (S 0%nat ltac:(lia)) as S0. pose proof (S 1%nat ltac:(lia)) as S1. pose proof (S 2%nat ltac:(lia)) as S2.
  unfold shape_grad in S0, S1, S2. cbn in S0, S1, S2.
  intros n Hn. do 4 (destruct n as [|n]; [lra|]). lia.
Qed.

Section Field.
  Variables (s : string) (sqrtK : R -> R) (quad fquad : list (list Rops) * list Rops) (normals : nat -> nat -> Rops) (pts0 : list (list Rops)) (cls : list (list nat)) (v : nat)
    (dir : option (list (location_fn Rops) * list nat * list (list Rops -> Rops))) (f : fe Rops).
  Hypothesis BUILT : fe_init (K := Rops) sqrtK s quad fquad normals pts0 cls v (element_dim s) dir = Ok f.
  Hypothesis MESH : mesh_ok f.
  Hypothesis SHARP : sharp_rule s (fst quad).
  Variable P : list (list Rops).
  Lemma sharp_dim : dim f = 2%nat \/ dim f = 3%nat.
  Proof.
    rewrite (built_dim _ _ _ _ _ _ _ _ _ _ _ BUILT). destruct SHARP as [(-> & _)|[(-> & _)|[[->| ->] _]]]; cbn; auto.
  Qed.
  Lemma cell_constant d c k : (forall q, (q < num_quads f)%nat -> det (dim f) (jacobian_dx_deta P f c q) <> 0) ->
    (forall q j, (q < num_quads f)%nat -> (j < dim f)%nat -> sol_to_grad P f d c q k j = 0) ->
    forall a, (a < num_nodes f)%nat -> cell_sol_at f d c a k = cell_sol_at f d c 0 k.
  Proof.
    intros DET Z.
    assert (RG : forall q i, (q < num_quads f)%nat -> (i < dim f)%nat -> refgrad f d c q k i = 0).
    { intros q i Hq Hi. rewrite (pull f P d c q sharp_dim (DET q Hq) k i Hi). rewrite (Rsum_ext _ _ (fun _ => 0 * 0)); [rewrite Rsum_mul; req; ring|].
      intros j Hj. rewrite Z by auto. cbn; req; ring. }
    unfold refgrad in RG.
    pose proof (built_quads _ _ _ _ _ _ _ _ _ _ _ BUILT) as EQ. pose proof (built_dim _ _ _ _ _ _ _ _ _ _ _ BUILT) as ED. pose proof (built_nodes _ _ _ _ _ _ _ _ _ _ _ BUILT) as EN.
    rewrite EQ, ED, EN in RG. rewrite EN. clear Z DET. revert RG.
    destruct (built_inv _ _ _ _ _ _ _ _ _ _ _ BUILT) as (info & fi & [[ns vs] ws] & HI & HFI & HD & Ef).
    assert (SG : forall q a i, shape_grads_ref f q a i = shape_grad info (nth q (fst quad) []) a i) by (intros; rewrite Ef; reflexivity).
    intros RG.
    assert (RG' : forall q i, (q < List.length (fst quad))%nat -> (i < element_dim s)%nat ->
      sum_n (K := Rops) (node_count s) (fun a => cell_sol_at f d c a k * shape_grad info (nth q (fst quad) []) a i) = 0).
    { intros q i Hq Hi. rewrite <- (RG q i Hq Hi). apply Rsum_ext. intros a _. now rewrite SG. }
    clear RG SG Ef HFI HD. destruct SHARP as [(-> & G)|[(-> & G)|[[->| ->] G]]].
    - exact (hex8_constant info (fst quad) (fun a => cell_sol_at f d c a k) HI G RG').
    - exact (quad4_constant info (fst quad) (fun a => cell_sol_at f d c a k) HI G RG').
    - destruct (fst quad) as [|x rest]; [congruence|]. exact (tri3_constant info x (fun a => cell_sol_at f d c a k) HI (fun i Hi => RG' 0%nat i ltac:(cbn; lia) Hi)).
    - destruct (fst quad) as [|x rest]; [congruence|]. exact (tet4_constant info x (fun a => cell_sol_at f d c a k) HI (fun i Hi => RG' 0%nat i ltac:(cbn; lia) Hi)).
  Qed.
  Lemma cell_entry d c a k : shaped (List.length (points f)) v d -> (c < num_cells f)%nat -> (a < num_nodes f)%nat ->
    cell_sol_at f d c a k = get2 (@zero Rops) d (nth a (nth c (cells f) []) 0%nat) k.
  Proof.
    intros [LD _] Hc Ha. unfold cell_sol_at, cell_node. destruct (MESH c Hc) as (L & N). rewrite gather_in; [reflexivity|]. rewrite LD. apply N, nth_In. lia.
  Qed.
  Lemma same_in_cell d k : shaped (List.length (points f)) v d ->
    (forall c q, (c < num_cells f)%nat -> (q < num_quads f)%nat -> det (dim f) (jacobian_dx_deta P f c q) <> 0) ->
    (forall c q j, (c < num_cells f)%nat -> (q < num_quads f)%nat -> (j < dim f)%nat -> sol_to_grad P f d c q k j = 0) ->
    forall n m, linked (cells f) n m -> get2 (@zero Rops) d n k = get2 (@zero Rops) d m k.
  Proof.
    intros SH DET Z n m L. induction L as [|n m l cell IC IN IM L IH]; auto. rewrite <- IH.
    apply (In_nth _ _ []) in IC as (c & Hc & <-). change (c < num_cells f)%nat in Hc. destruct (MESH c Hc) as (LC & _).
    apply (In_nth _ _ 0%nat) in IN as (a & Ha & <-). apply (In_nth _ _ 0%nat) in IM as (a' & Ha' & <-). rewrite LC in Ha, Ha'.
    rewrite <- !(cell_entry d c _ k SH Hc) by auto.
    rewrite (cell_constant d c k (fun q Hq => DET c q Hc Hq) (fun q j Hq Hj => Z c q j Hc Hq Hj) a Ha).
    now rewrite (cell_constant d c k (fun q Hq => DET c q Hc Hq) (fun q j Hq Hj => Z c q j Hc Hq Hj) a' Ha').
  Qed.
  (** held at one linked node: no free field *)
  Theorem anchored_free {V} (p : problem Rops V) kappa alpha beta : fes p = [f] -> anchored f ->
    (forall c q, (c < p_num_cells p)%nat -> (q < num_quads f)%nat -> 0 < kappa (iv_at p c q)) ->
    (forall c q, (c < p_num_cells p)%nat -> (q < num_quads f)%nat -> det (dim f) (jacobian_dx_deta P f c q) <> 0) ->
    no_free_field kappa alpha beta p f P.
  Proof.
    intros FE AN KP DET d SD HZ ZG _ _ n k Hn Hk.
    assert (NCE : p_num_cells p = num_cells f) by (unfold p_num_cells, fe0; now rewrite FE).
    assert (SH : shaped (List.length (points f)) v d).
    { destruct SD as [_ SD]. specialize (SD 0%nat). unfold fe_of in SD. rewrite FE in SD. cbn in SD. rewrite (built_vec _ _ _ _ _ _ _ _ _ _ _ BUILT) in SD. apply SD. lia. }
    destruct (AN n k Hn Hk) as (m & b & Hm & PB & L).
    rewrite (same_in_cell d k SH) with (m := m); auto.
    - eapply HZ; eauto.
    - intros c q Hc Hq. apply DET; auto. now rewrite NCE.
    - intros c q j Hc Hq Hj. rewrite <- NCE in Hc. apply ZG; auto.
  Qed.
  (** values at the quadrature points of a hexahedron *)
  Lemma hex_zero d c k : s = "HEX8"%string -> (forall q, (q < num_quads f)%nat -> convert_from_dof_to_quad f d c q k = 0) ->
    forall a, (a < num_nodes f)%nat -> cell_sol_at f d c a k = 0.
  Proof.
    intros ES Z. pose proof (built_quads _ _ _ _ _ _ _ _ _ _ _ BUILT) as EQ. pose proof (built_nodes _ _ _ _ _ _ _ _ _ _ _ BUILT) as EN.
    unfold convert_from_dof_to_quad in Z. rewrite EQ, EN in Z. rewrite EN. revert Z.
    destruct (built_inv _ _ _ _ _ _ _ _ _ _ _ BUILT) as (info & fi & [[ns vs] ws] & HI & HFI & HD & Ef).
    assert (SG : forall q a, shape_vals f q a = shape_value info (nth q (fst quad) []) a) by (intros; rewrite Ef; reflexivity).
    intros Z. destruct SHARP as [(_ & G)|[(E & _)|[[E|E] _]]]; try congruence. subst s.
    apply (hex8_values info (fst quad) (fun a => cell_sol_at f d c a k) HI G). intros q Hq. rewrite <- (Z q Hq). apply Rsum_ext. intros a _. now rewrite SG.
  Qed.
End Field.
