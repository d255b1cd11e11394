(** Proofs for C79: a body clamped on one side has no free motion. *)
From Coq Require Import String Reals List Arith Lia Lra Bool.
From Verif Require Import Num Arr ArrFacts Fe Problem SpecAssembly BatchFacts ProblemFacts Basis SpecBasis SpecFe FeFacts GeomFacts SpecBc SpecWeak KernelFacts
  SpecEnergy EnergyFacts Elastic ElasticFacts SpecElastic ElasticMain Mesh MeshFacts MeshMain MeshFe SpecWave LinAlg SpecSolve SolveFacts.
Import ListNotations.
Local Open Scope R_scope.

Lemma lin2 A B a b : a <> b -> A * (1 - a) + B * a = 0 -> A * (1 - b) + B * b = 0 -> A = 0 /\ B = 0.
Proof.
  intros NE E1 E2. assert (X : (B - A) * (a - b) = 0) by (ring_simplify; ring_simplify in E1; ring_simplify in E2; lra).
  apply Rmult_integral in X as [X|X]; [|lra]. assert (B = A) as -> by lra. assert (A = 0) by (ring_simplify in E1; lra). auto.
Qed.
Lemma bil2 A B C D a b : a <> b ->
  (forall y z, (y = a \/ y = b) -> (z = a \/ z = b) -> A * ((1 - y) * (1 - z)) + B * (y * (1 - z)) + C * ((1 - y) * z) + D * (y * z) = 0) ->
  A = 0 /\ B = 0 /\ C = 0 /\ D = 0.
Proof.
  intros NE H.
  assert (L : forall z, (z = a \/ z = b) -> A * (1 - z) + C * z = 0 /\ B * (1 - z) + D * z = 0).
  { intros z Hz. apply (lin2 _ _ a b NE); [rewrite <- (H a z (or_introl eq_refl) Hz)|rewrite <- (H b z (or_intror eq_refl) Hz)]; ring. }
  destruct (L a (or_introl eq_refl)) as [L1 L2]. destruct (L b (or_intror eq_refl)) as [L3 L4].
  destruct (lin2 _ _ a b NE L1 L3). destruct (lin2 _ _ a b NE L2 L4). auto.
Qed.

(** derivatives along the reference axes *)
Section Pull.
  Variables (f : fe Rops) (P : list (list Rops)) (d : list (list Rops)) (c q : nat).
  Hypothesis DIM : dim f = 2%nat \/ dim f = 3%nat.
  Hypothesis DET : det (dim f) (jacobian_dx_deta P f c q) <> 0.
  Definition refgrad k i : R := sum_n (K := Rops) (num_nodes f) (fun a => cell_sol_at f d c a k * shape_grads_ref f q a i).
  Lemma pull k i : (i < dim f)%nat -> refgrad k i = sum_n (K := Rops) (dim f) (fun j => sol_to_grad P f d c q k j * jacobian_dx_deta P f c q j i).
  Proof.
    intros Hi. set (J := jacobian_dx_deta P f c q) in *.
    transitivity (sum_n (K := Rops) (dim f) (fun j => sum_n (K := Rops) (num_nodes f) (fun a => sum_n (K := Rops) (dim f) (fun m => cell_sol_at f d c a k * shape_grads_ref f q a m * (inv_mat (dim f) J m j * J j i))))).
    - etransitivity; [|apply (sum_n_swap' Rops_ring)]. unfold refgrad. apply Rsum_ext. intros a Ha.
      etransitivity; [|apply (sum_n_swap' Rops_ring)].
      transitivity (sum_n (K := Rops) (dim f) (fun m => if (i =? m)%nat then cell_sol_at f d c a k * shape_grads_ref f q a m else 0)).
      + rewrite (sum_n_single Rops_ring _ i) by (auto; intros m Hm Hne; replace (i =? m)%nat with false by (symmetry; apply Nat.eqb_neq; congruence); reflexivity).
        now rewrite Nat.eqb_refl.
      + apply Rsum_ext. intros m Hm. etransitivity; [|symmetry; apply (sum_n_mul_l Rops_ring)].
        pose proof (inv_mat_left Rops_field (dim f) J m i DIM Hm Hi DET) as E. cbn [mul Rops] in E |- *. rewrite E. rewrite Nat.eqb_sym. destruct (m =? i)%nat; cbn; req; ring.
    - apply Rsum_ext. intros j Hj. unfold sol_to_grad, get_shape_grads. fold J. etransitivity; [|apply (sum_n_mul_r' Rops_ring)].
      apply Rsum_ext. intros a Ha. rewrite (Rsum_ext (dim f) _ (fun m => cell_sol_at f d c a k * J j i * (shape_grads_ref f q a m * inv_mat (dim f) J m j))) by (intros; cbn; req; ring).
      rewrite Rsum_mul. cbn; req; ring.
  Qed.
  Lemma pull_diag (h : nat -> R) : (forall i j, (i < dim f)%nat -> (j < dim f)%nat -> jacobian_dx_deta P f c q i j = if (i =? j)%nat then h i else 0) ->
    forall k i, (i < dim f)%nat -> refgrad k i = sol_to_grad P f d c q k i * h i.
  Proof.
    intros H k i Hi. rewrite pull by auto. etransitivity; [apply (sum_n_single Rops_ring _ i); auto|].
    - intros j Hj Hne. rewrite H by auto. replace (j =? i)%nat with false by (symmetry; apply Nat.eqb_neq; congruence). cbn; req; ring.
    - rewrite H, Nat.eqb_refl by auto. reflexivity.
  Qed.
End Pull.

(** one cell *)
Section Cell.
  Variables (f : fe Rops) (P : list (list Rops)) (d : list (list Rops)) (c : nat).
  Hypothesis DIM : dim f = 2%nat \/ dim f = 3%nat.
  Variable (h : nat -> R) (front : list nat).
  Hypothesis DET : forall q, (q < num_quads f)%nat -> det (dim f) (jacobian_dx_deta P f c q) <> 0.
  Hypothesis JAC : forall q i j, (i < dim f)%nat -> (j < dim f)%nat -> jacobian_dx_deta P f c q i j = if (i =? j)%nat then h i else 0.
  Hypothesis FRONT : forall U : nat -> R, (forall a, (a < num_nodes f)%nat -> ~ In a front -> U a = 0) ->
    (forall q, (q < num_quads f)%nat -> sum_n (K := Rops) (num_nodes f) (fun a => U a * shape_grads_ref f q a 0) = 0) ->
    forall a, In a front -> (a < num_nodes f)%nat -> U a = 0.
  Hypothesis BACK : forall a k, (a < num_nodes f)%nat -> (k < dim f)%nat -> ~ In a front -> cell_sol_at f d c a k = 0.
  Hypothesis FLAT : forall q i j, (q < num_quads f)%nat -> (i < dim f)%nat -> (j < dim f)%nat -> strain (sol_to_grad P f d c q) i j = 0.
  Lemma cell_still a k : (a < num_nodes f)%nat -> (k < dim f)%nat -> cell_sol_at f d c a k = 0.
  Proof.
    assert (D0 : (0 < dim f)%nat) by lia.
    assert (ALL : forall k, (k < dim f)%nat -> (forall q, (q < num_quads f)%nat -> sol_to_grad P f d c q k 0 = 0) -> forall a, (a < num_nodes f)%nat -> cell_sol_at f d c a k = 0).
    { intros k0 Hk Z a0 Ha. destruct (in_dec Nat.eq_dec a0 front) as [I|I]; [|now apply BACK]. apply (FRONT (fun a => cell_sol_at f d c a k0)); auto.
      intros q Hq. pose proof (pull_diag f P d c q DIM (DET q Hq) h (JAC q) k0 0%nat D0) as E. unfold refgrad in E. rewrite E, Z by auto. cbn; req; ring. }
    assert (X : forall a, (a < num_nodes f)%nat -> cell_sol_at f d c a 0 = 0).
    { apply ALL; auto. intros q Hq. pose proof (FLAT q 0%nat 0%nat Hq D0 D0) as E. unfold strain in E. cbn in E. cbn in *. lra. }
    intros Ha Hk. apply ALL; auto. intros q Hq. pose proof (FLAT q k 0%nat Hq Hk D0) as E. unfold strain in E.
    assert (Z : sol_to_grad P f d c q 0 k = 0).
    { unfold sol_to_grad. rewrite (Rsum_ext _ _ (fun a => 0 * 0)) by (intros b Hb; rewrite X by auto; cbn; req; ring). rewrite Rsum_mul. req; ring. }
    cbn in *. rewrite Z in E. lra.
  Qed.
End Cell.

(** the nodes of the far side of a hexahedron *)
Lemma hex8_front info (pts : list (list Rops)) (U : nat -> R) : get_elements "HEX8" = Ok info -> grid_rule 3 pts ->
  (forall a, (a < 8)%nat -> ~ In a [1; 2; 5; 6]%nat -> U a = 0) ->
  (forall q, (q < List.length pts)%nat -> sum_n (K := Rops) 8 (fun a => U a * shape_grad info (nth q pts []) a 0) = 0) ->
  forall a, In a [1; 2; 5; 6]%nat -> (a < 8)%nat -> U a = 0.
Proof.
  intros E (a & b & NE & G) Z S.
  assert (B : U 1%nat = 0 /\ U 2%nat = 0 /\ U 5%nat = 0 /\ U 6%nat = 0).
  { apply (bil2 _ _ _ _ a b NE). intros y z Hy Hz. destruct (G y z Hy Hz) as (x & I & _ & Ey & Ez). specialize (Ez eq_refl).
    apply (In_nth _ _ []) in I as (q & Hq & Eq). specialize (S q Hq). rewrite Eq in S. injection E as <-. unfold shape_grad in S. cbn in S.
    change (nth 1 x (@zero Rops)) with (pt x 1) in Ey. change (nth 2 x (@zero Rops)) with (pt x 2) in Ez. rewrite ?Ey, ?Ez in S.
    rewrite (Z 0%nat), (Z 3%nat), (Z 4%nat), (Z 7%nat) in S by (try lia; cbn; intuition discriminate). cbn in *. lra. }
  destruct B as (B1 & B2 & B5 & B6). intros n [<-|[<-|[<-|[<-|[]]]]] _; assumption.
Qed.
Lemma quad4_front info (pts : list (list Rops)) (U : nat -> R) : get_elements "QUAD4" = Ok info -> grid_rule 2 pts ->
  (forall a, (a < 4)%nat -> ~ In a [1; 2]%nat -> U a = 0) ->
  (forall q, (q < List.length pts)%nat -> sum_n (K := Rops) 4 (fun a => U a * shape_grad info (nth q pts []) a 0) = 0) ->
  forall a, In a [1; 2]%nat -> (a < 4)%nat -> U a = 0.
Proof.
  intros E (a & b & NE & G) Z S.
  assert (L : forall y, (y = a \/ y = b) -> U 1%nat * (1 - y) + U 2%nat * y = 0).
  { intros y Hy. destruct (G y a Hy (or_introl eq_refl)) as (x & I & _ & Ey & _).
    apply (In_nth _ _ []) in I as (q & Hq & Eq). specialize (S q Hq). rewrite Eq in S. injection E as <-. unfold shape_grad in S. cbn in S.
    change (nth 1 x (@zero Rops)) with (pt x 1) in Ey. rewrite ?Ey in S.
    rewrite (Z 0%nat), (Z 3%nat) in S by (try lia; cbn; intuition discriminate). cbn in *. lra. }
  destruct (lin2 _ _ a b NE (L a (or_introl eq_refl)) (L b (or_intror eq_refl))). intros n [<-|[<-|[]]] _; assumption.
Qed.

Section Box.
  Context (Nx Ny Nz : nat) (Lx Ly Lz : R) (HX : (0 < Nx)%nat) (HY : (0 < Ny)%nat) (HZ : (0 < Nz)%nat) (LX : 0 < Lx) (LY : 0 < Ly) (LZ : 0 < Lz).
  Let M := box_mesh Nx Ny Nz Lx Ly Lz.
  Context (sqrtK : R -> R) (quad fquad : list (list Rops) * list Rops) (normals : nat -> nat -> Rops)
    (dir : option (list (location_fn Rops) * list nat * list (list Rops -> Rops))) (f : fe Rops).
  Hypothesis BUILT : fe_init (K := Rops) sqrtK "HEX8" quad fquad normals (m_points M) (m_cells M) 3 3 dir = Ok f.
  Hypothesis QW : forall q, (q < List.length (fst quad))%nat -> 0 < nth q (snd quad) (@zero Rops).
  Lemma box_measure c q : (c < num_cells f)%nat -> (q < num_quads f)%nat -> 0 < get_JxW (m_points M) f c q.
  Proof.
    intros Hc Hq. rewrite (box_num_cells Nx Ny Nz Lx Ly Lz HX HY HZ _ _ _ _ _ _ f BUILT) in Hc.
    refine (eq_ind_r (fun t : R => 0 < t) _ (box_JxW Nx Ny Nz Lx Ly Lz HX HY HZ _ _ _ _ _ _ f BUILT c q Hc)).
    refine (eq_ind_r (fun t : R => 0 < Lx / INR Nx * (Ly / INR Ny) * (Lz / INR Nz) * t) _ (built_weights _ _ _ _ _ _ _ _ _ _ _ BUILT q)).
    assert (0 < INR Nx /\ 0 < INR Ny /\ 0 < INR Nz) as (X & Y & Z) by (repeat split; apply lt_0_INR; auto).
    rewrite (built_quads _ _ _ _ _ _ _ _ _ _ _ BUILT) in Hq. pose proof (QW q Hq).
    repeat apply Rmult_lt_0_compat; try (apply Rinv_0_lt_compat; assumption); auto.
  Qed.
  Hypothesis GRID : grid_rule 3 (fst quad).
  Hypothesis HELD : left_held f.
  Lemma box_rows_still (d : list (list Rops)) : shaped (List.length (points f)) 3 d ->
    (forall n k b, (n < List.length (points f))%nat -> (k < 3)%nat -> prescribed f n k = Some b -> get2 (@zero Rops) d n k = 0) ->
    (forall e q i j, (e < num_cells f)%nat -> (q < num_quads f)%nat -> (i < 3)%nat -> (j < 3)%nat -> strain (sol_to_grad (m_points M) f d e q) i j = 0) ->
    forall i, (i <= Nx)%nat -> forall j k r, (j <= Ny)%nat -> (k <= Nz)%nat -> (r < 3)%nat -> get2 (@zero Rops) d ((i * (Ny + 1) + j) * (Nz + 1) + k) r = 0.
  Proof.
    intros SH BC ST.
    pose proof (built_points _ _ _ _ _ _ _ _ _ _ _ BUILT) as EP. pose proof (built_cells _ _ _ _ _ _ _ _ _ _ _ BUILT) as EC.
    pose proof (built_nodes _ _ _ _ _ _ _ _ _ _ _ BUILT) as EN. change (node_count "HEX8") with 8%nat in EN.
    pose proof (built_dim _ _ _ _ _ _ _ _ _ _ _ BUILT) as ED. pose proof (built_quads _ _ _ _ _ _ _ _ _ _ _ BUILT) as EQ.
    pose proof (built_vec _ _ _ _ _ _ _ _ _ _ _ BUILT) as EV.
    assert (NP : List.length (points f) = ((Nx + 1) * (Ny + 1) * (Nz + 1))%nat) by (rewrite EP; unfold M; now apply box_points_len).
    assert (INR0 : 0 < INR Nx) by (now apply lt_0_INR).
    induction i as [|i IH]; intros Hi j k r Hj Hk Hr.
    - assert (B : (((0 * (Ny + 1) + j) * (Nz + 1) + k) < List.length (points f))%nat) by (rewrite NP; nia).
      destruct (HELD _ r B ltac:(lia)) as (b & Eb).
      + rewrite EP. unfold M. rewrite box_point by lia. cbn. unfold Rdiv. ring.
      + eapply BC; eauto.
    - assert (CELL : forall j0 k0, (j0 < Ny)%nat -> (k0 < Nz)%nat -> forall a r, (a < 8)%nat -> (r < 3)%nat -> get2 (@zero Rops) d (nth a (hex_of Ny Nz i j0 k0) 0%nat) r = 0).
      { intros j0 k0 Hj0 Hk0 a r0 Ha Hr0. set (c := ((i * Ny + j0) * Nz + k0)%nat).
        assert (Hc : (c < Nx * Ny * Nz)%nat) by (unfold c; apply add_lt; [apply add_lt|]; lia).
        assert (NC : num_cells f = (Nx * Ny * Nz)%nat) by (exact (box_num_cells Nx Ny Nz Lx Ly Lz HX HY HZ _ _ _ _ _ _ f BUILT)).
        assert (Hc' : (c < num_cells f)%nat) by (now rewrite NC).
        assert (HC : nth c (cells f) [] = hex_of Ny Nz i j0 k0) by (rewrite EC; unfold M, c; apply box_cell; lia).
        assert (SOLV : forall a r, (a < 8)%nat -> cell_sol_at f d c a r = get2 (@zero Rops) d (nth a (hex_of Ny Nz i j0 k0) 0%nat) r).
        { intros a0 r1 Ha0. unfold cell_sol_at, cell_node. rewrite HC. rewrite gather_in; [reflexivity|].
          destruct SH as [LD _]. rewrite LD, NP. destruct a0 as [|[|[|[|[|[|[|[|a0]]]]]]]]; try lia; cbn [nth hex_of]; (apply add_lt; [apply add_lt|]; lia). }
        rewrite <- SOLV by auto. rewrite <- ED in Hr0.
        eapply (cell_still f (m_points M) d c (or_intror ED) (fun i => match i with 0%nat => Lx / INR Nx | 1%nat => Ly / INR Ny | _ => Lz / INR Nz end) [1; 2; 5; 6]%nat).
        - intros q Hq Z. pose proof (box_measure c q Hc' Hq) as W. unfold get_JxW in W. rewrite Z in W. cbn in W. lra.
        - intros q i0 j1 Hi0 Hj1. rewrite ED in Hi0, Hj1.
          exact (jac_aff Rops_ring _ _ _ _ _ _ _ _ _ _ _ BUILT (ltac:(cbn; tauto)) (box_mesh_ok Nx Ny Nz Lx Ly Lz HX HY HZ _ _ _ _ _ _ f BUILT) eq_refl (m_points M) (f_equal (@List.length _) (eq_sym EP)) (/ 2) _ _ c ltac:(cbn; field) Hc' (box_affine Nx Ny Nz Lx Ly Lz HX HY HZ _ _ _ _ _ _ f BUILT c Hc) q i0 j1 Hi0 Hj1).
        - rewrite EN, EQ. destruct (built_inv _ _ _ _ _ _ _ _ _ _ _ BUILT) as (info & fi & [[ns vs] ws] & HI & HFI & HD & ->). cbn [make_fe shape_grads_ref].
          intros U Z S. exact (hex8_front info (fst quad) U HI GRID Z S).
        - intros a0 k1 Ha0 Hk1 NI. rewrite EN in Ha0. rewrite ED in Hk1. rewrite SOLV by auto.
          destruct a0 as [|[|[|[|[|[|[|[|a0]]]]]]]]; try lia; try (exfalso; apply NI; cbn; tauto); cbn [nth hex_of]; apply IH; lia.
        - intros q i0 j1 Hq Hi0 Hj1. rewrite ED in *. apply ST; auto.
        - now rewrite EN.
        - exact Hr0. }
      destruct (Nat.eq_dec j Ny) as [->|NJ]; destruct (Nat.eq_dec k Nz) as [->|NK].
      + pose proof (CELL (Ny - 1)%nat (Nz - 1)%nat ltac:(lia) ltac:(lia) 6%nat r ltac:(lia) Hr) as Q. cbn [nth hex_of] in Q.
        replace (i + 1)%nat with (S i) in Q by lia. replace (Ny - 1 + 1)%nat with Ny in Q by lia. replace (Nz - 1 + 1)%nat with Nz in Q by lia. exact Q.
      + pose proof (CELL (Ny - 1)%nat k ltac:(lia) ltac:(lia) 2%nat r ltac:(lia) Hr) as Q. cbn [nth hex_of] in Q.
        replace (i + 1)%nat with (S i) in Q by lia. replace (Ny - 1 + 1)%nat with Ny in Q by lia. exact Q.
      + pose proof (CELL j (Nz - 1)%nat ltac:(lia) ltac:(lia) 5%nat r ltac:(lia) Hr) as Q. cbn [nth hex_of] in Q.
        replace (i + 1)%nat with (S i) in Q by lia. replace (Nz - 1 + 1)%nat with Nz in Q by lia. exact Q.
      + pose proof (CELL j k ltac:(lia) ltac:(lia) 1%nat r ltac:(lia) Hr) as Q. cbn [nth hex_of] in Q.
        replace (i + 1)%nat with (S i) in Q by lia. exact Q.
  Qed.
  Theorem box_held {V} (p : problem Rops V) : fes p = [f] -> p_num_cells p = num_cells f -> no_free_motion p f (m_points M).
  Proof.
    intros FE NC d SD BC ST n k Hn Hk.
    pose proof (built_vec _ _ _ _ _ _ _ _ _ _ _ BUILT) as EV. pose proof (built_dim _ _ _ _ _ _ _ _ _ _ _ BUILT) as ED.
    rewrite EV in *. rewrite (built_points _ _ _ _ _ _ _ _ _ _ _ BUILT) in Hn.
    destruct (box_point_inv Nx Ny Nz Lx Ly Lz HX HY HZ n Hn) as (i & j & l & Hi & Hj & Hl & ->).
    apply box_rows_still; auto.
    - destruct SD as [_ SD]. specialize (SD 0%nat). unfold fe_of in SD. rewrite FE in SD. cbn in SD. rewrite EV in SD. apply SD. lia.
    - intros e q i0 j0 He Hq Hi0 Hj0. apply ST; rewrite ?NC, ?ED; auto.
  Qed.
End Box.

Section Rect.
  Context (Nx Ny : nat) (Lx Ly : R) (HX : (0 < Nx)%nat) (HY : (0 < Ny)%nat) (LX : 0 < Lx) (LY : 0 < Ly).
  Let M := rectangle_mesh Nx Ny Lx Ly.
  Context (sqrtK : R -> R) (quad fquad : list (list Rops) * list Rops) (normals : nat -> nat -> Rops)
    (dir : option (list (location_fn Rops) * list nat * list (list Rops -> Rops))) (f : fe Rops).
  Hypothesis BUILT : fe_init (K := Rops) sqrtK "QUAD4" quad fquad normals (m_points M) (m_cells M) 2 2 dir = Ok f.
  Hypothesis QW : forall q, (q < List.length (fst quad))%nat -> 0 < nth q (snd quad) (@zero Rops).
  Lemma rect_measure c q : (c < num_cells f)%nat -> (q < num_quads f)%nat -> 0 < get_JxW (m_points M) f c q.
  Proof.
    intros Hc Hq. rewrite (rect_num_cells Nx Ny Lx Ly HX HY _ _ _ _ _ _ f BUILT) in Hc.
    refine (eq_ind_r (fun t : R => 0 < t) _ (rect_JxW Nx Ny Lx Ly HX HY _ _ _ _ _ _ f BUILT c q Hc)).
    refine (eq_ind_r (fun t : R => 0 < Lx / INR Nx * (Ly / INR Ny) * t) _ (built_weights _ _ _ _ _ _ _ _ _ _ _ BUILT q)).
    assert (0 < INR Nx /\ 0 < INR Ny) as (X & Y) by (repeat split; apply lt_0_INR; auto).
    rewrite (built_quads _ _ _ _ _ _ _ _ _ _ _ BUILT) in Hq. pose proof (QW q Hq).
    repeat apply Rmult_lt_0_compat; try (apply Rinv_0_lt_compat; assumption); auto.
  Qed.
  Hypothesis GRID : grid_rule 2 (fst quad).
  Hypothesis HELD : left_held f.
  Lemma rect_rows_still (d : list (list Rops)) : shaped (List.length (points f)) 2 d ->
    (forall n k b, (n < List.length (points f))%nat -> (k < 2)%nat -> prescribed f n k = Some b -> get2 (@zero Rops) d n k = 0) ->
    (forall e q i j, (e < num_cells f)%nat -> (q < num_quads f)%nat -> (i < 2)%nat -> (j < 2)%nat -> strain (sol_to_grad (m_points M) f d e q) i j = 0) ->
    forall i, (i <= Nx)%nat -> forall j r, (j <= Ny)%nat -> (r < 2)%nat -> get2 (@zero Rops) d (i * (Ny + 1) + j) r = 0.
  Proof.
    intros SH BC ST.
    pose proof (built_points _ _ _ _ _ _ _ _ _ _ _ BUILT) as EP. pose proof (built_cells _ _ _ _ _ _ _ _ _ _ _ BUILT) as EC.
    pose proof (built_nodes _ _ _ _ _ _ _ _ _ _ _ BUILT) as EN. change (node_count "QUAD4") with 4%nat in EN.
    pose proof (built_dim _ _ _ _ _ _ _ _ _ _ _ BUILT) as ED. pose proof (built_quads _ _ _ _ _ _ _ _ _ _ _ BUILT) as EQ.
    pose proof (built_vec _ _ _ _ _ _ _ _ _ _ _ BUILT) as EV.
    assert (NP : List.length (points f) = ((Nx + 1) * (Ny + 1))%nat) by (rewrite EP; unfold M; now apply rect_points_len).
    induction i as [|i IH]; intros Hi j r Hj Hr.
    - assert (B : ((0 * (Ny + 1) + j) < List.length (points f))%nat) by (rewrite NP; nia).
      destruct (HELD _ r B ltac:(lia)) as (b & Eb).
      + rewrite EP. unfold M. rewrite rect_point by lia. cbn. unfold Rdiv. ring.
      + eapply BC; eauto.
    - assert (CELL : forall j0, (j0 < Ny)%nat -> forall a r, (a < 4)%nat -> (r < 2)%nat -> get2 (@zero Rops) d (nth a (quad_of Ny i j0) 0%nat) r = 0).
      { intros j0 Hj0 a r0 Ha Hr0. set (c := (i * Ny + j0)%nat).
        assert (Hc : (c < Nx * Ny)%nat) by (unfold c; apply add_lt; lia).
        assert (NC : num_cells f = (Nx * Ny)%nat) by (exact (rect_num_cells Nx Ny Lx Ly HX HY _ _ _ _ _ _ f BUILT)).
        assert (Hc' : (c < num_cells f)%nat) by (now rewrite NC).
        assert (HC : nth c (cells f) [] = quad_of Ny i j0) by (rewrite EC; unfold M, c; apply rect_cell; lia).
        assert (SOLV : forall a r, (a < 4)%nat -> cell_sol_at f d c a r = get2 (@zero Rops) d (nth a (quad_of Ny i j0) 0%nat) r).
        { intros a0 r1 Ha0. unfold cell_sol_at, cell_node. rewrite HC. rewrite gather_in; [reflexivity|].
          destruct SH as [LD _]. rewrite LD, NP. destruct a0 as [|[|[|[|a0]]]]; try lia; cbn [nth quad_of]; (apply add_lt; lia). }
        rewrite <- SOLV by auto. rewrite <- ED in Hr0.
        eapply (cell_still f (m_points M) d c (or_introl ED) (fun i => if (i =? 0)%nat then Lx / INR Nx else Ly / INR Ny) [1; 2]%nat).
        - intros q Hq Z. pose proof (rect_measure c q Hc' Hq) as W. unfold get_JxW in W. rewrite Z in W. cbn in W. lra.
        - intros q i0 j1 Hi0 Hj1. rewrite ED in Hi0, Hj1.
          exact (jac_aff Rops_ring _ _ _ _ _ _ _ _ _ _ _ BUILT (ltac:(cbn; tauto)) (rect_mesh_ok Nx Ny Lx Ly HX HY _ _ _ _ _ _ f BUILT) eq_refl (m_points M) (f_equal (@List.length _) (eq_sym EP)) (/ 2) _ _ c ltac:(cbn; field) Hc' (rect_affine Nx Ny Lx Ly HX HY _ _ _ _ _ _ f BUILT c Hc) q i0 j1 Hi0 Hj1).
        - rewrite EN, EQ. destruct (built_inv _ _ _ _ _ _ _ _ _ _ _ BUILT) as (info & fi & [[ns vs] ws] & HI & HFI & HD & ->). cbn [make_fe shape_grads_ref].
          intros U Z S. exact (quad4_front info (fst quad) U HI GRID Z S).
        - intros a0 k1 Ha0 Hk1 NI. rewrite EN in Ha0. rewrite ED in Hk1. rewrite SOLV by auto.
          destruct a0 as [|[|[|[|a0]]]]; try lia; try (exfalso; apply NI; cbn; tauto); cbn [nth quad_of]; apply IH; lia.
        - intros q i0 j1 Hq Hi0 Hj1. rewrite ED in *. apply ST; auto.
        - now rewrite EN.
        - exact Hr0. }
      destruct (Nat.eq_dec j Ny) as [->|NJ].
      + pose proof (CELL (Ny - 1)%nat ltac:(lia) 2%nat r ltac:(lia) Hr) as Q. cbn [nth quad_of] in Q.
        replace (i + 1)%nat with (S i) in Q by lia. replace (Ny - 1 + 1)%nat with Ny in Q by lia. exact Q.
      + pose proof (CELL j ltac:(lia) 1%nat r ltac:(lia) Hr) as Q. cbn [nth quad_of] in Q.
        replace (i + 1)%nat with (S i) in Q by lia. exact Q.
  Qed.
  Theorem rect_held {V} (p : problem Rops V) : fes p = [f] -> p_num_cells p = num_cells f -> no_free_motion p f (m_points M).
  Proof.
    intros FE NC d SD BC ST n k Hn Hk.
    pose proof (built_vec _ _ _ _ _ _ _ _ _ _ _ BUILT) as EV. pose proof (built_dim _ _ _ _ _ _ _ _ _ _ _ BUILT) as ED.
    rewrite EV in *. rewrite (built_points _ _ _ _ _ _ _ _ _ _ _ BUILT) in Hn.
    destruct (rect_point_inv Nx Ny Lx Ly HX HY n Hn) as (i & j & Hi & Hj & ->).
    apply rect_rows_still; auto.
    - destruct SD as [_ SD]. specialize (SD 0%nat). unfold fe_of in SD. rewrite FE in SD. cbn in SD. rewrite EV in SD. apply SD. lia.
    - intros e q i0 j0 He Hq Hi0 Hj0. apply ST; rewrite ?NC, ?ED; auto.
  Qed.
End Rect.

Section Clamped.
  Context {V : Type} (lam mu : R) (sqrtK : Rops -> Rops) (p : problem Rops V) (f : fe Rops).
  Hypothesis EL : elastic_problem lam mu p f.
  Lemma el_fes : fes p = [f]. Proof. exact (KernelFacts.fes_f p f (proj1 EL)). Qed.
  Lemma el_cells : p_num_cells p = num_cells f. Proof. unfold p_num_cells, fe0. now rewrite el_fes. Qed.
End Clamped.
Theorem box_clamped {V : Type} Nx Ny Nz Lx Ly Lz (HX : (0 < Nx)%nat) (HY : (0 < Ny)%nat) (HZ : (0 < Nz)%nat) (LX : 0 < Lx) (LY : 0 < Ly) (LZ : 0 < Lz) :
  let P := m_points (box_mesh Nx Ny Nz Lx Ly Lz) in
  forall sqrtK quad fquad normals dir f (p : problem Rops V) lam mu,
  fe_init (K := Rops) sqrtK "HEX8" quad fquad normals P (m_cells (box_mesh Nx Ny Nz Lx Ly Lz)) 3 3 dir = Ok f ->
  (forall q, (q < List.length (fst quad))%nat -> 0 < nth q (snd quad) (@zero Rops)) -> grid_rule 3 (fst quad) -> left_held f ->
  elastic_problem lam mu p f -> ivs_ok p -> maps_ok (vec f) (dim f) (maps p) -> 0 <= lam -> 0 < mu -> wf_problem p ->
  (0 < p_num_cells p)%nat /\ (forall c q, (c < p_num_cells p)%nat -> (q < num_quads f)%nat -> 0 < get_JxW P f c q) /\ no_free_motion p f P /\
  exists x, solved sqrtK p f P x /\ forall y, solved sqrtK p f P y -> forall n k, (n < List.length (points f))%nat -> (k < vec f)%nat -> get2 (@zero Rops) y n k = get2 (@zero Rops) x n k.
Proof.
  intros P sqrtK quad fquad normals dir f p lam mu B QW G H EL IVS MAPS L0 M0 WF.
  assert (NC : (0 < p_num_cells p)%nat) by (rewrite (el_cells lam mu p f EL); rewrite (box_num_cells Nx Ny Nz Lx Ly Lz HX HY HZ _ _ _ _ _ _ f B); nia).
  assert (JP : forall c q, (c < p_num_cells p)%nat -> (q < num_quads f)%nat -> 0 < get_JxW P f c q).
  { rewrite (el_cells lam mu p f EL). exact (box_measure Nx Ny Nz Lx Ly Lz HX HY HZ LX LY LZ _ _ _ _ _ f B QW). }
  assert (NF : no_free_motion p f P) by exact (box_held Nx Ny Nz Lx Ly Lz HX HY HZ LX LY LZ _ _ _ _ _ f B QW G H p (el_fes lam mu p f EL) (el_cells lam mu p f EL)).
  split; [exact NC|]. split; [exact JP|]. split; [exact NF|]. exact (elastic_one_solution lam mu sqrtK p f P WF NC EL IVS MAPS L0 M0 JP NF).
Qed.
Theorem rect_clamped {V : Type} Nx Ny Lx Ly (HX : (0 < Nx)%nat) (HY : (0 < Ny)%nat) (LX : 0 < Lx) (LY : 0 < Ly) :
  let P := m_points (rectangle_mesh Nx Ny Lx Ly) in
  forall sqrtK quad fquad normals dir f (p : problem Rops V) lam mu,
  fe_init (K := Rops) sqrtK "QUAD4" quad fquad normals P (m_cells (rectangle_mesh Nx Ny Lx Ly)) 2 2 dir = Ok f ->
  (forall q, (q < List.length (fst quad))%nat -> 0 < nth q (snd quad) (@zero Rops)) -> grid_rule 2 (fst quad) -> left_held f ->
  elastic_problem lam mu p f -> ivs_ok p -> maps_ok (vec f) (dim f) (maps p) -> 0 <= lam -> 0 < mu -> wf_problem p ->
  (0 < p_num_cells p)%nat /\ (forall c q, (c < p_num_cells p)%nat -> (q < num_quads f)%nat -> 0 < get_JxW P f c q) /\ no_free_motion p f P /\
  exists x, solved sqrtK p f P x /\ forall y, solved sqrtK p f P y -> forall n k, (n < List.length (points f))%nat -> (k < vec f)%nat -> get2 (@zero Rops) y n k = get2 (@zero Rops) x n k.
Proof.
  intros P sqrtK quad fquad normals dir f p lam mu B QW G H EL IVS MAPS L0 M0 WF.
  assert (NC : (0 < p_num_cells p)%nat) by (rewrite (el_cells lam mu p f EL); rewrite (rect_num_cells Nx Ny Lx Ly HX HY _ _ _ _ _ _ f B); nia).
  assert (JP : forall c q, (c < p_num_cells p)%nat -> (q < num_quads f)%nat -> 0 < get_JxW P f c q).
  { rewrite (el_cells lam mu p f EL). exact (rect_measure Nx Ny Lx Ly HX HY LX LY _ _ _ _ _ f B QW). }
  assert (NF : no_free_motion p f P) by exact (rect_held Nx Ny Lx Ly HX HY LX LY _ _ _ _ _ f B QW G H p (el_fes lam mu p f EL) (el_cells lam mu p f EL)).
  split; [exact NC|]. split; [exact JP|]. split; [exact NF|]. exact (elastic_one_solution lam mu sqrtK p f P WF NC EL IVS MAPS L0 M0 JP NF).
Qed.
