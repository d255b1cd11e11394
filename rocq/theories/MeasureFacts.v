(** Proofs of C07: measures of triangles, tetrahedra and quadrilaterals. *)
From Coq Require Import List Arith Lia Bool String ZArith Field_theory.
From Verif Require Import Num Arr ArrFacts Fe Basis SpecBasis BasisFacts SpecFe SpecGeom FeFacts GeomFacts.
Import ListNotations.

Section Measure.
  Context {K : ops} (KR : ring_laws K).
  Open Scope num_scope.
  Let Kth : ring_theory (@zero K) one add mul sub opp eq := KR.
  Add Ring KringJ : Kth.

  Lemma node0 (half : K) : ofZ (Z.of_nat 0) * half = 0.
  Proof. change (0 * half = 0). ring. Qed.
  Lemma node2 (half : K) : half + half = 1 -> ofZ (Z.of_nat 2) * half = 1.
  Proof. intros <-. change ((1 + 1) * half = half + half). ring. Qed.

  Lemma simplex_affine (half : K) s pts f d c : half + half = 1 -> (s = "TRI3" /\ d = 2%nat \/ s = "TET4" /\ d = 3%nat)%string ->
    affine_cell half s pts f d c (edge_mat pts f c) (fun i => vx pts f c 0 i).
  Proof.
    intros Hh Hs a i Ha Hi. fold (vx pts f c a i).
    destruct Hs as [[-> ->]|[-> ->]];
      [change (node_count "TRI3") with 3%nat in Ha | change (node_count "TET4") with 4%nat in Ha];
      (destruct a as [|[|[|[|a]]]]; try lia);
      unfold affine, edge_mat, ref_coord, sum_n, sum_over, sumK;
      cbn [seq map fold_right nth mesh_nodes2 String.eqb Ascii.eqb Bool.eqb firstn hex_mesh_nodes tet_mesh_nodes tri_mesh_nodes];
      rewrite ?node0, ?(node2 half Hh); ring.
  Qed.

  (** QUAD4 *)
  Lemma quad4_shape_grads (info : element_info) (x : list K) : get_elements "QUAD4" = Ok info ->
    let X := pt x 0%nat in let Y := pt x 1%nat in
    shape_grad info x 0 0 = Y - 1 /\ shape_grad info x 1 0 = 1 - Y /\ shape_grad info x 2 0 = Y /\ shape_grad info x 3 0 = - Y /\
    shape_grad info x 0 1 = X - 1 /\ shape_grad info x 1 1 = - X /\ shape_grad info x 2 1 = X /\ shape_grad info x 3 1 = 1 - X.
  Proof.
    intros H. cbn in H. injection H as <-. cbv zeta.
    set (X := pt x). repeat split; unfold shape_grad; fold X; cbv -[add sub mul opp zero one X car]; ring.
  Qed.
  Lemma quad4_measure (sqrtK : K -> K) quad fquad normals pts0 cls v dir f pts c (half : K) :
    fe_init sqrtK "QUAD4" quad fquad normals pts0 cls v 2 dir = Ok f ->
    mesh_ok f -> List.length pts = List.length (points f) -> (c < List.length (cells f))%nat ->
    half + half = 1 ->
    sum_n (num_quads f) (quad_weights f) = 1 ->
    sum_n (num_quads f) (fun q => quad_weights f q * pt (nth q (fst quad) []) 0) = half ->
    sum_n (num_quads f) (fun q => quad_weights f q * pt (nth q (fst quad) []) 1) = half ->
    let x a := vx pts f c a 0%nat in let y a := vx pts f c a 1%nat in
    sum_n (num_quads f) (get_JxW pts f c)
    = half * (sum_n 4 (fun a => x a * y ((a + 1) mod 4) - x ((a + 1) mod 4) * y a)).
  Proof.
    intros HB HM HP Hc Hh W W0 W1 x y.
    destruct (built_inv _ _ _ _ _ _ _ _ _ _ _ HB) as (info & fi & [[ns vs] ws] & HI & HFI & HD & Hf).
    assert (N : num_nodes f = 4%nat) by (rewrite (built_nodes _ _ _ _ _ _ _ _ _ _ _ HB); reflexivity).
    set (A := (x 1%nat - x 0%nat) * (y 3%nat - y 0%nat) - (x 3%nat - x 0%nat) * (y 1%nat - y 0%nat)).
    set (B := (x 1%nat - x 0%nat) * (y 2%nat - y 3%nat) - (x 2%nat - x 3%nat) * (y 1%nat - y 0%nat)).
    set (C := (y 3%nat - y 0%nat) * (x 2%nat - x 1%nat) - (x 3%nat - x 0%nat) * (y 2%nat - y 1%nat)).
    set (X q := pt (nth q (fst quad) []) 0%nat). set (Y q := pt (nth q (fst quad) []) 1%nat).
    rewrite (sum_n_ext _ _ (fun q => A * quad_weights f q + (B * (quad_weights f q * X q) + C * (quad_weights f q * Y q)))).
    - rewrite !(sum_n_add KR), !(sum_n_mul_l KR), W. unfold X, Y. rewrite W0, W1.
      transitivity ((half + half) * A + B * half + C * half); [rewrite Hh; ring|]. unfold A, B, C.
      unfold sum_n, sum_over, sumK. cbn [seq map fold_right]. 
      change ((0 + 1) mod 4)%nat with 1%nat. change ((1 + 1) mod 4)%nat with 2%nat.
      change ((2 + 1) mod 4)%nat with 3%nat. change ((3 + 1) mod 4)%nat with 0%nat. ring.
    - intros q Hq. unfold get_JxW. rewrite (built_dim _ _ _ _ _ _ _ _ _ _ _ HB), (det_det2 KR). unfold det2, jacobian_dx_deta.
      rewrite N. destruct (quad4_shape_grads info (nth q (fst quad) []) HI) as (E1 & E2 & E3 & E4 & E5 & E6 & E7 & E8).
      assert (G : forall a j, shape_grads_ref f q a j = shape_grad info (nth q (fst quad) []) a j) by (intros; now rewrite Hf).
      unfold sum_n, sum_over, sumK. cbn [seq map fold_right]. rewrite !G, E1, E2, E3, E4, E5, E6, E7, E8.
      assert (V : forall a i, (a < 4)%nat -> coo pts f c a i = vx pts f c a i) by
        (intros a i Ha; apply (coo_vx "QUAD4" 2 f HM eq_refl pts HP); [exact Hc|now rewrite N]).
      rewrite !V by lia.
      change (vx pts f c 0 0) with (x 0%nat). change (vx pts f c 1 0) with (x 1%nat).
      change (vx pts f c 2 0) with (x 2%nat). change (vx pts f c 3 0) with (x 3%nat).
      change (vx pts f c 0 1) with (y 0%nat). change (vx pts f c 1 1) with (y 1%nat).
      change (vx pts f c 2 1) with (y 2%nat). change (vx pts f c 3 1) with (y 3%nat).
      unfold A, B, C, X, Y. ring.
  Qed.
End Measure.

(** facets *)
From Coq Require Import Reals Lra Psatz.
Section Nanson.
  Open Scope R_scope.
  (** if n is a unit vector orthogonal to t1 and t2, then |C n| |m| = |C m| for m = t1 x t2 and linear C *)
  Lemma unit_normal3 (C : nat -> nat -> R) (n t1 t2 : nat -> R) :
    dot3 n n = 1 -> dot3 n t1 = 0 -> dot3 n t2 = 0 ->
    let m := cross3 t1 t2 in
    let ap := fun v i => C i 0%nat * v 0%nat + C i 1%nat * v 1%nat + C i 2%nat * v 2%nat in
    dot3 (ap n) (ap n) * dot3 m m = dot3 (ap m) (ap m).
  Proof.
    intros H1 H2 H3 m ap.
    (* m = (n . m) n *)
    assert (P : forall i, (i < 3)%nat -> m i = dot3 n m * n i).
    { intros i Hi. unfold dot3 in *.
      assert (E : m i * (n 0%nat * n 0%nat + n 1%nat * n 1%nat + n 2%nat * n 2%nat)
        = (n 0%nat * m 0%nat + n 1%nat * m 1%nat + n 2%nat * m 2%nat) * n i
          + match i with
            | 0%nat => n 1%nat * ((n 0%nat*t2 0%nat+n 1%nat*t2 1%nat+n 2%nat*t2 2%nat)* -t1 2%nat + (n 0%nat*t1 0%nat+n 1%nat*t1 1%nat+n 2%nat*t1 2%nat)*t2 2%nat)
                  - n 2%nat * ((n 0%nat*t2 0%nat+n 1%nat*t2 1%nat+n 2%nat*t2 2%nat)* -t1 1%nat + (n 0%nat*t1 0%nat+n 1%nat*t1 1%nat+n 2%nat*t1 2%nat)*t2 1%nat)
            | 1%nat => n 2%nat * ((n 0%nat*t2 0%nat+n 1%nat*t2 1%nat+n 2%nat*t2 2%nat)* -t1 0%nat + (n 0%nat*t1 0%nat+n 1%nat*t1 1%nat+n 2%nat*t1 2%nat)*t2 0%nat)
                  - n 0%nat * ((n 0%nat*t2 0%nat+n 1%nat*t2 1%nat+n 2%nat*t2 2%nat)* -t1 2%nat + (n 0%nat*t1 0%nat+n 1%nat*t1 1%nat+n 2%nat*t1 2%nat)*t2 2%nat)
            | _ => n 0%nat * ((n 0%nat*t2 0%nat+n 1%nat*t2 1%nat+n 2%nat*t2 2%nat)* -t1 1%nat + (n 0%nat*t1 0%nat+n 1%nat*t1 1%nat+n 2%nat*t1 2%nat)*t2 1%nat)
                  - n 1%nat * ((n 0%nat*t2 0%nat+n 1%nat*t2 1%nat+n 2%nat*t2 2%nat)* -t1 0%nat + (n 0%nat*t1 0%nat+n 1%nat*t1 1%nat+n 2%nat*t1 2%nat)*t2 0%nat)
            end).
      { unfold m. destruct i as [|[|[|i]]]; try lia; cbn [cross3]; ring. }
      rewrite H1, H2, H3 in E. destruct i as [|[|[|i]]]; try lia; lra. }
    revert P. generalize (dot3 n m). intros l P.
    assert (Pa : forall i, ap m i = l * ap n i).
    { intros i. unfold ap. rewrite (P 0%nat), (P 1%nat), (P 2%nat) by lia. ring. }
    assert (Pm : dot3 m m = l * l).
    { transitivity (l * l * dot3 n n); [|rewrite H1; ring].
      unfold dot3. rewrite !(P 0%nat), !(P 1%nat), !(P 2%nat) by lia. ring. }
    rewrite Pm. unfold dot3. rewrite !Pa. ring.
  Qed.

  (** in the plane *)
  Lemma unit_normal2 (C : nat -> nat -> R) (n t : nat -> R) :
    n 0%nat * n 0%nat + n 1%nat * n 1%nat = 1 -> n 0%nat * t 0%nat + n 1%nat * t 1%nat = 0 ->
    let m := fun i => match i with 0%nat => t 1%nat | _ => - t 0%nat end in
    let ap := fun v i => C i 0%nat * v 0%nat + C i 1%nat * v 1%nat in
    (ap n 0%nat * ap n 0%nat + ap n 1%nat * ap n 1%nat) * (t 0%nat * t 0%nat + t 1%nat * t 1%nat)
    = ap m 0%nat * ap m 0%nat + ap m 1%nat * ap m 1%nat.
  Proof.
    intros H1 H2 m ap. set (l := n 0%nat * m 0%nat + n 1%nat * m 1%nat).
    assert (P0 : m 0%nat = l * n 0%nat).
    { transitivity (m 0%nat * (n 0%nat * n 0%nat + n 1%nat * n 1%nat)); [rewrite H1; ring|]. unfold l, m.
      transitivity (n 0%nat * n 0%nat * t 1%nat - n 1%nat * (n 0%nat * t 0%nat) + n 1%nat * (n 0%nat * t 0%nat + n 1%nat * t 1%nat)); [ring|].
      rewrite H2. ring. }
    assert (P1 : m 1%nat = l * n 1%nat).
    { transitivity (m 1%nat * (n 0%nat * n 0%nat + n 1%nat * n 1%nat)); [rewrite H1; ring|]. unfold l, m.
      transitivity ((n 0%nat * t 1%nat - n 1%nat * t 0%nat) * n 1%nat - n 0%nat * (n 0%nat * t 0%nat + n 1%nat * t 1%nat)); [ring|].
      rewrite H2. ring. }
    assert (Pt : t 0%nat * t 0%nat + t 1%nat * t 1%nat = l * l).
    { transitivity (m 0%nat * m 0%nat + m 1%nat * m 1%nat); [unfold m; ring|]. rewrite P0, P1.
      transitivity (l * l * (n 0%nat * n 0%nat + n 1%nat * n 1%nat)); [ring|rewrite H1; ring]. }
    unfold ap. rewrite Pt, P0, P1. ring.
  Qed.
End Nanson.
