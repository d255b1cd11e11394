(** Proof of C08. *)
From Coq Require Import List Arith Lia Bool String ZArith Reals Lra Psatz.
From Verif Require Import Num Arr ArrFacts Fe Basis SpecBasis BasisFacts SpecFe SpecGeom FeFacts GeomFacts MeasureFacts.
Import ListNotations.

(** the local nodes of face fc of an element, as listed in face_inds *)
Lemma face_nodes s i fi : get_elements s = Ok i -> reorder_inds (facets (basix_ele i)) (re_order i) = Ok fi ->
  List.length fi = List.length (facets (basix_ele i)) /\
  forall fc, fc < List.length fi ->
    List.length (nth fc fi []) = List.length (nth fc (facets (basix_ele i)) []) /\
    element_dim s <= List.length (nth fc fi []) /\
    forall k, k < List.length (nth fc fi []) ->
      nth k (nth fc fi []) 0 < node_count s /\
      nth (nth k (nth fc fi []) 0) (mesh_nodes2 s) []
      = map (Nat.mul 2) (nth (nth k (nth fc (facets (basix_ele i)) []) 0) (geometry (basix_ele i)) []).
Proof.
  intros H HF. destruct (face_table s i H) as (fi' & HF' & E). rewrite HF in HF'. injection HF' as <-.
  assert (L : List.length fi = List.length (facets (basix_ele i))).
  { apply (f_equal (@List.length _)) in E. now rewrite !map_length in E. }
  split; [exact L|]. intros fc Hfc.
  assert (E1 : map (fun k => nth k (mesh_nodes2 s) []) (nth fc fi []) =
     map (fun v => map (Nat.mul 2) (nth v (geometry (basix_ele i)) [])) (nth fc (facets (basix_ele i)) [])).
  { apply (f_equal (fun l => nth fc l [])) in E.
    rewrite (nth_map_in _ _ _ []) in E by auto. rewrite (nth_map_in _ _ _ []) in E by lia. exact E. }
  assert (L1 : List.length (nth fc fi []) = List.length (nth fc (facets (basix_ele i)) [])).
  { apply (f_equal (@List.length _)) in E1. now rewrite !map_length in E1. }
  split; [exact L1|].
  pose proof (get_elements_cases s i H) as I.
  assert (C : forallb (fun row => (element_dim s <=? List.length row) && forallb (fun k => k <? node_count s) row) fi = true).
  { clear - H HF I. names I; injection H as <-; vm_compute in HF; injection HF as <-; vm_compute; reflexivity. }
  rewrite forallb_forall in C. specialize (C (nth fc fi []) (nth_In _ _ Hfc)). apply andb_prop in C as [C1 C2].
  apply Nat.leb_le in C1. split; [exact C1|]. intros k Hk. split.
  - rewrite forallb_forall in C2. apply Nat.ltb_lt, C2, nth_In, Hk.
  - apply (f_equal (fun l => nth k l [])) in E1.
    rewrite (nth_map_in _ _ _ 0) in E1 by auto. rewrite (nth_map_in _ _ _ 0) in E1 by lia. exact E1.
Qed.

Lemma facet_count s i : get_elements s = Ok i -> 0 < List.length (facets (basix_ele i)).
Proof. intros H. pose proof (get_elements_cases s i H) as I. names I; injection H as <-; cbn; lia. Qed.

Section Main.
  Open Scope R_scope.
  Let half : Rops := / 2.
  Lemma half_ok : @eq Rops (add half half) one.
  Proof. change (/2 + /2 = 1). lra. Qed.

  Variables (s : string) (quad fquad : list (list Rops) * list Rops) (normals : nat -> nat -> Rops)
    (pts0 : list (list Rops)) (cls : list (list nat)) (v d : nat)
    (dir : option (list (location_fn Rops) * list nat * list (list Rops -> Rops))) (f : fe Rops).
  Hypothesis BUILT : fe_init (K := Rops) sqrt s quad fquad normals pts0 cls v d dir = Ok f.
  Hypothesis LAG : In s nine_names.
  Hypothesis MESH : mesh_ok f.
  Hypothesis DIM : d = element_dim s.
  Variable pts : list (list Rops).
  Hypothesis PTS : List.length pts = List.length (points f).
  Variables (M : nat -> nat -> Rops) (b : nat -> Rops) (c : nat).
  Hypothesis CELL : (c < List.length (cells f))%nat.
  Hypothesis AFF : affine_cell half s pts f d c M b.
  Variable fc : nat.
  Hypothesis FACE : (fc < List.length (face_inds f))%nat.

  (** local node number of vertex k of the face *)
  Let fv k := nth k (nth fc (face_inds f) []) 0%nat.
  Let tangent k i : R := ref_coord half s (fv (S k)) i - ref_coord half s (fv 0) i.
  Let edge k i : R := vx pts f c (fv (S k)) i - vx pts f c (fv 0) i.

  Lemma sum2 (g : nat -> Rops) : sum_n 2 g = g 0%nat + g 1%nat.
  Proof. unfold sum_n, sum_over, sumK. cbn. lra. Qed.
  Lemma sum3 (g : nat -> Rops) : sum_n 3 g = g 0%nat + g 1%nat + g 2%nat.
  Proof. unfold sum_n, sum_over, sumK. cbn. lra. Qed.

  Lemma fv_lt k : (k < d)%nat -> (fv k < node_count s)%nat.
  Proof.
    intros Hk. destruct (built_inv _ _ _ _ _ _ _ _ _ _ _ BUILT) as (info & fi & [[ns vs] ws] & HI & HFI & HD & Hf).
    unfold fv. assert (E : face_inds f = fi) by now rewrite Hf. rewrite E in *.
    destruct (face_nodes s info fi HI HFI) as [_ T]. destruct (T fc FACE) as (_ & T1 & T2). apply T2. lia.
  Qed.
  Lemma edge_tangent k i : (S k < d)%nat -> (i < d)%nat -> edge k i = sum_n d (fun j => M i j * tangent k j).
  Proof.
    intros Hk Hi. unfold edge, vx. rewrite AFF, AFF by (auto; apply fv_lt; lia).
    unfold affine, tangent. assert (D : d = 2%nat \/ d = 3%nat) by (eapply dim23; eauto).
    destruct D as [E|E]; clear - E; subst d; rewrite ?sum2, ?sum3;
      generalize (ref_coord half s (fv (S k))) as r1, (ref_coord half s (fv 0)) as r2; intros r1 r2; 
      cbn; ring.
  Qed.
  Lemma tangent_facet k i info : get_elements s = Ok info -> (S k < d)%nat -> 
    facet_jacobian (K := Rops) (basix_ele info) fc i k = tangent k i.
  Proof.
    intros HI Hk. unfold facet_jacobian, tangent.
    assert (V : forall k, (k < d)%nat -> vertexK (K := Rops) (basix_ele info) (nth k (nth fc (facets (basix_ele info)) []) 0%nat) i
        = ref_coord half s (fv k) i).
    { intros m Hm. destruct (built_inv _ _ _ _ _ _ _ _ _ _ _ BUILT) as (info' & fi & [[ns vs] ws] & HI' & HFI & HD & Hf).
      rewrite HI in HI'. injection HI' as <-. assert (E : face_inds f = fi) by now rewrite Hf. 
      destruct (face_nodes s info fi HI HFI) as [_ T]. rewrite E in FACE. destruct (T fc FACE) as (_ & T1 & T2).
      unfold vertexK, ref_coord, fv. rewrite E. rewrite (proj2 (T2 m ltac:(lia))).
      assert (N : forall l (j : nat), nth j (map (Nat.mul 2) l) 0%nat = (2 * nth j l 0)%nat).
      { intros l j. exact (map_nth (Nat.mul 2) l 0%nat j). }
      rewrite N. rewrite Nat2Z.inj_mul. rewrite (ofZ_mul Rops_ring). set (z := ofZ (K := Rops) (Z.of_nat _)).
      rewrite ofZ_2. change (z = (1 + 1) * z * / 2). lra. }
    change (@sub Rops ?a ?b) with (a - b). now rewrite !V by lia.
  Qed.
  Hypothesis DET : det_dim d M <> 0.
  Hypothesis UNIT : sum_n d (fun i => face_normals f fc i * face_normals f fc i) = 1.
  Hypothesis ORTH : forall k, (S k < d)%nat -> sum_n d (fun i => face_normals f fc i * tangent k i) = 0.

  Lemma row_aff q j : (j < d)%nat ->
    sum_n d (fun i => face_normals f fc i * inv_mat d (face_jacobian pts f c fc q) i j)
    = sum_n d (fun i => face_normals f fc i * cof d M i j) / det_dim d M.
  Proof.
    intros Hj. assert (D : d = 2%nat \/ d = 3%nat) by (eapply dim23; eauto).
    rewrite (sum_n_ext d _ (fun i => (face_normals f fc i * cof d M i j) * / det_dim d M)).
    - rewrite (sum_n_mul_r' Rops_ring). reflexivity.
    - intros i Hi. rewrite (inv_mat_ext d _ M) by (auto; intros; eapply (face_jac_aff Rops_ring); eauto using half_ok).
      rewrite (inv_mat_cof Rops_field). rewrite (det_dim_ok Rops_ring d M D). cbn. ring.
  Qed.
  Lemma sqrt_sign x Q T w : x <> 0 -> 0 <= Q -> 0 <= T -> sqrt (Q * / (x * x)) * x * (w * sqrt T) = sign x * sqrt (Q * T) * w.
  Proof.
    intros Hx HQ HT. change (Q * / (x * x)) with (Q / (x * x)). rewrite sqrt_div by nra. rewrite (sqrt_mult Q T) by assumption.
    replace (sqrt (x * x)) with (Rabs x) by (change (x * x) with (Rsqr x); now rewrite sqrt_Rsqr_abs).
    unfold sign. destruct (Rlt_dec x 0).
    - rewrite Rabs_left by assumption. field. assumption.
    - rewrite Rabs_right by lra. field. assumption.
  Qed.

  Lemma nanson_aff q : nanson_scale (K := Rops) sqrt pts f c fc q
    = sign (det_dim d M) * facet_size d edge * nth q (snd fquad) 0.
  Proof.
    destruct (built_inv _ _ _ _ _ _ _ _ _ _ _ BUILT) as (info & fi & [[ns vs] ws] & HI & HFI & HD & Hf).
    assert (D : d = 2%nat \/ d = 3%nat) by (eapply dim23; eauto).
    assert (W : face_quad_weights f fc q = nth q (snd fquad) 0 * size_jacobian (K := Rops) sqrt (basix_ele info) fc) by now rewrite Hf.
    unfold nanson_scale. cbv zeta. rewrite (built_dim _ _ _ _ _ _ _ _ _ _ _ BUILT), W. unfold size_jacobian.
    rewrite <- (element_dim_ok s info HI), <- DIM.
    rewrite (det_ext d _ M) by (intros; eapply (face_jac_aff Rops_ring); eauto using half_ok).
    rewrite (det_dim_ok Rops_ring d M D).
    set (DM := det_dim d M) in *.
    set (C j := sum_n d (fun i => face_normals f fc i * cof d M i j)).
    rewrite (sum_n_ext d _ (fun j => (C j * C j) * / (DM * DM))).
    2:{ intros j Hj. rewrite row_aff by auto. fold (C j) DM. cbn. field. exact DET. }
    rewrite (sum_n_mul_r' Rops_ring).
    pose proof UNIT as UN. destruct D as [E|E]; rewrite E in UN |- *.
    - (* 2D *)
      cbn match. rewrite (sum_n_ext 2 (fun j => mul (facet_jacobian (K := Rops) (basix_ele info) fc j 0) (facet_jacobian (basix_ele info) fc j 0)) (fun j => tangent 0 j * tangent 0 j)) by
        (intros j Hj; rewrite (tangent_facet 0 j info HI) by lia; reflexivity).
      unfold facet_size. rewrite !sum2.
      change (@mul Rops) with Rmult. change (@add Rops) with Rplus. rewrite (sqrt_sign DM); [|exact DET|nra|nra].
      f_equal. f_equal. f_equal.
      rewrite sum2 in UN. pose proof (ORTH 0 ltac:(lia)) as O. rewrite E, sum2 in O.
      pose proof (unit_normal2 (fun j i => cof 2 M i j) (face_normals f fc) (tangent 0) UN O) as U. cbv zeta in U.
      pose proof (edge_tangent 0 0 ltac:(lia) ltac:(lia)) as E0. pose proof (edge_tangent 0 1 ltac:(lia) ltac:(lia)) as E1.
      rewrite E, sum2 in E0. rewrite E, sum2 in E1. rewrite E0, E1.
      transitivity (((fun v i => cof 2 M 0 i * v 0%nat + cof 2 M 1 i * v 1%nat) (face_normals f fc) 0%nat *
          (fun v i => cof 2 M 0 i * v 0%nat + cof 2 M 1 i * v 1%nat) (face_normals f fc) 0%nat +
          (fun v i => cof 2 M 0 i * v 0%nat + cof 2 M 1 i * v 1%nat) (face_normals f fc) 1%nat *
          (fun v i => cof 2 M 0 i * v 0%nat + cof 2 M 1 i * v 1%nat) (face_normals f fc) 1%nat) *
         (tangent 0 0%nat * tangent 0 0%nat + tangent 0 1%nat * tangent 0 1%nat)).
      { unfold C. rewrite E, !sum2. ring. }
      rewrite U. generalize (tangent 0) as t. intros t.
      cbv [cof det minor skip sgn sum_n sum_over sumK seq map fold_right Nat.even Nat.ltb Nat.leb Nat.add Nat.sub]. cbn. ring.
    - cbn match. set (t1 := tangent 0). set (t2 := tangent 1).
      rewrite (sum_n_ext 3 (fun j => mul (cross _ _ j) (cross _ _ j)) (fun j => cross3 t1 t2 j * cross3 t1 t2 j)).
      2:{ intros j Hj. unfold cross, cross3. rewrite !(tangent_facet 0 _ info HI), !(tangent_facet 1 _ info HI) by lia.
          fold t1 t2. destruct j as [|[|[|j]]]; try lia; reflexivity. }
      unfold facet_size. rewrite !sum3.
      change (@mul Rops) with Rmult. change (@add Rops) with Rplus. rewrite (sqrt_sign DM); [|exact DET|nra|nra].
      f_equal. f_equal. f_equal.
      rewrite sum3 in UN. pose proof (ORTH 0 ltac:(lia)) as O1. pose proof (ORTH 1 ltac:(lia)) as O2.
      rewrite E, sum3 in O1. rewrite E, sum3 in O2. fold t1 in O1. fold t2 in O2.
      pose proof (unit_normal3 (fun j i => cof 3 M i j) (face_normals f fc) t1 t2 UN O1 O2) as U. cbv zeta in U.
      transitivity (dot3 (fun i => cof 3 M 0 i * face_normals f fc 0%nat + cof 3 M 1 i * face_normals f fc 1%nat + cof 3 M 2 i * face_normals f fc 2%nat)
         (fun i => cof 3 M 0 i * face_normals f fc 0%nat + cof 3 M 1 i * face_normals f fc 1%nat + cof 3 M 2 i * face_normals f fc 2%nat)
         * dot3 (cross3 t1 t2) (cross3 t1 t2)).
      { unfold C, dot3. rewrite E, !sum3. ring. }
      rewrite U.
      assert (G : forall k, (k < 2)%nat -> forall i, (i < 3)%nat -> edge k i = M i 0%nat * tangent k 0%nat + M i 1%nat * tangent k 1%nat + M i 2%nat * tangent k 2%nat).
      { intros k Hk i Hi. rewrite edge_tangent by lia. rewrite E. apply sum3. }
      assert (V : forall i, (i < 3)%nat -> cross3 (edge 0) (edge 1) i =
         cof 3 M 0 i * cross3 t1 t2 0%nat + cof 3 M 1 i * cross3 t1 t2 1%nat + cof 3 M 2 i * cross3 t1 t2 2%nat).
      { intros i Hi. unfold cross3. rewrite !(G 0%nat), !(G 1%nat) by lia. fold t1 t2.
        generalize t1 t2. intros u w. destruct i as [|[|[|i]]]; try lia;
        cbv [cof det minor skip sgn sum_n sum_over sumK seq map fold_right Nat.even Nat.ltb Nat.leb Nat.add Nat.sub]; cbn; ring. }
      unfold dot3. rewrite !V by lia. reflexivity.
  Qed.
End Main.
