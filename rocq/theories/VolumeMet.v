(** Lemmas for C106: the reference tetrahedron. *)
From Coq Require Import Reals String List Arith Lia Lra Bool.
From Verif Require Import Num Arr ArrFacts BatchFacts Fe Problem Basis SpecBasis SpecFe SpecGeom FeFacts GeomFacts SpecBc BcFacts SpecSelect SelectFacts ElasticFacts Lagrangian LaserHeat SpecErrorNorm ErrorNormMet HyperElastic HyperEnd Volume SpecVolume VolumeMain VolumeEnd.
Import ListNotations.
Local Open Scope R_scope.
Local Notation sum := (sum_n (K := Rops)).

Definition face_point : list (list Rops) * list Rops := ([[/ 3; / 3]], [/ 2]).
(** face k is opposite to the vertex k *)
Definition tet_normals (fc i : nat) : Rops := match fc with 0 => / sqrt 3 | _ => if (i =? fc - 1)%nat then -1 else 0 end.
(** stretch by a in the third direction *)
Definition stretch (a : R) : list (list Rops) := map (fun x => [0; 0; (a - 1) * nth 2 x 0]) (ref_points "TET4").
Lemma tet_built : exists f, fe_init (K := Rops) sqrt "TET4" one_point face_point tet_normals (ref_points "TET4") (one_cell "TET4") 3 3 None = Ok f.
Proof. eexists; reflexivity. Qed.
Section Tet.
  Variable f : fe Rops.
  Hypothesis B : fe_init (K := Rops) sqrt "TET4" one_point face_point tet_normals (ref_points "TET4") (one_cell "TET4") 3 3 None = Ok f.
  Lemma tet_mesh : mesh_ok f.
  Proof.
    pose proof (built_cells _ _ _ _ _ _ _ _ _ _ _ B) as CE. pose proof (built_points _ _ _ _ _ _ _ _ _ _ _ B) as PE. pose proof (built_nodes _ _ _ _ _ _ _ _ _ _ _ B) as NE.
    intros c Hc. rewrite CE in *. cbn [one_cell length] in Hc. assert (c = 0%nat) as -> by lia. cbn [one_cell nth]. split; [now rewrite seq_length, NE|]. intros n Hn. apply in_seq in Hn as (_ & Hn). rewrite PE. unfold ref_points. rewrite map_length. exact Hn.
  Qed.
  Lemma tet_element : built_element "TET4" 3 f.
  Proof. split; [cbn; tauto|]. split; [reflexivity|]. split; [exact tet_mesh|]. exists sqrt, one_point, face_point, tet_normals, (ref_points "TET4"), (one_cell "TET4"), 3%nat, None. exact B. Qed.
  Lemma tet_affine : affine_cell (K := Rops) (/ 2) "TET4" (ref_points "TET4") f 3 0 (fun i j => if (i =? j)%nat then 1 else 0) (fun _ => 0).
  Proof.
    intros a i Ha Hi. rewrite (built_cells _ _ _ _ _ _ _ _ _ _ _ B). cbn [one_cell nth]. rewrite seq_nth by exact Ha. cbn [Nat.add]. unfold affine.
    assert (E : nth i (nth a (ref_points "TET4") []) 0 = ref_coord (K := Rops) (/ 2) "TET4" a i).
    { change (node_count "TET4") with 4%nat in Ha. destruct a as [|[|[|[|a]]]]; [..|lia]; (destruct i as [|[|[|i]]]; [..|lia]); cbv -[Rmult Rplus Rinv IZR Ropp]; ring. }
    etransitivity; [exact E|]. symmetry. etransitivity; [exact (Rplus_0_r _)|]. exact (Rsum_delta 3 i (fun m => ref_coord (K := Rops) (/ 2) "TET4" a m) Hi).
  Qed.
  Lemma tet_points : length (ref_points "TET4") = length (points f).
  Proof. now rewrite (built_points _ _ _ _ _ _ _ _ _ _ _ B). Qed.
  Lemma tet_cells : num_cells f = 1%nat. Proof. unfold num_cells. now rewrite (built_cells _ _ _ _ _ _ _ _ _ _ _ B). Qed.
  Lemma tet_quads : num_quads f = 1%nat. Proof. now rewrite (built_quads _ _ _ _ _ _ _ _ _ _ _ B). Qed.
  Lemma tet_jxw : get_JxW (ref_points "TET4") f 0 0 = / 6.
  Proof.
    assert (HALF : add (o := Rops) (/ 2) (/ 2) = one) by (change (/ 2 + / 2 = 1); lra). assert (HC : (0 < length (cells f))%nat) by (pose proof tet_cells as C; unfold num_cells in C; lia).
    pose proof tet_affine as TA. pose proof tet_points as TP. pose proof tet_mesh as TM. assert (NN : In "TET4"%string nine_names) by (cbn; tauto).
    assert (E : get_JxW (ref_points "TET4") f 0 0 = mul (o := Rops) (det_dim (K := Rops) 3 (fun i j => if (i =? j)%nat then 1 else 0)) (quad_weights f 0)) by (eapply (jxw_aff Rops_ring); eauto).
    etransitivity; [exact E|]. rewrite (built_weights _ _ _ _ _ _ _ _ _ _ _ B). cbn. lra.
  Qed.
  Lemma tet_nonzero c q : (c < num_cells f)%nat -> (q < num_quads f)%nat -> get_JxW (ref_points "TET4") f c q <> 0.
  Proof. rewrite tet_cells, tet_quads. intros Hc Hq. assert (c = 0%nat) as -> by lia. assert (q = 0%nat) as -> by lia. intros E. assert (X : / 6 = 0) by (etransitivity; [symmetry; exact tet_jxw|exact E]). lra. Qed.
  Lemma tet_volume : mesh_volume (ref_points "TET4") f = / 6.
  Proof. unfold mesh_volume. rewrite tet_cells, tet_quads. transitivity ((get_JxW (ref_points "TET4") f 0 0 + 0) + 0); [reflexivity|]. rewrite !Rplus_0_r. exact tet_jxw. Qed.
  Lemma stretch_moved a : moved_affinely 3 (fun i j => if (i =? j)%nat then (if (i =? 2)%nat then a else 1) else 0) (fun _ => 0) (ref_points "TET4") (stretch a).
  Proof.
    split; [unfold stretch; now rewrite map_length|]. intros n i Hn Hi. change (length (ref_points "TET4")) with 4%nat in Hn. unfold affine.
    destruct n as [|[|[|[|n]]]]; [..|lia]; (destruct i as [|[|[|i]]]; [..|lia]); cbv -[Rmult Rplus Rminus Rinv IZR Ropp]; ring.
  Qed.
  Lemma stretch_volume a : crt_volume (ref_points "TET4") f (stretch a) = a / 6.
  Proof.
    etransitivity; [exact (volume_affine "TET4" 3 f (ref_points "TET4") tet_element tet_points (stretch a) _ _ (stretch_moved a) (built_vec _ _ _ _ _ _ _ _ _ _ _ B) tet_nonzero)|].
    rewrite tet_volume. unfold det_dim. cbn. field.
  Qed.
  Lemma tet_facet_normals : facet_normals "TET4" 3 f.
  Proof.
    assert (S3 : sqrt 3 * sqrt 3 = 3) by (apply sqrt_sqrt; lra). assert (N3 : sqrt 3 <> 0) by (intros E; rewrite E in S3; lra).
    assert (I : / sqrt 3 * / sqrt 3 = / 3) by (rewrite <- Rinv_mult, S3; reflexivity).
    destruct (built_inv _ _ _ _ _ _ _ _ _ _ _ B) as (info & fi & [[ns vs] ws] & HI & HFI & HD & Hf).
    injection HI as <-. cbn in HFI. injection HFI as <-. assert (NE : face_normals f = tet_normals) by now rewrite Hf. assert (FE : face_inds f = [[1; 2; 3]; [0; 2; 3]; [0; 1; 3]; [0; 1; 2]]%nat) by now rewrite Hf.
    intros fc Hfc. rewrite NE, FE in *. cbn [length] in Hfc. destruct fc as [|[|[|[|fc]]]]; [..|lia]; split.
    all: try (intros k Hk; destruct k as [|[|k]]; [..|lia]); cbv -[Rmult Rplus Rminus Rinv IZR Ropp sqrt]; try ring.
    all: try (rewrite I; lra).
  Qed.
  Lemma tet_area sol : exists area, compute_surface_area sqrt (ref_points "TET4") f (Loc1 (fun _ => true)) sol = Ok area /\ forall k, area k = 3 / 2 + sqrt 3 / 2.
  Proof.
    assert (AF : forall c, (c < num_cells f)%nat -> exists M b, affine_cell (K := Rops) (/ 2) "TET4" (ref_points "TET4") f 3 c M b /\ 0 < det_dim (K := Rops) 3 M).
    { intros c Hc. rewrite tet_cells in Hc. assert (c = 0%nat) as -> by lia. eexists _, _. split; [exact tet_affine|]. unfold det_dim. cbn. lra. }
    destruct (area_true _ _ _ _ _ _ _ _ _ f (ref_points "TET4") sol (fun _ => true) B tet_element tet_points AF tet_facet_normals) as (inds & area & GB & FS & E & A).
    exists area. split; [exact E|]. intros k. rewrite A.
    destruct (built_inv _ _ _ _ _ _ _ _ _ _ _ B) as (info & fi & [[ns vs] ws] & HI & HFI & HD & Hf).
    injection HI as <-. cbn in HFI. injection HFI as <-.
    assert (IE : inds = [(0, 0); (0, 1); (0, 2); (0, 3)]%nat).
    { rewrite Hf in GB. cbn in GB. injection GB as <-. reflexivity. }
    assert (FE : face_inds f = [[1; 2; 3]; [0; 2; 3]; [0; 1; 3]; [0; 1; 2]]%nat) by now rewrite Hf. assert (QE : num_face_quads f = 1%nat) by now rewrite Hf. assert (CE : cells f = one_cell "TET4") by now rewrite Hf.
    rewrite IE, QE. cbn [sum_over map sumK fold_right fst snd].
    assert (S1 : forall fc, (fc = 1 \/ fc = 2 \/ fc = 3)%nat -> facet_size 3 (facet_edges (ref_points "TET4") f 0 fc) = 1).
    { intros fc Hfc. rewrite <- sqrt_1. unfold facet_size, facet_edges, vx, cell_node. rewrite FE, CE. f_equal. destruct Hfc as [-> | [-> | ->]]; cbv -[Rmult Rplus Rminus Rinv IZR Ropp]; field. }
    assert (S0 : facet_size 3 (facet_edges (ref_points "TET4") f 0 0) = sqrt 3).
    { unfold facet_size, facet_edges, vx, cell_node. rewrite FE, CE. f_equal. cbv -[Rmult Rplus Rminus Rinv IZR Ropp]. field. }
    change ((facet_size 3 (facet_edges (ref_points "TET4") f 0 0) + (facet_size 3 (facet_edges (ref_points "TET4") f 0 1) + (facet_size 3 (facet_edges (ref_points "TET4") f 0 2) + (facet_size 3 (facet_edges (ref_points "TET4") f 0 3) + 0)))) * (/ 2 + 0) = 3 / 2 + sqrt 3 / 2).
    rewrite S0, !S1 by tauto. field.
  Qed.
End Tet.
