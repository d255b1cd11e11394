(** Concrete meshes meeting the hypotheses of C01-C10. *)
From Coq Require Import List Arith Bool Lia String ZArith QArith Qcanon Reals Lra.
From Verif Require Import Num Arr ArrFacts Fe Basis SpecBasis SpecFe SpecGeom SpecSelect Properties_basis Properties_fe.
Import ListNotations.
Local Open Scope string_scope.

Definition qc (n : Z) (d : positive) : Qcops := Q2Qc (n # d).
Definition qmap (l : list (list Z)) : list (list Qcops) := map (map (fun z => qc z 1)) l.

(** Two distorted quadrilaterals sharing an edge, one-point rules, two groups of constraints. *)
Definition exq_pts := qmap [[0; 0]; [3; 0]; [7; 1]; [0; 2]; [4; 3]; [6; 5]]%Z.
Definition exq_cls := [[0; 1; 4; 3]; [1; 2; 5; 4]]%nat.
Definition exq_quad : list (list Qcops) * list Qcops := ([[qc 1 2; qc 1 2]], [qc 1 1]).
Definition exq_fquad : list (list Qcops) * list Qcops := ([[qc 1 2]], [qc 1 1]).
Definition is0 (x : Qcops) : bool := if Qc_eq_dec x (qc 0 1) then true else false.
Definition exq_locs : list (location_fn Qcops) := [Loc1 (fun p => is0 (nth 0 p (qc 7 1))); Loc2 (fun _ n => n <? 2)%nat].
Definition exq_dir := Some (exq_locs, [0; 1]%nat, [(fun p : list Qcops => nth 1 p (qc 0 1)); (fun _ => qc 5 1)]).
Definition exq_init := fe_init (fun x => x) "QUAD4" exq_quad exq_fquad (fun _ _ => qc 0 1) exq_pts exq_cls 2 2 exq_dir.
Definition exq : fe Qcops := match exq_init with Ok f => f | Err _ => mkFe [] [] 0 0 0 0 0 0 (fun _ _ => qc 0 1) (fun _ _ _ => qc 0 1) (fun _ => qc 0 1) (fun _ _ _ => qc 0 1) (fun _ _ _ _ => qc 0 1) (fun _ _ => qc 0 1) (fun _ _ => qc 0 1) [] [] [] [] end.
Example exq_built : exq_init = Ok exq.
Proof. reflexivity. Qed.
Example exq_mesh : mesh_ok exq.
Proof.
  intros c Hc. change (c < 2)%nat in Hc. change (num_nodes exq) with 4%nat. change (List.length (points exq)) with 6%nat.
  change (cells exq) with exq_cls. destruct c as [|[|c]]; [| |lia]; (split; [reflexivity|]); intros n Hn; cbn in Hn; lia.
Qed.
Example exq_element : built_element "QUAD4" 2 exq.
Proof.
  split; [cbn; tauto|split; [reflexivity|split; [exact exq_mesh|]]].
  repeat eexists. exact exq_built.
Qed.
(** an affine field on it *)
Definition exA (k m : nat) : Qcops := qc (Z.of_nat (2 * k + 3 * m + 1)) 2.
Definition exb (k : nat) : Qcops := qc (Z.of_nat k - 4) 3.
Definition exq_sol : list (list Qcops) :=
  map (fun p => map (affine 2 exA exb (fun i => nth i p (qc 0 1))) [0; 1]%nat) exq_pts.
Example exq_samples : samples 2 (vec exq) exA exb exq_pts exq_sol.
Proof.
  split; [reflexivity|]. intros n k Hn Hk. change (vec exq) with 2%nat in Hk. change (List.length exq_pts) with 6%nat in Hn.
  unfold exq_sol. rewrite (nth_map_in _ _ _ []) by (change (List.length exq_pts) with 6%nat; lia).
  destruct k as [|[|k]]; [reflexivity|reflexivity|lia].
Qed.
Example exq_JxW : get_JxW exq_pts exq 0 0 <> zero /\ get_JxW exq_pts exq 1 0 <> zero.
Proof. split; intros H; vm_compute in H; discriminate. Qed.
Example exq_grad : forall c k j, (c < 2)%nat -> (k < 2)%nat -> (j < 2)%nat -> sol_to_grad exq_pts exq exq_sol c 0 k j = exA k j.
Proof.
  intros c k j Hc Hk Hj. apply (C05_affine_gradient_exact Qcops Qcops_field "QUAD4" 2 exq exq_element exq_pts eq_refl exA exb exq_sol exq_samples); auto.
  destruct c as [|[|c]]; [| |lia]; apply exq_JxW.
Qed.
(** the rule meets the moment conditions of C07_quad4; area of the first cell is 17/2 *)
Example exq_rule :
  sum_n (num_quads exq) (quad_weights exq) = qc 1 1 /\
  sum_n (num_quads exq) (fun q => mul (quad_weights exq q) (nth 0 (nth q (fst exq_quad) []) zero)) = qc 1 2 /\
  sum_n (num_quads exq) (fun q => mul (quad_weights exq q) (nth 1 (nth q (fst exq_quad) []) zero)) = qc 1 2.
Proof. repeat split; apply Qc_is_canon; reflexivity. Qed.
Example exq_area : sum_n (num_quads exq) (get_JxW exq_pts exq 0) = qc 17 2.
Proof. apply Qc_is_canon. vm_compute. reflexivity. Qed.
(** Dirichlet data: nodes 0 and 3 (x = 0) with component 0, nodes 0 and 1 with component 1 *)
Example exq_dirichlet :
  node_inds_list exq = [[0; 3]; [0; 1]]%nat /\ vec_inds_list exq = [[0; 0]; [1; 1]]%nat.
Proof. split; vm_compute; reflexivity. Qed.
Example exq_faces : existsb loc_wrong exq_locs = false /\
  get_boundary_conditions_inds exq (Some exq_locs) = Ok [[(0, 1)]; [(0, 0)]]%nat.
Proof. split; vm_compute; reflexivity. Qed.
Example exq_translation : translation 2 (fun i => qc (Z.of_nat i + 1) 7) exq_pts
  (map (fun p => [Qcplus (nth 0 p (qc 0 1)) (qc 1 7); Qcplus (nth 1 p (qc 0 1)) (qc 2 7)]) exq_pts).
Proof.
  split; [reflexivity|]. intros n i Hn Hi. rewrite (nth_map_in _ _ _ []) by auto. 
  destruct i as [|[|i]]; [reflexivity|reflexivity|lia].
Qed.

(** A triangle over the reals, vertices listed so that the map is not the identity: C08. *)
Section Reals.
  Local Open Scope R_scope.
  Definition exr_pts : list (list Rops) := [[0; 3]; [1; 1]; [3; 2]].
  Definition exr_init := fe_init (K := Rops) sqrt "TRI3" ([], []) ([[/2]], [1]) (fun _ i => match i with 0%nat => 0 | _ => -1 end)
    exr_pts [[1; 2; 0]]%nat 1 2 None.
  Definition exr : fe Rops := make_fe (K := Rops) sqrt (mkInfo FamilyP Triangle Interval 0 1 [0; 1; 2]%nat)
    ([], []) ([[/2]], [1]) (fun _ i => match i with 0%nat => 0 | _ => -1 end) exr_pts [[1; 2; 0]]%nat 1 2
    [[1; 2]; [0; 2]; [0; 1]]%nat ([], [], []).
  Example exr_built : exr_init = Ok exr.
  Proof. reflexivity. Qed.
  Example exr_mesh : mesh_ok exr.
  Proof.
    intros c Hc. change (c < 1)%nat in Hc. assert (c = 0%nat) as -> by lia. split; [reflexivity|]. intros n Hn. cbn in Hn |- *. lia.
  Qed.
  Definition exr_M (i j : nat) : Rops := match i, j with 0%nat, 0%nat => 2 | 0%nat, _ => -1 | _, 0%nat => 1 | _, _ => 2 end.
  Example exr_affine : affine_cell (K := Rops) (/ 2) "TRI3" exr_pts exr 2 0 exr_M (fun _ => 1).
  Proof.
    intros a i Ha Hi. change (a < 3)%nat in Ha.
    destruct a as [|[|[|a]]]; try lia; destruct i as [|[|i]]; try lia; unfold affine, ref_coord, sum_n, sum_over, sumK; cbn; lra.
  Qed.
  Example exr_det : det_dim 2 exr_M <> 0.
  Proof. unfold det_dim, det2. cbn. lra. Qed.
  Example exr_face : nanson_scale (K := Rops) sqrt exr_pts exr 0 2 0 = sqrt (2 * 2 + 1 * 1).
  Proof.
    rewrite (C08_nanson _ _ _ _ _ _ _ _ _ exr exr_built ltac:(cbn; tauto) exr_mesh eq_refl exr_pts eq_refl exr_M
      (fun _ => 1) 0 ltac:(cbn; lia) exr_affine 2 ltac:(cbn; lia) exr_det).
    - unfold sign, det_dim, det2. destruct (Rlt_dec _ 0) as [H|H]; [cbn in H; lra|]. cbn [snd nth facet_size].
      rewrite Rmult_1_l, Rmult_1_r. f_equal. cbn. lra.
    - unfold sum_n, sum_over, sumK. cbn. lra.
    - intros k Hk. assert (k = 0%nat) as -> by lia. unfold sum_n, sum_over, sumK, ref_coord. cbn. lra.
  Qed.
End Reals.
Example exq_face_measure : nanson_scale (fun _ => qc 1 1) exq_pts exq 0 0 0 <> zero.
Proof. intros H; vm_compute in H; discriminate. Qed.
Example exq_face_grad : forall k j, (k < 2)%nat -> (j < 2)%nat ->
  sum_n (num_nodes exq) (fun a => mul (cell_sol_at exq exq_sol 0 a k) (get_face_shape_grads exq_pts exq 0 0 0 a j)) = exA k j.
Proof.
  intros k j Hk Hj. apply (C05_face_gradient_exact Qcops Qcops_field "QUAD4" 2 exq exq_element exq_pts eq_refl exA exb exq_sol exq_samples (fun _ => qc 1 1)); auto.
  - change (num_cells exq) with 2%nat. auto.
  - apply exq_face_measure.
Qed.
