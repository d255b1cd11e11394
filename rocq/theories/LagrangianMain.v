(** Proofs for C77. *)
From Coq Require Import Reals List Arith Lia Lra Bool.
From Verif Require Import Num Arr ArrFacts Fe Problem SpecAssembly BatchFacts AgreeFacts AssemblyFacts ProblemFacts ResidualFacts FeFacts Basis SpecFe SpecWeak KernelFacts SpecBc SpecPatch SpecEnergy EnergyFacts ElasticFacts
  Plasticity Lagrangian SpecLagrangian LagrangianFacts.
Import ListNotations.
Local Open Scope R_scope.

Notation mR := (mat Rops).
Lemma mul3_mm (A B : mR) : mul3 A B = mm A B.
Proof. reflexivity. Qed.
Lemma eye3_id : eye3 = id3.
Proof. reflexivity. Qed.

Lemma set_vals_same (f : fe Rops) : set_vals f (vals_list f) = f.
Proof. now destruct f. Qed.

(** ** arrays *)
Lemma nodal_row f (u : list (list Rops)) n : nodal f u -> (n < length (points f))%nat -> length (nth n u []) = 3%nat.
Proof. intros [L R] H. apply R. apply nth_In. rewrite L. exact H. Qed.
Lemma add2_nodal f (x y : list (list Rops)) : nodal f x -> nodal f y -> nodal f (add2 x y).
Proof.
  intros [L1 R1] [L2 R2]. split; unfold add2; [rewrite length_map2, L1, L2; apply Nat.min_id|].
  intros row H. apply In_nth with (d := []) in H. destruct H as (n & Hn & <-). rewrite length_map2, L1, L2, Nat.min_id in Hn.
  rewrite (nth_map2 _ _ _ _ [] []) by lia. rewrite length_map2, R1, R2 by (apply nth_In; lia). reflexivity.
Qed.
Lemma get2_add2 f (x y : list (list Rops)) n k : nodal f x -> nodal f y -> (n < length (points f))%nat -> (k < 3)%nat ->
  nth k (nth n (add2 x y) []) 0 = nth k (nth n x []) 0 + nth k (nth n y []) 0.
Proof.
  intros X Y Hn Hk. unfold add2. destruct X as [L1 R1], Y as [L2 R2]. rewrite (nth_map2 _ _ _ _ [] []) by lia.
  apply nth_map2; [rewrite R1|rewrite R2]; auto; apply nth_In; lia.
Qed.
Lemma zeros_nodal f (x : list (list Rops)) : nodal f x -> nodal f (zeros_like x).
Proof.
  intros [L R]. split; unfold zeros_like; [now rewrite map_length|]. intros row H. apply in_map_iff in H as (r & <- & H). rewrite map_length. now apply R.
Qed.
Lemma zeros_at (x : list (list Rops)) n k : nth k (nth n (zeros_like x) []) 0 = 0.
Proof.
  unfold zeros_like. change (@nil Rops) with (map (fun _ : Rops => 0) []) at 1. rewrite map_nth.
  change 0 with ((fun _ : Rops => 0) 0) at 2. now rewrite map_nth.
Qed.

Section Mesh.
  Variable f : fe Rops.
  Hypothesis D3 : dim f = 3%nat.
  Hypothesis NODE : forall c a, (c < num_cells f)%nat -> (a < num_nodes f)%nat -> (cell_node f c a < length (points f))%nat.
  Let KF := Rops_field.

  Lemma jac_add (P u : list (list Rops)) c q : nodal f P -> nodal f u -> (c < num_cells f)%nat ->
    eq3 (jacobian_dx_deta (add2 P u) f c q) (fun i j => (jacobian_dx_deta P f c q i j + grad_ref f u c q i j)%num).
  Proof.
    intros HP Hu Hc i j Hi Hj. unfold jacobian_dx_deta, grad_ref. rewrite <- (FeFacts.sum_n_add Rops_ring). apply sum_n_ext. intros a Ha.
    specialize (NODE c a Hc Ha). unfold coo, cell_sol_at. rewrite !gather_in; [|rewrite (proj1 Hu)|rewrite (proj1 HP)|rewrite (proj1 (add2_nodal f P u HP Hu))]; auto.
    pose proof (get2_add2 f P u (cell_node f c a) i HP Hu NODE Hi) as E. cbn [zero Rops] in *. rewrite E. cbn [add mul Rops]. req; ring.
  Qed.
  Lemma grad_ref_add (u v : list (list Rops)) c q : nodal f u -> nodal f v -> (c < num_cells f)%nat ->
    eq3 (grad_ref f (add2 u v) c q) (fun i j => (grad_ref f u c q i j + grad_ref f v c q i j)%num).
  Proof.
    intros HP Hu Hc i j Hi Hj. unfold grad_ref. rewrite <- (FeFacts.sum_n_add Rops_ring). apply sum_n_ext. intros a Ha.
    specialize (NODE c a Hc Ha). unfold cell_sol_at. rewrite !gather_in; [|rewrite (proj1 Hu)|rewrite (proj1 HP)|rewrite (proj1 (add2_nodal f u v HP Hu))]; auto.
    pose proof (get2_add2 f u v (cell_node f c a) i HP Hu NODE Hi) as E. cbn [zero Rops] in *. rewrite E. cbn [add mul Rops]. req; ring.
  Qed.
  (** deformation gradients and Jacobians *)
  Lemma deformation_jac (P u : list (list Rops)) c q : nodal f P -> nodal f u -> (c < num_cells f)%nat -> det (K := Rops) 3 (jacobian_dx_deta P f c q) <> 0 ->
    eq3 (K := Rops) (mm (K := Rops) (deformation P f u c q) (jacobian_dx_deta P f c q)) (jacobian_dx_deta (add2 P u) f c q).
  Proof.
    intros HP Hu Hc D. eapply eq3_trans; [exact (deform_jac KF f P u D3 c q D)|]. apply eq3_sym. now apply jac_add.
  Qed.
  (** one step: F' J0 = J(P + u + v) if F J0 = J(P + u) *)
  Lemma compose (P u v : list (list Rops)) c q (F J0 : mR) : nodal f P -> nodal f u -> nodal f v -> (c < num_cells f)%nat ->
    det (K := Rops) 3 (jacobian_dx_deta (add2 P u) f c q) <> 0 ->
    eq3 (K := Rops) (mm (K := Rops) F J0) (jacobian_dx_deta (add2 P u) f c q) ->
    eq3 (K := Rops) (mm (K := Rops) (mm (K := Rops) (deformation (add2 P u) f v c q) F) J0) (jacobian_dx_deta (add2 P (add2 u v)) f c q).
  Proof.
    intros HP Hu Hv Hc D H. eapply eq3_trans; [apply (mm_assoc KF)|]. eapply eq3_trans.
    { apply mm_ext; [intros i j _ _; reflexivity|exact H]. }
    eapply eq3_trans; [apply deformation_jac; auto using add2_nodal|]. intros i j Hi Hj.
    rewrite (jac_add (add2 P u) v c q (add2_nodal f P u HP Hu) Hv Hc i j Hi Hj), (jac_add P u c q HP Hu Hc i j Hi Hj).
    rewrite (jac_add P (add2 u v) c q HP (add2_nodal f u v Hu Hv) Hc i j Hi Hj), (grad_ref_add u v c q Hu Hv Hc i j Hi Hj). cbn [add Rops]. req; ring.
  Qed.
  Lemma recover (P u : list (list Rops)) c q (F : mR) : nodal f P -> nodal f u -> (c < num_cells f)%nat -> det (K := Rops) 3 (jacobian_dx_deta P f c q) <> 0 ->
    eq3 (K := Rops) (mm (K := Rops) F (jacobian_dx_deta P f c q)) (jacobian_dx_deta (add2 P u) f c q) -> eq3 (K := Rops) F (deformation P f u c q).
  Proof.
    intros HP Hu Hc D H. apply (cancel_r KF _ _ (jacobian_dx_deta P f c q) D). eapply eq3_trans; [exact H|]. apply eq3_sym. now apply deformation_jac.
  Qed.
End Mesh.

(** ** one quadrature point *)
Lemma sum3 (g : nat -> R) : sum_n (K := Rops) 3 g = g 0%nat + (g 1%nat + (g 2%nat + 0)).
Proof. reflexivity. Qed.
Lemma stress_ext (F F' : mR) : eq3 (K := Rops) F F' -> forall i j, (i < 3)%nat -> (j < 3)%nat -> neo_hooke_stress F i j = neo_hooke_stress F' i j.
Proof.
  intros H i j Hi Hj. unfold neo_hooke_stress. rewrite (H i j Hi Hj), (inv_ext3 (K := Rops) F F' H j i Hj Hi), (det_ext3 (K := Rops) F F' H). reflexivity.
Qed.
Lemma kirchhoff_ext (F F' : mR) : eq3 (K := Rops) F F' -> forall i j, (i < 3)%nat -> (j < 3)%nat -> material_kirchhoff F i j = material_kirchhoff F' i j.
Proof.
  intros H i j Hi Hj. unfold material_kirchhoff. rewrite (det_ext3 (K := Rops) F F' H). rewrite !sum3. rewrite !H by lia. reflexivity.
Qed.
Lemma tiny_pos : 0 < tiny.
Proof. unfold tiny. apply Rinv_0_lt_compat. apply pow_lt. lra. Qed.

(** the Kirchhoff stress pulled back is the Piola stress *)
Lemma pull_back (F : mR) (g : nat -> R) i : tiny <= det (K := Rops) 3 F -> (i < 3)%nat ->
  sum_n (K := Rops) 3 (fun j => neo_hooke_stress F i j * g j) =
  sum_n (K := Rops) 3 (fun m => material_kirchhoff F i m * sum_n (K := Rops) 3 (fun j => g j * inv_mat (K := Rops) 3 F j m)).
Proof.
  intros D Hi. assert (D0 : det (K := Rops) 3 F <> 0) by (pose proof tiny_pos; cbn [zero Rops]; lra).
  assert (KI : forall j, (j < 3)%nat -> F i j = sum_n (K := Rops) 3 (fun m => sum_n (K := Rops) 3 (fun k => F i k * F m k) * inv_mat (K := Rops) 3 F j m)).
  { intros j Hj. transitivity (sum_n (K := Rops) 3 (fun k => F i k * mm (K := Rops) (inv_mat (K := Rops) 3 F) F j k)).
    - rewrite (Rsum_ext 3 _ (fun k => (if (j =? k)%nat then 1 else 0) * F i k)).
      + symmetry. apply (Rsum_delta 3 j (F i) Hj).
      + intros k Hk. rewrite (mm_inv_l Rops_field F D0 j k Hj Hk). unfold id3. cbn [one zero Rops]. destruct (j =? k)%nat; req; ring.
    - unfold mm. rewrite !sum3. cbn [mul Rops]. req; ring. }
  unfold material_kirchhoff, neo_hooke_stress. unfold MU, LAMBDA. rewrite (Rmax_left _ _ D). set (L := ln (det (K := Rops) 3 F)).
  rewrite (Rsum_ext 3 _ (fun j => (sum_n (K := Rops) 3 (fun m => sum_n (K := Rops) 3 (fun k => F i k * F m k) * inv_mat (K := Rops) 3 F j m) - inv_mat (K := Rops) 3 F j i + 2 * L * inv_mat (K := Rops) 3 F j i) * g j))
    by (intros j Hj; now rewrite <- (KI j Hj)).
  clear KI. destruct i as [|[|[|i]]]; [| | |lia]; rewrite !sum3; unfold eye3; cbn [Nat.eqb]; req; ring.
Qed.

Lemma point (g : nat -> R) (Fi Fp J0 J1 : mR) (rho w : R) i : (i < 3)%nat ->
  det (K := Rops) 3 J0 <> 0 -> det (K := Rops) 3 J1 <> 0 -> eq3 (K := Rops) (mm (K := Rops) Fp J0) J1 ->
  tiny <= det (K := Rops) 3 Fi -> tiny <= det (K := Rops) 3 (mm (K := Rops) Fi Fp) ->
  sum_n (K := Rops) 3 (fun j => Rmax (det (K := Rops) 3 Fi) tiny
      * mul3 (fun i j => material_kirchhoff (mul3 Fi Fp) i j * rho ^ 3 / Rmax (det (K := Rops) 3 (mul3 Fi Fp)) tiny) (fun i j => inv_mat (K := Rops) 3 Fi j i) i j
      * (sum_n (K := Rops) 3 (fun m => g m * inv_mat (K := Rops) 3 J1 m j) * (det (K := Rops) 3 J1 * w)))
  = sum_n (K := Rops) 3 (fun j => rho ^ 3 * neo_hooke_stress (mm (K := Rops) Fi Fp) i j * (sum_n (K := Rops) 3 (fun m => g m * inv_mat (K := Rops) 3 J0 m j) * (det (K := Rops) 3 J0 * w))).
Proof.
  intros Hi D0 D1 HJ T1 T2. change (mul3 Fi Fp) with (mm (K := Rops) Fi Fp). set (F := mm (K := Rops) Fi Fp) in *. pose proof tiny_pos as TP.
  assert (NF : det (K := Rops) 3 F <> 0) by (cbn [zero Rops]; lra). assert (NI : det (K := Rops) 3 Fi <> 0) by (cbn [zero Rops]; lra).
  rewrite (Rmax_left _ _ T1), (Rmax_left _ _ T2).
  assert (J2 : eq3 (K := Rops) (mm (K := Rops) F J0) (mm (K := Rops) Fi J1)).
  { eapply eq3_trans; [apply (mm_assoc Rops_field)|]. apply mm_ext; [intros ? ? _ _; reflexivity|exact HJ]. }
  (* both gradients seen from the final state *)
  set (G := fun m => sum_n (K := Rops) 3 (fun k => g k * inv_mat (K := Rops) 3 (mm (K := Rops) Fi J1) k m)).
  assert (G1 : forall m, (m < 3)%nat -> sum_n (K := Rops) 3 (fun j => sum_n (K := Rops) 3 (fun k => g k * inv_mat (K := Rops) 3 J1 k j) * inv_mat (K := Rops) 3 Fi j m) = G m).
  { intros m Hm. exact (grad_twice Rops_field g Fi J1 m NI D1 Hm). }
  assert (G0 : forall m, (m < 3)%nat -> sum_n (K := Rops) 3 (fun j => sum_n (K := Rops) 3 (fun k => g k * inv_mat (K := Rops) 3 J0 k j) * inv_mat (K := Rops) 3 F j m) = G m).
  { intros m Hm. etransitivity; [exact (grad_twice Rops_field g F J0 m NF D0 Hm)|]. unfold G. apply Rsum_ext. intros k Hk.
    apply (f_equal2 Rmult); [reflexivity|]. exact (inv_ext3 (K := Rops) _ _ J2 k m Hk Hm). }
  assert (DD : det (K := Rops) 3 F * det (K := Rops) 3 J0 = det (K := Rops) 3 Fi * det (K := Rops) 3 J1).
  { pose proof (det_mm Rops_field F J0) as E1. pose proof (det_mm Rops_field Fi J1) as E2. rewrite (det_ext3 (K := Rops) _ _ J2) in E1. cbn [mul Rops] in E1, E2. congruence. }
  set (dF := det (K := Rops) 3 F) in *. set (dI := det (K := Rops) 3 Fi) in *. set (d0 := det (K := Rops) 3 J0) in *. set (d1 := det (K := Rops) 3 J1) in *. cbn [zero Rops] in NF.
  set (tau := material_kirchhoff F).
  transitivity (dI * d1 * w * rho ^ 3 / dF * sum_n (K := Rops) 3 (fun m => tau i m * G m)).
  - transitivity (dI * d1 * w * rho ^ 3 / dF * sum_n (K := Rops) 3 (fun m => tau i m * sum_n (K := Rops) 3 (fun j => sum_n (K := Rops) 3 (fun k => g k * inv_mat (K := Rops) 3 J1 k j) * inv_mat (K := Rops) 3 Fi j m))).
    + unfold mul3. fold tau. rewrite !sum3. cbn [mul Rops]. req; field. exact NF.
    + apply (f_equal2 Rmult); [reflexivity|]. apply Rsum_ext. intros m Hm. now rewrite G1.
  - transitivity (rho ^ 3 * d0 * w * sum_n (K := Rops) 3 (fun j => neo_hooke_stress F i j * sum_n (K := Rops) 3 (fun m => g m * inv_mat (K := Rops) 3 J0 m j))).
    + rewrite (pull_back F _ i T2 Hi). fold tau.
      rewrite (Rsum_ext 3 (fun m => tau i m * sum_n (K := Rops) 3 _) (fun m => tau i m * G m)) by (intros m Hm; now rewrite G0).
      set (S := sum_n (K := Rops) 3 (fun m => tau i m * G m)). assert (X : dI * d1 = dF * d0) by (symmetry; exact DD).
      rewrite X. req; field. exact NF.
    + rewrite <- Rsum_mul. apply Rsum_ext. intros j Hj. req; ring.
Qed.

(** ** the problem of one step *)
Section Step.
  Variables (p : problem Rops ul_var) (f : fe Rops).
  Hypothesis UL : ul_problem p f.
  Let WF : wf_problem p := proj1 UL.
  Let NC : (0 < p_num_cells p)%nat := proj1 (proj2 UL).
  Let FES : fes p = [f] := proj1 (proj2 (proj2 UL)).
  Let MAPS : maps p = ul_maps f := proj1 (proj2 (proj2 (proj2 UL))).
  Let BND : boundary_inds_list p = [] := proj1 (proj2 (proj2 (proj2 (proj2 UL)))).
  Let SURF : internal_vars_surfaces p = [] := proj1 (proj2 (proj2 (proj2 (proj2 (proj2 UL))))).
  Let V3 : vec f = 3%nat := proj1 (proj2 (proj2 (proj2 (proj2 (proj2 (proj2 UL)))))).
  Let D3 : dim f = 3%nat := proj2 (proj2 (proj2 (proj2 (proj2 (proj2 (proj2 UL)))))).

  Lemma ref_std : standard_problem (reference_problem p) f.
  Proof. split; [exact FES|]. split; [reflexivity|]. split; [reflexivity|]. split; [left; discriminate|exact BND]. Qed.
  Lemma ref_wf : wf_problem (reference_problem p).
  Proof. destruct WF. constructor; assumption. Qed.
  Lemma ul_cells : p_num_cells p = num_cells f.
  Proof. unfold p_num_cells, fe0. now rewrite FES. Qed.
  Lemma ul_node c a : (c < num_cells f)%nat -> (a < num_nodes f)%nat -> (cell_node f c a < length (points f))%nat.
  Proof. intros Hc Ha. apply (node_ok (reference_problem p) f ref_wf ref_std); auto. change (p_num_cells (reference_problem p)) with (p_num_cells p). now rewrite ul_cells. Qed.
  Lemma nodal_sol u : nodal f u -> sol_ok p [u].
  Proof.
    intros H. split; [now rewrite FES|]. intros v Hv. rewrite FES in Hv. cbn in Hv. destruct v; [|lia]. unfold fe_of. rewrite FES. cbn [nth]. now rewrite V3.
  Qed.
  Lemma sol_nodal u : sol_ok p [u] -> nodal f u.
  Proof. intros [_ H]. specialize (H 0%nat). unfold fe_of in H. rewrite FES in H. cbn in H. rewrite V3 in H. apply H. lia. Qed.

  Lemma table_len (F : nat -> nat -> Rops) : length (flat_map (fun a => map (F a) (seq 0 3)) (seq 0 (num_nodes f))) = (num_nodes f * 3)%nat.
  Proof. rewrite (flat_map_len _ _ 3); [now rewrite seq_length|]. intros. now rewrite map_length, seq_length. Qed.
  Lemma ul_dofs : all_dofs (local_shapes p) = (num_nodes f * 3)%nat.
  Proof. unfold local_shapes, all_dofs. rewrite FES. cbn. rewrite V3. lia. Qed.
  Lemma ul_kernel_cell ci : kernel_cell p ci = ul_kernel f ci.
  Proof. unfold kernel_cell. now rewrite MAPS. Qed.
  Lemma ref_kernel_cell ci : kernel_cell (reference_problem p) ci = laplace_kernel (reference_problem p) reference_map ci.
  Proof. reflexivity. Qed.
  Lemma ul_kernels : kernels_ok p (fun _ _ => []).
  Proof.
    split; [|intros s Hs; rewrite BND in Hs; cbn in Hs; lia]. intros ci _. rewrite ul_kernel_cell, ul_dofs. unfold ul_kernel. cbv zeta. apply table_len.
  Qed.
  Lemma ref_kernels : kernels_ok (reference_problem p) (fun _ _ => []).
  Proof.
    split; [|intros s Hs; change (s < length (boundary_inds_list p))%nat in Hs; rewrite BND in Hs; cbn in Hs; lia].
    intros ci _. rewrite ref_kernel_cell. change (local_shapes (reference_problem p)) with (local_shapes p). rewrite ul_dofs. unfold laplace_kernel. cbv zeta.
    unfold fe0. change (fes (reference_problem p)) with (fes p). rewrite FES. cbn [hd]. rewrite V3, D3. apply table_len.
  Qed.

  Variables (ivF ivR : list (nat -> ul_var)).
  Hypothesis IV : internal_vars p = [ivF; ivR].
  Hypothesis LF : length ivF = num_cells f.
  Hypothesis LR : length ivR = num_cells f.
  Lemma ul_ivs : ivs_ok p.
  Proof.
    split; [|split; [now rewrite SURF, BND|intros s iv Hs; rewrite BND in Hs; cbn in Hs; lia]].
    intros iv H. rewrite IV in H. rewrite ul_cells. destruct H as [<-|[<-|[]]]; assumption.
  Qed.
  Definition F_at c q : tensor := as_tens (nth c ivF (fun _ => Scal 0) q).
  Definition rho_at c q : R := as_scal (nth c ivR (fun _ => Scal 0) q).
  Lemma ci_ivs P s c : (c < num_cells f)%nat -> ci_iv (cell_input p P s c) = [nth c ivF (fun _ => Scal 0); nth c ivR (fun _ => Scal 0)].
  Proof.
    intros Hc. unfold cell_input. cbn [ci_iv]. rewrite IV. cbn [flat_map].
    rewrite (nth_error_nth' ivF (fun _ => Scal 0)) by (rewrite LF; exact Hc). now rewrite (nth_error_nth' ivR (fun _ => Scal 0)) by (rewrite LR; exact Hc).
  Qed.

  Variables (P0 u du : list (list Rops)).
  Hypothesis HP : nodal f P0.
  Hypothesis Hu : nodal f u.
  Hypothesis Hdu : nodal f du.
  Let X := add2 P0 u.
  Hypothesis FP : forall c q, (c < num_cells f)%nat -> (q < num_quads f)%nat ->
    eq3 (K := Rops) (mm (K := Rops) (F_at c q) (jacobian_dx_deta P0 f c q)) (jacobian_dx_deta X f c q).
  Hypothesis N0 : nonsingular P0 f.
  Hypothesis N1 : nonsingular X f.
  Hypothesis TI : forall c q, (c < num_cells f)%nat -> (q < num_quads f)%nat -> tiny <= det (K := Rops) 3 (deformation X f du c q).
  Hypothesis TF : forall c q, (c < num_cells f)%nat -> (q < num_quads f)%nat -> tiny <= det (K := Rops) 3 (deformation P0 f (add2 u du) c q).

  Lemma total_deformation c q : (c < num_cells f)%nat -> (q < num_quads f)%nat ->
    eq3 (K := Rops) (mm (K := Rops) (deformation X f du c q) (F_at c q)) (deformation P0 f (add2 u du) c q).
  Proof.
    intros Hc Hq. apply (recover f D3 ul_node P0 (add2 u du) c q); auto using add2_nodal.
    apply (compose f D3 ul_node P0 u du c q); auto.
  Qed.
  Lemma du_get c a i : (c < num_cells f)%nat -> (a < num_nodes f)%nat -> (i < 3)%nat ->
    get2 (@zero Rops) (nth 0 (unravel [(num_nodes f, vec f)] (cell_values p [du] c)) []) a i = cell_sol_at f du c a i.
  Proof.
    intros Hc Ha Hi.
    pose proof (cell_sol_get (reference_problem p) f du ref_wf NC ref_std (nodal_sol du Hdu) c a i) as E. unfold cell_sol0, dof_shapes in E.
    change (fes (reference_problem p)) with (fes p) in E. rewrite FES in E. cbn [map] in E. apply E; auto.
    - change (p_num_cells (reference_problem p)) with (p_num_cells p). now rewrite ul_cells.
    - now rewrite V3.
  Qed.
  Lemma tot_get c a i : (c < num_cells f)%nat -> (a < num_nodes f)%nat -> (i < 3)%nat ->
    get2 (@zero Rops) (cell_sol0 (reference_problem p) (cell_values (reference_problem p) [add2 u du] c)) a i = cell_sol_at f (add2 u du) c a i.
  Proof.
    intros Hc Ha Hi. apply (cell_sol_get (reference_problem p) f (add2 u du) ref_wf NC ref_std); auto.
    - exact (nodal_sol _ (add2_nodal f u du Hu Hdu)).
    - change (p_num_cells (reference_problem p)) with (p_num_cells p). now rewrite ul_cells.
    - now rewrite V3.
  Qed.
  Lemma det_ext_fun (A B : mR) : (forall i j, (i < 3)%nat -> (j < 3)%nat -> A i j = B i j) -> det (K := Rops) 3 A = det (K := Rops) 3 B.
  Proof. exact (det_ext3 (K := Rops) A B). Qed.

  Lemma cell_equal c : (c < num_cells f)%nat ->
    kernel_cell p (cell_input p [X] [du] c) = kernel_cell (reference_problem p) (cell_input (reference_problem p) [P0] [add2 u du] c).
  Proof.
    intros Hc. rewrite ul_kernel_cell, ref_kernel_cell. unfold ul_kernel, laplace_kernel. cbv zeta.
    rewrite (fe0_f (reference_problem p) f ref_std). rewrite V3, D3. apply flat_map_ext_in. intros a Ha. apply in_seq in Ha. apply map_ext_in. intros i Hi. apply in_seq in Hi.
    apply sum_n_ext. intros q Hq.
    assert (Ha' : (a < num_nodes f)%nat) by lia. assert (Hi' : (i < 3)%nat) by lia.
    change (ci_iv (cell_input (reference_problem p) [P0] [add2 u du] c)) with (ci_iv (cell_input p [P0] [add2 u du] c)).
    rewrite !ci_ivs by exact Hc. unfold at_quad. cbn [map nth]. fold (F_at c q). 
    set (Fi := fun i j => eye3 i j + _).
    assert (EI : eq3 (K := Rops) Fi (deformation X f du c q)).
    { intros k j Hk Hj. unfold Fi, deformation, eye3. apply (f_equal2 Rplus); [reflexivity|]. unfold sol_to_grad. apply sum_n_ext. intros b Hb.
      cbn [ci_sol ci_grads cell_input]. apply (f_equal2 Rmult); [pose proof (du_get c b k Hc Hb Hk) as E0; rewrite V3 in E0; exact E0|].
      exact (grads_var (reference_problem p) f X ref_std c q b j Hb). }
    set (G := fun k j => sum_n (num_nodes f) _).
    assert (ET : eq3 (K := Rops) (gradient_to_deformation G) (deformation P0 f (add2 u du) c q)).
    { intros k j Hk Hj. unfold gradient_to_deformation, deformation, G. apply (f_equal2 Rplus); [reflexivity|]. unfold sol_to_grad. apply sum_n_ext. intros b Hb.
      cbn [ci_sol ci_grads cell_input]. apply (f_equal2 Rmult); [apply tot_get; auto|].
      exact (grads_var (reference_problem p) f P0 ref_std c q b j Hb). }
    assert (EF : eq3 (K := Rops) (mm (K := Rops) Fi (F_at c q)) (deformation P0 f (add2 u du) c q)).
    { eapply eq3_trans; [apply mm_ext; [exact EI|intros ? ? _ _; reflexivity]|]. now apply total_deformation. }
    assert (TI' : tiny <= det (K := Rops) 3 Fi) by (rewrite (det_ext3 (K := Rops) _ _ EI); now apply TI).
    assert (TF' : tiny <= det (K := Rops) 3 (mm (K := Rops) Fi (F_at c q))) by (rewrite (det_ext3 (K := Rops) _ _ EF); now apply TF).
    pose proof (point (shape_grads_ref f q a) Fi (F_at c q) (jacobian_dx_deta P0 f c q) (jacobian_dx_deta X f c q) (rho_at c q) (quad_weights f q) i Hi'
      (N0 c q Hc Hq) (N1 c q Hc Hq) (FP c q Hc Hq) TI' TF') as E.
    etransitivity; [etransitivity; [|exact E]|].
    - apply Rsum_ext. intros j Hj. apply (f_equal2 Rmult); [reflexivity|]. cbn [ci_vgJxW cell_input].
      etransitivity; [exact (vgrads_var (reference_problem p) f X ref_std c q a j Ha')|]. unfold get_shape_grads, get_JxW. rewrite D3. reflexivity.
    - apply Rsum_ext. intros j Hj. apply (f_equal2 Rmult).
      + unfold reference_map. apply (f_equal2 Rmult); [reflexivity|]. apply stress_ext; auto. eapply eq3_trans; [exact EF|]. now apply eq3_sym.
      + cbn [ci_vgJxW cell_input]. symmetry. etransitivity; [exact (vgrads_var (reference_problem p) f P0 ref_std c q a j Ha')|]. unfold get_shape_grads, get_JxW. rewrite D3. reflexivity.
  Qed.
  Theorem residual_equal sqrtK : compute_residual sqrtK p [X] [du] = compute_residual sqrtK (reference_problem p) [P0] [add2 u du].
  Proof.
    rewrite (compute_residual_ok sqrtK p [X] [du] _ WF NC (nodal_sol du Hdu) ul_ivs ul_kernels).
    rewrite (compute_residual_ok sqrtK (reference_problem p) [P0] [add2 u du] _ ref_wf NC (nodal_sol _ (add2_nodal f u du Hu Hdu)) ul_ivs ref_kernels).
    f_equal. unfold compute_residual_vars_helper. unfold weak_faces. change (boundary_inds_list (reference_problem p)) with (boundary_inds_list p). rewrite BND.
    unfold weak_cells. change (p_num_cells (reference_problem p)) with (p_num_cells p).
    rewrite (map_ext_in (fun c => kernel_cell p (cell_input p [X] [du] c)) (fun c => kernel_cell (reference_problem p) (cell_input (reference_problem p) [P0] [add2 u du] c))).
    - reflexivity.
    - intros c Hc. apply in_seq in Hc. apply cell_equal. rewrite <- ul_cells. lia.
  Qed.
End Step.

(** ** the stored energy *)
Lemma dlim_cubic (a b c e : R) : derivable_pt_lim (fun t => a + (b * t + c * (t * t) + e * (t * (t * t)))) 0 b.
Proof.
  assert (H : derivable_pt_lim (fun t => a + (b * t + c * (t * t) + e * (t * (t * t)))) 0 (0 + (b * 1 + c * (1 * 0 + 0 * 1) + e * (1 * (0 * 0) + 0 * (1 * 0 + 0 * 1))))).
  - apply (derivable_pt_lim_plus (fun _ => a) (fun t => b * t + c * (t * t) + e * (t * (t * t)))); [apply derivable_pt_lim_const|].
    apply (derivable_pt_lim_plus (fun t => b * t + c * (t * t)) (fun t => e * (t * (t * t)))).
    + apply (derivable_pt_lim_plus (fun t => b * t) (fun t => c * (t * t))).
      * apply (derivable_pt_lim_scal id). apply derivable_pt_lim_id.
      * apply (derivable_pt_lim_scal (fun t => t * t)). apply (derivable_pt_lim_mult id id); apply derivable_pt_lim_id.
    + apply (derivable_pt_lim_scal (fun t => t * (t * t))). apply (derivable_pt_lim_mult id (fun t => t * t)); [apply derivable_pt_lim_id|].
      apply (derivable_pt_lim_mult id id); apply derivable_pt_lim_id.
  - replace (0 + (b * 1 + c * (1 * 0 + 0 * 1) + e * (1 * (0 * 0) + 0 * (1 * 0 + 0 * 1)))) with b in H by ring. exact H.
Qed.
Lemma dlim_ext (g h : R -> R) x l : (forall t, g t = h t) -> derivable_pt_lim h x l -> derivable_pt_lim g x l.
Proof. intros E H eps He. destruct (H eps He) as (d & Hd). exists d. intros t H1 H2. rewrite !E. now apply Hd. Qed.

Lemma det_line (F H : mR) t : det (K := Rops) 3 (fun i j => F i j + t * H i j) =
  det (K := Rops) 3 F + (sum_n (K := Rops) 3 (fun i => sum_n (K := Rops) 3 (fun j => cof (K := Rops) 3 F j i * H i j)) * t
    + sum_n (K := Rops) 3 (fun i => sum_n (K := Rops) 3 (fun j => cof (K := Rops) 3 H j i * F i j)) * (t * t) + det (K := Rops) 3 H * (t * (t * t))).
Proof.
  rewrite !(det_det3 Rops_ring). unfold det3, cof. cbv [det minor skip sgn sum_n sum_over sumK seq map fold_right Nat.even Nat.ltb Nat.leb Nat.add Nat.sub add mul sub opp zero one Rops]. req; ring.
Qed.

Lemma energy_ext (F F' : mR) : eq3 (K := Rops) F F' -> neo_hooke_energy F = neo_hooke_energy F'.
Proof. intros H. unfold neo_hooke_energy. rewrite (det_ext3 (K := Rops) F F' H). rewrite !sum3. rewrite !H by lia. reflexivity. Qed.

Lemma energy_gradient (F H : mR) : 0 < det (K := Rops) 3 F ->
  derivable_pt_lim (fun t => neo_hooke_energy (fun i j => F i j + t * H i j)) 0
    (sum_n (K := Rops) 3 (fun i => sum_n (K := Rops) 3 (fun j => neo_hooke_stress F i j * H i j))).
Proof.
  intros D. set (d0 := det (K := Rops) 3 F) in *.
  set (d1 := sum_n (K := Rops) 3 (fun i => sum_n (K := Rops) 3 (fun j => cof (K := Rops) 3 F j i * H i j))).
  set (d2 := sum_n (K := Rops) 3 (fun i => sum_n (K := Rops) 3 (fun j => cof (K := Rops) 3 H j i * F i j))).
  set (d3 := det (K := Rops) 3 H).
  set (q0 := sum_n (K := Rops) 3 (fun i => sum_n (K := Rops) 3 (fun j => F i j * F i j))).
  set (q1 := sum_n (K := Rops) 3 (fun i => sum_n (K := Rops) 3 (fun j => F i j * H i j))).
  set (q2 := sum_n (K := Rops) 3 (fun i => sum_n (K := Rops) 3 (fun j => H i j * H i j))).
  set (dt := fun t => d0 + (d1 * t + d2 * (t * t) + d3 * (t * (t * t)))).
  assert (DD : derivable_pt_lim dt 0 d1) by apply dlim_cubic.
  assert (D0 : dt 0 = d0) by (unfold dt; ring).
  assert (DL : derivable_pt_lim (fun t => ln (dt t)) 0 (/ d0 * d1)).
  { apply (derivable_pt_lim_comp dt ln); [exact DD|]. rewrite D0. now apply derivable_pt_lim_ln. }
  assert (DQ : derivable_pt_lim (fun t => 1 / 2 * (q0 - 3) + (q1 * t + 1 / 2 * q2 * (t * t))) 0 q1) by apply dlim_quad.
  apply (dlim_ext _ (fun t => (1 / 2 * (q0 - 3) + (q1 * t + 1 / 2 * q2 * (t * t))) + (- ln (dt t) + ln (dt t) * ln (dt t)))).
  { intros t. unfold neo_hooke_energy. rewrite det_line. fold d0 d1 d2 d3. change (d0 + (d1 * t + d2 * (t * t) + d3 * (t * (t * t)))) with (dt t).
    unfold q0, q1, q2. rewrite !sum3. req; field. }
  replace (sum_n (K := Rops) 3 (fun i => sum_n (K := Rops) 3 (fun j => neo_hooke_stress F i j * H i j)))
    with (q1 + (- (/ d0 * d1) + (/ d0 * d1 * ln (dt 0) + ln (dt 0) * (/ d0 * d1)))).
  - apply (derivable_pt_lim_plus (fun t => 1 / 2 * (q0 - 3) + (q1 * t + 1 / 2 * q2 * (t * t))) (fun t => - ln (dt t) + ln (dt t) * ln (dt t))); [exact DQ|].
    apply (derivable_pt_lim_plus (fun t => - ln (dt t)) (fun t => ln (dt t) * ln (dt t))).
    + apply (derivable_pt_lim_opp (fun t => ln (dt t))). exact DL.
    + apply (derivable_pt_lim_mult (fun t => ln (dt t)) (fun t => ln (dt t))); exact DL.
  - rewrite D0. unfold q1, d1, neo_hooke_stress. fold d0.
    assert (IC : forall i j, inv_mat (K := Rops) 3 F i j = cof (K := Rops) 3 F i j * / d0) by (intros; apply (inv_mat_cof Rops_field)).
    rewrite !sum3. rewrite !IC. req; ring.
Qed.

(** ** rotations store nothing *)
Lemma rotation_free (F : mR) : rotation F -> forall i j, (i < 3)%nat -> (j < 3)%nat -> neo_hooke_stress F i j = 0.
Proof.
  intros [D O] i j Hi Hj. unfold neo_hooke_stress. rewrite D, ln_1.
  assert (N : det (K := Rops) 3 F <> 0) by (rewrite D; cbn [zero Rops]; lra).
  assert (E : inv_mat (K := Rops) 3 F j i = F i j).
  { transitivity (mm (K := Rops) (inv_mat (K := Rops) 3 F) (mm (K := Rops) F (fun a b => F b a)) j i).
    - symmetry. transitivity (mm (K := Rops) (inv_mat (K := Rops) 3 F) (id3 (K := Rops)) j i); [|apply (mm_id_r Rops_field); auto].
      apply mm_ext; [intros ? ? _ _; reflexivity|intros a b Ha Hb; exact (O a b Ha Hb)|exact Hj|exact Hi].
    - rewrite <- (mm_assoc Rops_field (inv_mat (K := Rops) 3 F) F (fun a b => F b a) j i Hj Hi).
      transitivity (mm (K := Rops) (id3 (K := Rops)) (fun a b => F b a) j i); [|exact (mm_id_l Rops_field (fun a b => F b a) j i Hj Hi)].
      apply mm_ext; [now apply (mm_inv_l Rops_field)|intros ? ? _ _; reflexivity|exact Hj|exact Hi]. }
  rewrite E. req; ring.
Qed.

Section Reference.
  Variables (p : problem Rops ul_var) (f : fe Rops).
  Hypothesis UL : ul_problem p f.
  Hypothesis IVS : ivs_ok p.
  Variables (P0 u : list (list Rops)) (sqrtK : Rops -> Rops).
  Hypothesis Hu : nodal f u.
  Let V3 : vec f = 3%nat := proj1 (proj2 (proj2 (proj2 (proj2 (proj2 (proj2 UL)))))).
  Let D3 : dim f = 3%nat := proj2 (proj2 (proj2 (proj2 (proj2 (proj2 (proj2 UL)))))).
  Let NC : (0 < p_num_cells p)%nat := proj1 (proj2 UL).
  Let BND : boundary_inds_list p = [] := proj1 (proj2 (proj2 (proj2 (proj2 UL)))).

  Lemma ref_maps : maps_ok (vec f) (dim f) (maps (reference_problem p)).
  Proof.
    rewrite V3, D3. split; [|split; discriminate]. intros tm E. injection E as <-. intros g g' iv Hg k j Hk Hj. unfold reference_map.
    apply (f_equal2 Rmult); [reflexivity|]. apply stress_ext; auto. intros a b Ha Hb. unfold gradient_to_deformation. now rewrite Hg.
  Qed.
  Lemma ref_densities : densities_ok (vec f) (dim f) reference_densities.
  Proof.
    rewrite V3, D3. split; [|split; reflexivity]. intros G G' iv H. cbn [stored reference_densities]. apply (f_equal2 Rmult); [reflexivity|].
    apply energy_ext. intros a b Ha Hb. unfold gradient_to_deformation. now rewrite H.
  Qed.
  Lemma ref_derives : (forall c q, (c < num_cells f)%nat -> (q < num_quads f)%nat -> 0 < det (K := Rops) 3 (deformation P0 f u c q)) ->
    derives_from (reference_problem p) f P0 u reference_densities.
  Proof.
    intros POS. split; [|split].
    - intros c q Hc Hq H. change (p_num_cells (reference_problem p)) with (p_num_cells p) in Hc. rewrite (ul_cells p f UL) in Hc.
      cbn [stored reference_densities]. unfold dot2, stress. cbn [tensor_map maps reference_problem only_tensor_map]. rewrite V3, D3.
      set (iv := iv_at (reference_problem p) c q). set (G := sol_to_grad P0 f u c q).
      pose proof (energy_gradient (gradient_to_deformation G) H (POS c q Hc Hq)) as E.
      replace (sum_n (K := Rops) 3 (fun k => sum_n (K := Rops) 3 (fun j => (reference_map G iv k j * H k j)%num)))
        with (rho_of iv ^ 3 * sum_n (K := Rops) 3 (fun i => sum_n (K := Rops) 3 (fun j => neo_hooke_stress (gradient_to_deformation G) i j * H i j))).
      + apply (dlim_ext _ (fun t => rho_of iv ^ 3 * neo_hooke_energy (fun i j => gradient_to_deformation G i j + t * H i j))).
        * intros t. apply (f_equal2 Rmult); [reflexivity|]. apply energy_ext. intros i j Hi Hj. unfold gradient_to_deformation. req; ring.
        * apply (derivable_pt_lim_scal (fun t => neo_hooke_energy (fun i j => gradient_to_deformation G i j + t * H i j))). exact E.
      + rewrite <- Rsum_mul. apply Rsum_ext. intros i Hi. rewrite <- Rsum_mul. apply Rsum_ext. intros j Hj. unfold reference_map. cbn [mul Rops]. req; ring.
    - intros c q Hc Hq h. cbn [load reference_densities]. unfold dot1, source. cbn [mass_map maps reference_problem only_tensor_map].
      replace (sum_n (K := Rops) (vec f) (fun k => (0 * h k)%num)) with 0 by (rewrite (FeFacts.sum_n_mul_l Rops_ring); cbn [mul zero Rops]; req; ring).
      apply derivable_pt_lim_const.
    - intros s e q Hs. change (boundary_inds_list (reference_problem p)) with (boundary_inds_list p) in Hs. rewrite BND in Hs. cbn in Hs. lia.
  Qed.
  Theorem ref_energy v res : (forall c q, (c < num_cells f)%nat -> (q < num_quads f)%nat -> 0 < det (K := Rops) 3 (deformation P0 f u c q)) -> nodal f v ->
    compute_residual sqrtK (reference_problem p) [P0] [u] = Ok [res] ->
    derivable_pt_lim (fun t => total_energy sqrtK (reference_problem p) f P0 reference_densities (along (K := Rops) u v t)) 0 (work (K := Rops) (length (points f)) 3 v res).
  Proof.
    intros POS Hv E. rewrite <- V3. apply (energy_derivative sqrtK (reference_problem p) f P0 u (ref_wf p f UL) NC (ref_std p f UL)
      (nodal_sol p f UL u Hu) IVS ref_maps); auto using ref_densities, ref_derives. exact (nodal_sol p f UL v Hv).
  Qed.
  Theorem ref_rigid : (forall c q, (c < num_cells f)%nat -> (q < num_quads f)%nat -> rotation (deformation P0 f u c q)) ->
    exists res, compute_residual sqrtK (reference_problem p) [P0] [u] = Ok [res] /\ nodal f res /\
    forall n k, (n < length (points f))%nat -> (k < 3)%nat -> get2 0 res n k = 0.
  Proof.
    intros ROT. destruct (residual_weak Rops_ring sqrtK (reference_problem p) f P0 u (ref_wf p f UL) NC (ref_std p f UL) (nodal_sol p f UL u Hu) IVS ref_maps) as (res & E & S & H).
    exists res. split; [exact E|]. split; [now rewrite V3 in S|]. intros n k Hn Hk. rewrite <- V3 in Hk. etransitivity; [exact (H n k Hn Hk)|].
    change (boundary_inds_list (reference_problem p)) with (boundary_inds_list p). rewrite BND. cbn [length].
    transitivity (0 + 0); [|req; ring]. apply (f_equal2 Rplus); [|reflexivity].
    apply (sum_n_zero_ext Rops_ring). intros c Hc. apply (sum_n_zero_ext Rops_ring). intros a Ha. destruct (_ =? _)%nat; [|reflexivity].
    change (p_num_cells (reference_problem p)) with (p_num_cells p) in Hc. rewrite (ul_cells p f UL) in Hc.
    unfold volume_term. apply (sum_n_zero_ext Rops_ring). intros q Hq. unfold source, stress. cbn [mass_map tensor_map maps reference_problem only_tensor_map].
    rewrite D3. replace (sum_n (K := Rops) 3 _) with (@zero Rops); [cbn [add mul zero Rops]; req; ring|]. symmetry.
    apply (sum_n_zero_ext Rops_ring). intros j Hj. unfold reference_map.
    rewrite V3 in Hk. pose proof (rotation_free _ (ROT c q Hc Hq) k j Hk Hj) as Z. unfold deformation in Z. unfold gradient_to_deformation. rewrite Z. cbn [mul zero Rops]. req; ring.
  Qed.
End Reference.
