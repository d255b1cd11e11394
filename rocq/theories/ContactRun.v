(** Lemmas for C103: the residual, the mean rotation, the passes, the mesh. *)
From Coq Require Import String Reals List Arith Lia Lra Psatz Bool.
From Verif Require Import Num Arr ArrFacts Fe SpecFe FeFacts GeomFacts Problem SpecAssembly BatchFacts ProblemFacts AssemblyFacts DerivFacts Basis SpecBasis BasisFacts SpecSelect SelectFacts SpecWeak KernelFacts SpecEnergy EnergyFacts Init SpecInit InitFacts Mesh MeshMain MeshFe
  SpecPatch PatchFacts Elastic ElasticFacts Plasticity SpecEigen Lagrangian LaserHeat HyperElastic SpecHyper HyperFacts HyperMain HyperUse HyperEnd DynamicsStable Contact SpecContact ContactRot ContactMain ContactMore.
Import ListNotations.
Local Open Scope R_scope.
Local Notation sum := (sum_n (K := Rops)).

Lemma energy_ext solid r0 r1 F F' : same 2 F F' -> contact_energy solid r0 r1 F = contact_energy solid r0 r1 F'.
Proof.
  intros H. assert (D : det (K := Rops) 2 F = det (K := Rops) 2 F') by now apply det_same.
  unfold contact_energy, volume_energy, shape_energy, turning_energy, swing_cos, swing_sin, swing, norm_sq. rewrite D, !(H 0 0)%nat, !(H 0 1)%nat, !(H 1 0)%nat, !(H 1 1)%nat by lia. reflexivity.
Qed.
Section Residual.
  Variables (eigh : tensor -> (nat -> R) * tensor) (grad : (tensor -> R) -> tensor -> tensor) (noise : tensor).
  Hypothesis EO : eigh_ok 3 eigh.
  Hypothesis GC : contact_grad_correct eigh grad.
  Lemma maps_good : maps_ok 2 2 (contact_maps eigh grad noise).
  Proof.
    split; [|split; [discriminate|discriminate]]. intros tm E. injection E as <-. intros g g' iv H k j Hk Hj. unfold contact_stress. destruct iv as [|[th|t0] [|[x|R_old] [|? ?]]]; auto.
    cbv zeta. apply (proj2 GC); auto. intros a b Ha Hb. now rewrite (H a b Ha Hb).
  Qed.
  Variables (sqrtK : Rops -> Rops) (p : problem Rops cval) (f : fe Rops) (P sol : list (list Rops)) (theta r0 r1 : nat -> nat -> R).
  Hypothesis WF : wf_problem p.
  Hypothesis NC : (0 < p_num_cells p)%nat.
  Hypothesis CP : contact_problem eigh grad noise p f theta r0 r1.
  Hypothesis IVS : ivs_ok p.
  Hypothesis SOL : sol_ok p [sol].
  Hypothesis REG : regular_state noise p f P sol.
  Lemma cp_stress c q : (c < p_num_cells p)%nat -> (q < num_quads f)%nat -> same 2 (stress p f P sol c q) (contact_law (is_solid (theta c q)) (r0 c q) (r1 c q) (strained noise P f sol c q)).
  Proof.
    intros Hc Hq. destruct CP as (_ & _ & _ & M & IV). destruct (IV c q Hc Hq) as (Rm & E & S). destruct (REG c q Hc Hq) as [D SS].
    intros i j Hi Hj. unfold stress. rewrite M. cbn [tensor_map contact_maps]. rewrite E. exact (stress_form eigh EO grad GC noise (sol_to_grad P f sol c q) (theta c q) Rm (r0 c q) (r1 c q) S D SS i j Hi Hj).
  Qed.
  Definition ct_densities : densities cval := mkDensities
    (fun G iv => match iv with [CNum th; CTen Rm] => contact_energy (is_solid th) (Rm 0 0)%nat (Rm 1 0)%nat (fun i j => G i j + noise i j + identity i j) | _ => 0 end) (fun _ _ _ => 0) (fun _ _ _ _ => 0).
  Lemma ct_ok : densities_ok (vec f) (dim f) ct_densities.
  Proof.
    destruct CP as (_ & VE & DE & _). rewrite VE, DE. split; [|split; reflexivity]. intros G G' iv H. unfold ct_densities. cbn [stored]. destruct iv as [|[th|t0] [|[x|Rm] [|? ?]]]; auto.
    apply energy_ext. intros i j Hi Hj. now rewrite (H i j Hi Hj).
  Qed.
  Lemma dot1_zero n h : dot1 (K := Rops) n (fun _ => 0%num) h = 0%R. Proof. unfold dot1. apply (sum_n_zero_ext Rops_ring). intros k Hk. cbn. ring. Qed.
  Lemma ct_derives : derives_from p f P sol ct_densities.
  Proof.
    pose proof CP as (STD & VE & DE & M & IV). split; [|split].
    - intros c q Hc Hq. rewrite VE, DE. destruct (IV c q Hc Hq) as (Rm & E & S). unfold ct_densities. cbn [stored]. rewrite E, (S 0 0)%nat, (S 1 0)%nat by lia. cbn [spin].
      destruct (REG c q Hc Hq) as [D _]. intros H. pose proof (law_gradient (is_solid (theta c q)) (r0 c q) (r1 c q) _ D H) as L.
      change (dot2 (K := Rops) 2 2 ?A ?B) with (ten_dot 2 A B) in L |- *. rewrite (ten_dot_ext 2 _ _ H H (cp_stress c q Hc Hq) (same_refl 2 H)).
      refine (dlim_ext _ _ _ _ _ L). intros t. apply energy_ext. intros i j _ _. unfold strained. req; ring.
    - intros c q Hc Hq h. unfold source. rewrite M. cbn [contact_maps mass_map]. rewrite dot1_zero. apply derivable_pt_lim_const.
    - intros s e q Hs He Hq c fc h. unfold traction. rewrite M. cbn [contact_maps surface_maps]. rewrite dot1_zero. apply derivable_pt_lim_const.
  Qed.
  Lemma ct_total u : total_energy sqrtK p f P ct_densities u = contact_total noise p f P theta r0 r1 u.
  Proof.
    pose proof CP as (STD & VE & DE & M & IV). unfold total_energy, contact_total, ct_densities. cbn [stored load pull].
    replace (over_faces (K := Rops) sqrtK p f P (fun _ _ _ _ _ => 0)) with 0.
    2:{ symmetry. unfold over_faces. apply (sum_n_zero_ext Rops_ring). intros s Hs. apply (sum_n_zero_ext Rops_ring). intros e He. apply (sum_n_zero_ext Rops_ring). intros q Hq. cbn. ring. }
    transitivity (over_cells (K := Rops) p f P (fun c q => contact_energy (is_solid (theta c q)) (r0 c q) (r1 c q) (strained noise P f u c q)) + 0)%R; [|ring]. apply (f_equal2 Rplus); [|reflexivity].
    unfold over_cells. apply sum_n_ext. intros c Hc. apply sum_n_ext. intros q Hq. apply (f_equal2 Rmult); [|reflexivity]. destruct (IV c q Hc Hq) as (Rm & E & S). rewrite E, (S 0 0)%nat, (S 1 0)%nat by lia. cbn [spin]. apply Rplus_0_r.
  Qed.
  Lemma ct_residual v res : sol_ok p [v] -> compute_residual sqrtK p [P] [sol] = Ok [res] ->
    derivable_pt_lim (fun t => contact_total noise p f P theta r0 r1 (along (K := Rops) sol v t)) 0 (work (K := Rops) (length (points f)) (vec f) v res).
  Proof.
    intros SV CR. pose proof CP as (STD & VE & DE & M & IV). assert (MAPS : maps_ok (vec f) (dim f) (maps p)) by (rewrite VE, DE, M; apply maps_good).
    apply (dlim_ext (fun t => total_energy sqrtK p f P ct_densities (along (K := Rops) sol v t))); [intros t; apply ct_total|].
    exact (energy_derivative sqrtK p f P sol WF NC STD SOL IVS MAPS ct_densities v res ct_ok ct_derives SV CR).
  Qed.
End Residual.

(** ** The mean rotation of a cell *)
Lemma mean_sq n (c s : nat -> R) : (0 < n)%nat -> (forall q, (q < n)%nat -> c q * c q + s q * s q = 1) ->
  1 - (average n c * average n c + average n s * average n s) = sum n (fun q => sum n (fun q' => (c q - c q') * (c q - c q') + (s q - s q') * (s q - s q'))) / (2 * (INR n * INR n)).
Proof.
  intros Hn U. assert (N : INR n <> 0) by (apply not_0_INR; lia). unfold average.
  assert (E : sum n (fun q => sum n (fun q' => (c q - c q') * (c q - c q') + (s q - s q') * (s q - s q'))) = 2 * (INR n * INR n) - 2 * (sum n c * sum n c + sum n s * sum n s)).
  { transitivity (sum n (fun q => (2 * INR n) * 1 + ((-2 * sum n c) * c q + (-2 * sum n s) * s q))).
    - apply Rsum_ext. intros q Hq. transitivity (sum n (fun q' => 2 * 1 + ((-2 * c q) * c q' + (-2 * s q) * s q'))).
      + apply Rsum_ext. intros q' Hq'. pose proof (U q Hq) as U1. pose proof (U q' Hq') as U2. transitivity ((c q * c q + s q * s q) + (c q' * c q' + s q' * s q') - 2 * c q * c q' - 2 * s q * s q'); [req; ring|]. rewrite U1, U2. req; ring.
      + rewrite !Rsum_plus, !Rsum_mul, rsum_const. req; ring.
    - rewrite !Rsum_plus, !Rsum_mul, rsum_const. req; ring. }
  rewrite E. req. field. exact N.
Qed.
Lemma Rmult_assoc_inv (x y : R) : y <> 0 -> x / y * y = x. Proof. intros H. field. exact H. Qed.
Lemma sq_both (a b x y : R) : (a - b) * (a - b) + (x - y) * (x - y) = 0 -> a = b /\ x = y. Proof. intros H. destruct (Rplus_sqr_eq_0 (a - b) (x - y) H). lra. Qed.
Lemma zero_sq (a x : R) : (a - a) * (a - a) + (x - x) * (x - x) = 0. Proof. ring. Qed.
Section Mean.
  Variables (eigh : tensor -> (nat -> R) * tensor) (noise : tensor) (P : list (list Rops)) (f : fe Rops) (u : list (list Rops)).
  Hypothesis EO : eigh_ok 3 eigh.
  Lemma post_length : length (contact_post eigh noise P f u) = num_cells f. Proof. unfold contact_post. now rewrite map_length, seq_length. Qed.
  Lemma post_form c : (c < num_cells f)%nat -> (0 < num_quads f)%nat -> (forall q, (q < num_quads f)%nat -> 0 < det (K := Rops) 2 (strained noise P f u c q)) ->
    let mc := average (num_quads f) (fun q => swing_cos (strained noise P f u c q)) in let ms := average (num_quads f) (fun q => swing_sin (strained noise P f u c q)) in
    exists M, nth_error (contact_post eigh noise P f u) c = Some (fun _ => CTen M) /\ same 3 M (spin mc ms) /\ mc * mc + ms * ms <= 1 /\
      (mc * mc + ms * ms = 1 <-> forall q q', (q < num_quads f)%nat -> (q' < num_quads f)%nat -> swing_cos (strained noise P f u c q) = swing_cos (strained noise P f u c q') /\ swing_sin (strained noise P f u c q) = swing_sin (strained noise P f u c q')).
  Proof.
    intros Hc Hn POS mc ms. eexists. split; [|split; [|]].
    - unfold contact_post. rewrite nth_error_map, nth_error_nth' with (d := 0%nat) by (rewrite seq_length; exact Hc). rewrite seq_nth by exact Hc. reflexivity.
    - intros i j Hi Hj. rewrite (Rsum_ext _ _ (fun q => spin (swing_cos (strained noise P f u c q)) (swing_sin (strained noise P f u c q)) i j)).
      2:{ intros q Hq. exact (plane_rotation eigh EO _ (POS q Hq) i j Hi Hj). }
      assert (N : INR (num_quads f) <> 0) by (apply not_0_INR; lia). unfold mc, ms, average.
      destruct i as [|[|[|i]]]; [| | |lia]; (destruct j as [|[|[|j]]]; [| | |lia]); cbn [spin]; try reflexivity; try (rewrite rsum_const; req; field; exact N).
      rewrite (Rsum_ext _ _ (fun q => (-1) * swing_sin (strained noise P f u c q))) by (intros; ring). rewrite Rsum_mul. req. field. exact N.
    - set (cs := fun q => swing_cos (strained noise P f u c q)) in *. set (sn := fun q => swing_sin (strained noise P f u c q)) in *. assert (U : forall q, (q < num_quads f)%nat -> cs q * cs q + sn q * sn q = 1) by (intros q Hq; apply swing_unit; auto).
      pose proof (mean_sq (num_quads f) cs sn Hn U) as E. fold mc ms in E. assert (NP : 0 < INR (num_quads f)) by (apply lt_0_INR; lia).
      assert (T0 : forall q q', 0 <= (cs q - cs q') * (cs q - cs q') + (sn q - sn q') * (sn q - sn q')) by (intros; apply Rplus_le_le_0_compat; apply Rle_0_sqr).
      assert (S0 : 0 <= sum (num_quads f) (fun q => sum (num_quads f) (fun q' => (cs q - cs q') * (cs q - cs q') + (sn q - sn q') * (sn q - sn q')))) by (apply Rsum_nonneg; intros q Hq; apply Rsum_nonneg; intros; apply T0).
      assert (N2 : 0 < 2 * (INR (num_quads f) * INR (num_quads f))) by (apply Rmult_lt_0_compat; [lra|now apply Rmult_lt_0_compat]). split.
      + assert (0 <= 1 - (mc * mc + ms * ms)); [|lra]. rewrite E. apply Rmult_le_pos; [exact S0|]. left. now apply Rinv_0_lt_compat.
      + split.
        * intros H1 q q' Hq Hq'. rewrite H1 in E. assert (Z : sum (num_quads f) (fun q => sum (num_quads f) (fun q' => (cs q - cs q') * (cs q - cs q') + (sn q - sn q') * (sn q - sn q'))) = 0).
          { match type of E with _ = ?S0 / ?D0 => transitivity (S0 / D0 * D0) end; [symmetry; apply Rmult_assoc_inv; apply Rgt_not_eq; exact N2|rewrite <- E; req; ring]. }
          assert (T : (cs q - cs q') * (cs q - cs q') + (sn q - sn q') * (sn q - sn q') = 0).
          { apply Rle_antisym; [|apply T0]. rewrite <- Z.
            apply Rle_trans with (sum (num_quads f) (fun q' => (cs q - cs q') * (cs q - cs q') + (sn q - sn q') * (sn q - sn q'))).
            - apply (DynamicsStable.Rsum_term (num_quads f) (fun q' => (cs q - cs q') * (cs q - cs q') + (sn q - sn q') * (sn q - sn q')) q'); auto.
            - apply (DynamicsStable.Rsum_term (num_quads f) (fun q => sum (num_quads f) (fun q' => (cs q - cs q') * (cs q - cs q') + (sn q - sn q') * (sn q - sn q'))) q); auto. intros; apply Rsum_nonneg; auto. }
          change (cs q = cs q' /\ sn q = sn q'). exact (sq_both _ _ _ _ T).
        * intros H. assert (Z : 1 - (mc * mc + ms * ms) = 0); [|lra]. rewrite E. replace (sum (num_quads f) _) with 0; [exact (Rmult_0_l _)|]. symmetry. apply (sum_n_zero_ext Rops_ring). intros q Hq. apply (sum_n_zero_ext Rops_ring). intros q' Hq'.
          destruct (H q q' Hq Hq') as [H1 H2]. change (cs q = cs q') in H1. change (sn q = sn q') in H2. rewrite H1, H2. exact (zero_sq _ _).
  Qed.
End Mean.

(** ** The mesh *)
Lemma side_x k : (0 < k)%nat -> (len_x + 50 / INR k) / INR (20 * k + 1) = 50 / INR k.
Proof.
  intros Hk. assert (N : INR k <> 0) by (apply not_0_INR; lia). assert (Kp : 0 < INR k) by (apply lt_0_INR; lia). rewrite plus_INR, mult_INR. unfold len_x. replace (INR 20) with 20 by (cbn; lra). change (INR 1) with 1. field. split; lra.
Qed.
Lemma side_y k : (0 < k)%nat -> hgt / INR (10 * k) = 50 / INR k.
Proof. intros Hk. assert (N : INR k <> 0) by (apply not_0_INR; lia). rewrite mult_INR. unfold hgt. replace (INR 10) with 10 by (cbn; lra). field. exact N. Qed.
Lemma qp_alg (h x n : R) : h * x + h * n * 1 = h * (x + n). Proof. ring. Qed.
Lemma qp_x (s h r r' n : R) : s * ((h * r + (0 * r' + 0)) + n * h) = h * (r * s) + h * n * s. Proof. ring. Qed.
Lemma qp_y (s h r r' n : R) : s * ((0 * r' + (h * r + 0)) + n * h) = h * (r * s) + h * n * s. Proof. ring. Qed.
Section Grid.
  Variables (k : nat) (Hk : (0 < k)%nat).
  Let M := contact_mesh k.
  Variables (sqrtK : R -> R) (quad fquad : list (list Rops) * list Rops) (normals : nat -> nat -> Rops) (v : nat)
    (dir : option (list (location_fn Rops) * list nat * list (list Rops -> Rops))) (f : fe Rops).
  Hypothesis BUILT : fe_init (K := Rops) sqrtK "QUAD4" quad fquad normals (m_points M) (m_cells M) v 2 dir = Ok f.
  Hypothesis CEN : centred (fst quad).
  Lemma hx_pos : (0 < 20 * k + 1)%nat. Proof. lia. Qed.
  Lemma hy_pos : (0 < 10 * k)%nat. Proof. lia. Qed.
  Lemma vals_linear q m : (m < 2)%nat -> sum (num_nodes f) (fun a => ref_coord (K := Rops) (/ 2) "QUAD4" a m * shape_vals f q a) = nth m (nth q (fst quad) []) 0.
  Proof.
    intros Hm. destruct (built_inv _ _ _ _ _ _ _ _ _ _ _ BUILT) as (info & fi & [[ns vs] ws] & HI & HFI & HD & Hf). rewrite (built_nodes _ _ _ _ _ _ _ _ _ _ _ BUILT), Hf. cbn [make_fe shape_vals].
    apply (shape_linear Rops_ring "QUAD4" info (/ 2) (nth q (fst quad) []) m); [change (/ 2 + / 2 = 1); lra|now left|exact HI|]. injection HI as <-. exact Hm.
  Qed.
  Lemma quad_point c q m : (c < (20 * k + 1) * (10 * k))%nat -> (m < 2)%nat ->
    get_physical_quad_points (m_points M) f c q m = 50 / INR k * (nth m (nth q (fst quad) []) 0 + INR (if (m =? 0)%nat then c / (10 * k) else c mod (10 * k))).
  Proof.
    intros Hc Hm. unfold get_physical_quad_points. pose proof (rect_affine _ _ (len_x + 50 / INR k) hgt hx_pos hy_pos sqrtK quad fquad normals v dir f BUILT c Hc) as AF. fold (contact_mesh k) in AF. change (contact_mesh k) with M in AF.
    assert (PL : length (m_points M) = length (points f)) by now rewrite (built_points _ _ _ _ _ _ _ _ _ _ _ BUILT).
    assert (Hc' : (c < length (cells f))%nat) by (rewrite (built_cells _ _ _ _ _ _ _ _ _ _ _ BUILT); unfold M, contact_mesh; now rewrite rect_cells_len by lia).
    pose proof (rect_mesh_ok _ _ (len_x + 50 / INR k) hgt hx_pos hy_pos sqrtK quad fquad normals v dir f BUILT) as MO.
    rewrite (Rsum_ext _ _ (fun a => (50 / INR k) * (ref_coord (K := Rops) (/ 2) "QUAD4" a m * shape_vals f q a) + (50 / INR k * INR (if (m =? 0)%nat then c / (10 * k) else c mod (10 * k))) * shape_vals f q a)).
    - rewrite Rsum_plus, !Rsum_mul, (vals_linear q m Hm), (vals_sum Rops_ring _ _ _ _ _ _ _ _ _ _ _ BUILT (or_introl eq_refl)). exact (qp_alg _ _ _).
    - intros a Ha. rewrite (coo_vx "QUAD4" 2 f MO eq_refl (m_points M) PL c a m Hc' Ha). unfold vx. rewrite (built_nodes _ _ _ _ _ _ _ _ _ _ _ BUILT) in Ha.
      pose proof (AF a m Ha Hm) as E. etransitivity; [apply (f_equal2 (@mul Rops)); [reflexivity|exact E]|].
      unfold affine. rewrite rsum2, (side_x k Hk), (side_y k Hk). destruct m as [|[|m]]; [exact (qp_x _ _ _ _ _)|exact (qp_y _ _ _ _ _)|lia].
  Qed.
  Lemma centroid c m : (c < (20 * k + 1) * (10 * k))%nat -> (m < 2)%nat ->
    sum (num_quads f) (fun q => get_physical_quad_points (m_points M) f c q m) / INR (num_quads f) = 50 / INR k * (INR (if (m =? 0)%nat then c / (10 * k) else c mod (10 * k)) + 1 / 2).
  Proof.
    intros Hc Hm. destruct CEN as [NE AV]. specialize (AV m Hm). unfold average in AV. rewrite (built_quads _ _ _ _ _ _ _ _ _ _ _ BUILT). assert (N : INR (length (fst quad)) <> 0) by (apply not_0_INR; destruct (fst quad); [congruence|discriminate]).
    rewrite (Rsum_ext _ _ (fun q => 50 / INR k * nth m (nth q (fst quad) []) 0 + 50 / INR k * INR (if (m =? 0)%nat then c / (10 * k) else c mod (10 * k)))) by (intros q Hq; rewrite (quad_point c q m Hc Hm); req; ring).
    rewrite Rsum_plus, Rsum_mul, rsum_const.
    match goal with |- (?A * ?S0 + ?n * ?B) / ?n = _ => transitivity (A * (S0 / n) + B); [req; field; split; [apply not_0_INR; lia|exact N]|] end. rewrite AV. req; ring.
  Qed.
  Lemma thetas_length : length (contact_thetas (m_points M) f) = ((20 * k + 1) * (10 * k))%nat.
  Proof. unfold contact_thetas. rewrite map_length, seq_length. unfold num_cells. rewrite (built_cells _ _ _ _ _ _ _ _ _ _ _ BUILT). unfold M, contact_mesh. now rewrite rect_cells_len by lia. Qed.
  Lemma ltR_spec (a b : R) (x : bool) : (x = true <-> a < b) -> (if Rlt_dec a b then true else false) = x.
  Proof. intros H. destruct (Rlt_dec a b) as [L|L]; symmetry; [now apply H|]. destruct x; auto. exfalso. apply L. now apply H. Qed.
  Lemma below (n m : nat) : (50 / INR k * (INR n + 1 / 2) < 50 * INR m) <-> (n < m * k)%nat.
  Proof.
    assert (Kp : 0 < INR k) by (apply lt_0_INR; exact Hk). assert (E : 50 * INR m = 50 / INR k * (INR (m * k))) by (rewrite mult_INR; field; lra). rewrite E. assert (D : 0 < 50 / INR k) by (apply Rdiv_lt_0_compat; lra). split.
    - intros H. apply Rmult_lt_reg_l in H; [|exact D]. apply INR_lt. lra.
    - intros H. apply Rmult_lt_compat_l; [exact D|]. apply lt_le_S in H. apply le_INR in H. rewrite S_INR in H. lra.
  Qed.
  Lemma above (n m : nat) : (50 * INR m < 50 / INR k * (INR n + 1 / 2)) <-> (m * k <= n)%nat.
  Proof.
    assert (Kp : 0 < INR k) by (apply lt_0_INR; exact Hk). assert (E : 50 * INR m = 50 / INR k * (INR (m * k))) by (rewrite mult_INR; field; lra). rewrite E. assert (D : 0 < 50 / INR k) by (apply Rdiv_lt_0_compat; lra). split.
    - intros H. apply Rmult_lt_reg_l in H; [|exact D]. assert (INR (m * k) < INR (S n)) by (rewrite S_INR; lra). apply INR_lt in H0. lia.
    - intros H. apply Rmult_lt_compat_l; [exact D|]. apply le_INR in H. lra.
  Qed.
  Lemma theta_form i j : (i < 20 * k + 1)%nat -> (j < 10 * k)%nat -> nth_error (contact_thetas (m_points M) f) (i * (10 * k) + j) = Some (fun _ => CNum (if in_solid k i j then 1 else 0)).
  Proof.
    intros Hi Hj. set (c := (i * (10 * k) + j)%nat). assert (Hc : (c < (20 * k + 1) * (10 * k))%nat) by (unfold c; nia). unfold contact_thetas. rewrite nth_error_map, nth_error_nth' with (d := 0%nat) by (rewrite seq_length; rewrite <- thetas_length in Hc; unfold contact_thetas in Hc; rewrite map_length, seq_length in Hc; exact Hc).
    rewrite seq_nth by (rewrite <- thetas_length in Hc; unfold contact_thetas in Hc; rewrite map_length, seq_length in Hc; exact Hc). cbn [option_map Nat.add]. f_equal. cbv zeta.
    rewrite !(centroid c 0 Hc), !(centroid c 1 Hc) by lia. cbn [Nat.eqb]. assert (E1 : (c / (10 * k) = i)%nat) by (unfold c; rewrite Nat.div_add_l by lia; rewrite Nat.div_small; lia). assert (E2 : (c mod (10 * k) = j)%nat) by (unfold c; rewrite Nat.add_comm, Nat.mod_add by lia; now apply Nat.mod_small).
    rewrite E1, E2. unfold in_solid.
    rewrite (ltR_spec _ len_x (i <? 20 * k)%nat). 2:{ rewrite Nat.ltb_lt, <- (below i 20). unfold len_x. replace (50 * INR 20) with 1000 by (cbn; lra). tauto. }
    rewrite (ltR_spec _ arm (i <? 2 * k)%nat). 2:{ rewrite Nat.ltb_lt, <- (below i 2). unfold arm. replace (50 * INR 2) with 100 by (cbn; lra). tauto. }
    rewrite (ltR_spec _ arm (j <? 2 * k)%nat). 2:{ rewrite Nat.ltb_lt, <- (below j 2). unfold arm. replace (50 * INR 2) with 100 by (cbn; lra). tauto. }
    rewrite (ltR_spec (hgt - arm) _ (8 * k <=? j)%nat). 2:{ rewrite Nat.leb_le, <- (above j 8). unfold arm, hgt. replace (50 * INR 8) with (500 - 100) by (cbn; lra). tauto. }
    reflexivity.
  Qed.
End Grid.
