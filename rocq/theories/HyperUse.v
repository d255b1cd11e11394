(** Lemmas for C102: problems with the neo-Hookean stress. *)
From Coq Require Import String Reals List Arith Lia Lra Psatz Bool.
From Verif Require Import Num Arr ArrFacts Fe SpecFe FeFacts Problem SpecAssembly BatchFacts ProblemFacts AssemblyFacts DerivFacts SpecWeak KernelFacts SpecEnergy EnergyFacts Elastic ElasticFacts ElasticMain Plasticity HyperElastic SpecHyper HyperFacts HyperMain.
Import ListNotations.
Local Open Scope R_scope.

Lemma plane_sym E nu F : det (K := Rops) 2 F <> 0 -> let S := neo_stress 3 E nu (embed F) in same 2 (product 2 S (transposed F)) (transposed (product 2 S (transposed F))).
Proof.
  intros N S i j Hi Hj. rewrite <- embed_det in N. pose proof (kirchhoff_sym 3 E nu (or_intror eq_refl) (embed F) N i j ltac:(lia) ltac:(lia)) as K. fold S in K.
  assert (A : forall a b, (a < 2)%nat -> (b < 2)%nat -> product 3 S (transposed (embed F)) a b = product 2 S (transposed F) a b).
  { intros a b Ha Hb. unfold product, transposed, embed. rewrite rsum3, rsum2. destruct b as [|[|b]]; [| |lia]; cbn [Nat.ltb Nat.leb Nat.eqb andb]; req; ring. }
  unfold transposed at 2. unfold transposed at 2 in K. rewrite <- !A by assumption. exact K.
Qed.
Lemma gather_at {A} (z : A) l i : (i < length l)%nat -> gather z l i = nth i l z.
Proof. intros H. unfold gather. destruct (length l) eqn:E; [lia|]. f_equal. apply Nat.min_l. lia. Qed.
(** what the problem-level statements need of an energy and its stress *)
Record lawful (d : nat) (energy : tensor -> R) (S : tensor -> tensor) : Prop := mkLawful {
  law_dim : ok_dim d;
  law_ext : forall F F', same d F F' -> energy F = energy F';
  law_grad : forall F, 0 < det (K := Rops) d F -> gradient2 d d energy F (S F);
  law_sym : forall F, 0 < det (K := Rops) d F -> same d (product d (S F) (transposed F)) (transposed (product d (S F) (transposed F)));
  law_rot : forall Q, is_rotation d Q -> same d (S Q) (fun _ _ => 0)
}.
Lemma rotation_same d F Q : ok_dim d -> same d F Q -> is_rotation d Q -> is_rotation d F.
Proof.
  intros D H [H1 H2]. split; [now rewrite (det_same d F Q H)|]. intros i j Hi Hj. rewrite <- (H2 i j Hi Hj). unfold product, transposed. apply Rsum_ext. intros k Hk. now rewrite (H k i Hk Hi), (H k j Hk Hj).
Qed.
Lemma embed_rotation Q : is_rotation 2 Q -> is_rotation 3 (embed Q).
Proof.
  intros [H1 H2]. split; [now rewrite embed_det|]. intros i j Hi Hj.
  pose proof (H2 0 0 ltac:(lia) ltac:(lia))%nat as A. pose proof (H2 0 1 ltac:(lia) ltac:(lia))%nat as B. pose proof (H2 1 0 ltac:(lia) ltac:(lia))%nat as C. pose proof (H2 1 1 ltac:(lia) ltac:(lia))%nat as E.
  unfold product, transposed, identity in *. rewrite rsum2 in A, B, C, E. rewrite rsum3. unfold embed. cbn [Nat.eqb] in *.
  destruct i as [|[|[|i]]]; [| | |lia]; (destruct j as [|[|[|j]]]; [| | |lia]); cbn [Nat.ltb Nat.leb Nat.eqb andb]; req; lra.
Qed.
Lemma lawful_psi d E nu : ok_dim d -> lawful d (psi d E nu) (neo_stress d E nu).
Proof. intros D. split; [exact D|intros; now apply psi_ext|intros; now apply psi_gradient|intros F P; apply kirchhoff_sym; [exact D|lra]|intros Q H; now apply neo_rotation]. Qed.
Lemma lawful_plane E nu : lawful 2 (psi_plane E nu) (fun F => neo_stress 3 E nu (embed F)).
Proof.
  split; [now left| |intros; now apply plane_gradient|intros F P; apply plane_sym; lra|].
  2: { intros Q H i j Hi Hj. exact (neo_rotation 3 E nu (or_intror eq_refl) (embed Q) (embed_rotation Q H) i j ltac:(lia) ltac:(lia)). }
  intros F F' H. unfold psi_plane. apply psi_ext. intros i j Hi Hj. unfold embed. destruct (Nat.ltb_spec i 2), (Nat.ltb_spec j 2); cbn [andb]; auto.
Qed.
Lemma grad_is d energy S grad F : lawful d energy S -> grad_correct d grad energy -> 0 < det (K := Rops) d F -> same d (grad energy F) (S F).
Proof. intros L [G _] P. apply (gradient_unique d energy F); [now apply G|now apply (law_grad _ _ _ L)]. Qed.
Lemma skew_dot d W T : skew d W -> same d T (transposed T) -> ten_dot d W T = 0.
Proof.
  intros HW HT. assert (E : ten_dot d W T = - ten_dot d W T); [|lra].
  unfold ten_dot at 1. rewrite Rsum_swap. transitivity (ten_dot d (fun i j => - (1) * W i j + 0 * W i j) T); [|rewrite ten_dot_comb; req; ring].
  unfold ten_dot. apply Rsum_ext. intros i Hi. apply Rsum_ext. intros j Hj. rewrite (HW j i Hj Hi), (HT j i Hj Hi). unfold transposed. req; ring.
Qed.
Lemma turn_dot d W A F : ten_dot d A (product d W F) = ten_dot d W (product d A (transposed F)).
Proof.
  unfold ten_dot. apply Rsum_ext. intros i Hi. unfold product, transposed.
  transitivity (sum_n (K := Rops) d (fun j => sum_n (K := Rops) d (fun k => A i j * (W i k * F k j)))); [apply Rsum_ext; intros j Hj; now rewrite <- Rsum_mul|].
  rewrite Rsum_swap. apply Rsum_ext. intros k Hk. rewrite <- Rsum_mul. apply Rsum_ext. intros j Hj. req; ring.
Qed.

Section Use.
  Context {V : Type}.
  Variables (grad : (tensor -> R) -> tensor -> tensor) (energy : tensor -> R) (St : tensor -> tensor).
  Variables (sqrtK : Rops -> Rops) (p : problem Rops V) (f : fe Rops) (P : list (list Rops)).
  Hypothesis WF : wf_problem p.
  Hypothesis NC : (0 < p_num_cells p)%nat.
  Hypothesis HY : hyper_problem grad energy p f.
  Hypothesis LAW : lawful (dim f) energy St.
  Hypothesis GC : grad_correct (dim f) grad energy.
  Hypothesis IVS : ivs_ok p.
  Hypothesis MAPS : maps_ok (vec f) (dim f) (maps p).
  Lemma STD : standard_problem p f. Proof. exact (proj1 HY). Qed.
  Lemma VD : vec f = dim f. Proof. exact (proj1 (proj2 HY)). Qed.
  Lemma TM : tensor_map (maps p) = Some (fun G _ => first_PK_stress grad energy G). Proof. exact (proj1 (proj2 (proj2 HY))). Qed.
  Lemma MD mm u u' x iv k : mass_map (maps p) = Some mm -> mm u x iv k = mm u' x iv k. Proof. exact (proj1 (proj2 (proj2 (proj2 HY))) mm u u' x iv k). Qed.
  Lemma SD sms sm u u' x iv k : surface_maps (maps p) = Some sms -> In sm sms -> sm u x iv k = sm u' x iv k. Proof. exact (proj2 (proj2 (proj2 (proj2 HY))) sms sm u u' x iv k). Qed.

  Lemma hy_stress u c q : 0 < det (K := Rops) (dim f) (deform P f u c q) -> forall k j, (k < dim f)%nat -> (j < dim f)%nat -> stress p f P u c q k j = St (deform P f u c q) k j.
  Proof. intros D k j Hk Hj. unfold stress. rewrite TM. exact (grad_is (dim f) energy St grad (deform P f u c q) LAW GC D k j Hk Hj). Qed.

  Definition hyper_densities : densities V := mkDensities (fun G _ => energy (fun i j => G i j + identity i j))
      (fun u x iv => match mass_map (maps p) with None => 0 | Some mm => dot1 (K := Rops) (vec f) (mm (fun _ => 0) x iv) u end)
      (fun s u x iv => match surface_maps (maps p) with None => 0 | Some sms =>
         match nth_error sms s with None => 0 | Some sm => dot1 (K := Rops) (vec f) (sm (fun _ => 0) x iv) u end end).
  Lemma hy_densities : densities_ok (vec f) (dim f) hyper_densities.
  Proof.
    unfold densities_ok, hyper_densities. cbn [stored load pull]. split; [|split].
    - intros G G' iv H. apply (law_ext _ _ _ LAW). intros i j Hi Hj. rewrite H; auto. now rewrite VD.
    - intros u u' x iv H. destruct (mass_map (maps p)); auto. apply dot1_ext; auto.
    - intros s u u' x iv H. destruct (surface_maps (maps p)) as [sms|]; auto. destruct (nth_error sms s); auto. apply dot1_ext; auto.
  Qed.
  Lemma hy_total u : total_energy sqrtK p f P hyper_densities u = hyper_potential energy sqrtK p f P u.
  Proof.
    assert (Z : forall u, dot1 (K := Rops) (vec f) (fun k => 0%num) u = 0%R) by (intros; unfold dot1; apply (sum_n_zero_ext Rops_ring); intros; cbn; ring).
    unfold total_energy, hyper_potential, hyper_densities. cbn [stored load pull]. f_equal.
    - unfold over_cells. apply sum_n_ext. intros c Hc. apply sum_n_ext. intros q Hq. f_equal. apply (f_equal2 Rplus); [reflexivity|]. unfold source. destruct (mass_map (maps p)) as [mm|] eqn:E; [|now rewrite Z].
      apply dot1_ext; auto; intros k Hk; now apply MD.
    - unfold over_faces. apply sum_n_ext. intros s Hs. apply sum_n_ext. intros e He. apply sum_n_ext. intros q Hq. f_equal. unfold traction.
      destruct (surface_maps (maps p)) as [sms|] eqn:E; [|now rewrite Z]. destruct (nth_error sms s) as [sm|] eqn:E2; [|now rewrite Z].
      apply dot1_ext; auto; intros k Hk; apply (SD sms sm); auto; now apply nth_error_In in E2.
  Qed.
  Section At.
    Variable sol : list (list Rops).
    Hypothesis SOL : sol_ok p [sol].
    Hypothesis POS : forall c q, (c < p_num_cells p)%nat -> (q < num_quads f)%nat -> 0 < det (K := Rops) (dim f) (deform P f sol c q).
    Lemma hy_derives : derives_from p f P sol hyper_densities.
    Proof.
      split; [|split].
      - intros c q Hc Hq H. unfold hyper_densities. cbn [stored]. rewrite VD.
        replace (dot2 (K := Rops) (dim f) (dim f) (stress p f P sol c q) H) with (ten_dot (dim f) (St (deform P f sol c q)) H)
          by (apply ten_dot_ext; [intros i j Hi Hj; symmetry; apply hy_stress; auto|apply same_refl]).
        refine (dlim_ext _ _ _ _ _ (law_grad _ _ _ LAW _ (POS c q Hc Hq) H)). intros t. apply (law_ext _ _ _ LAW). intros i j _ _. unfold deform. req; ring.
      - intros c q Hc Hq h. unfold hyper_densities. cbn [load]. unfold source. destruct (mass_map (maps p)) as [mm|] eqn:E.
        + set (x := get_physical_quad_points P f c q). set (iv := iv_at p c q). set (a := mm (fun _ => 0%R) x iv). set (u := convert_from_dof_to_quad f sol c q).
          apply (dlim_ext (fun t => dot1 (K := Rops) (vec f) a u + (dot1 (K := Rops) (vec f) a h * t + 0 * (t * t)))%R).
          * intros t. rewrite dot1_line. cbn; ring.
          * replace (dot1 (K := Rops) (vec f) (fun k => mm u x iv k) h) with (dot1 (K := Rops) (vec f) a h); [apply dlim_quad|].
            apply dot1_ext; auto. intros k Hk. unfold a. now apply MD.
        + replace (dot1 (K := Rops) (vec f) (fun k => 0%num) h) with 0%R; [apply derivable_pt_lim_const|]. symmetry. unfold dot1. apply (sum_n_zero_ext Rops_ring). intros k Hk. cbn. ring.
      - intros s e q Hs He Hq c fc h. unfold hyper_densities. cbn [pull]. unfold traction. fold c fc.
        destruct (surface_maps (maps p)) as [sms|] eqn:E; [destruct (nth_error sms s) as [sm|] eqn:E2|].
        + set (x := get_physical_surface_quad_points P f c fc q). set (iv := iv_face_at p s e q). set (a := sm (fun _ => 0%R) x iv). set (u := convert_from_dof_to_face_quad f sol c fc q).
          apply (dlim_ext (fun t => dot1 (K := Rops) (vec f) a u + (dot1 (K := Rops) (vec f) a h * t + 0 * (t * t)))%R).
          * intros t. rewrite dot1_line. cbn; ring.
          * replace (dot1 (K := Rops) (vec f) (fun k => sm u x iv k) h) with (dot1 (K := Rops) (vec f) a h); [apply dlim_quad|].
            apply dot1_ext; auto. intros k Hk. unfold a. apply (SD sms sm); auto. now apply nth_error_In in E2.
        + replace (dot1 (K := Rops) (vec f) (fun k => 0%num) h) with 0%R; [apply derivable_pt_lim_const|]. symmetry. unfold dot1. apply (sum_n_zero_ext Rops_ring). intros k Hk. cbn. ring.
        + replace (dot1 (K := Rops) (vec f) (fun k => 0%num) h) with 0%R; [apply derivable_pt_lim_const|]. symmetry. unfold dot1. apply (sum_n_zero_ext Rops_ring). intros k Hk. cbn. ring.
    Qed.
    Theorem hy_energy v res : sol_ok p [v] -> compute_residual sqrtK p [P] [sol] = Ok [res] ->
      derivable_pt_lim (fun t => hyper_potential energy sqrtK p f P (along (K := Rops) sol v t)) 0 (work (K := Rops) (length (points f)) (vec f) v res).
    Proof.
      intros SV CR. apply (dlim_ext (fun t => total_energy sqrtK p f P hyper_densities (along (K := Rops) sol v t))); [intros t; apply hy_total|].
      exact (energy_derivative sqrtK p f P sol WF NC STD SOL IVS MAPS hyper_densities v res hy_densities hy_derives SV CR).
    Qed.
    Lemma hy_free v res : sol_ok p [v] -> compute_residual sqrtK p [P] [sol] = Ok [res] ->
      (forall c q, (c < p_num_cells p)%nat -> (q < num_quads f)%nat -> ten_dot (dim f) (St (deform P f sol c q)) (sol_to_grad P f v c q) = 0) ->
      work (K := Rops) (length (points f)) (vec f) v res = load_work sqrtK p f P sol v.
    Proof.
      intros SV CR Z. rewrite (any_work Rops_ring sqrtK p f P sol WF NC STD SOL IVS MAPS v res SV CR). unfold load_work. apply (f_equal2 Rplus); [|reflexivity].
      unfold over_cells. apply sum_n_ext. intros c Hc. apply sum_n_ext. intros q Hq. apply (f_equal2 Rmult); [|reflexivity].
      replace (dot2 (K := Rops) (vec f) (dim f) (stress p f P sol c q) (sol_to_grad P f v c q)) with 0; [apply Rplus_0_l|].
      rewrite <- (Z c q Hc Hq), VD. apply ten_dot_ext; [intros i j Hi Hj; symmetry; apply hy_stress; auto|apply same_refl].
    Qed.
    (** forces of the deformed body exert no torque *)
    Hypothesis PL : length P = length (points f).
    Hypothesis MESH : mesh_ok f.
    Hypothesis CELLS : p_num_cells p = length (cells f).
    Lemma grad_of_points c q : (c < length (cells f))%nat -> det (K := Rops) (dim f) (jacobian_dx_deta P f c q) <> 0 -> same (dim f) (sol_to_grad P f P c q) identity.
    Proof.
      intros Hc N k j Hk Hj. rewrite <- (inv_r (dim f) (jacobian_dx_deta P f c q) (law_dim _ _ _ LAW) N k j Hk Hj). unfold sol_to_grad, get_shape_grads, product, jacobian_dx_deta.
      transitivity (sum_n (K := Rops) (num_nodes f) (fun a => sum_n (K := Rops) (dim f) (fun i => coo P f c a k * shape_grads_ref f q a i * inv_mat (K := Rops) (dim f) (jacobian_dx_deta P f c q) i j))).
      - apply Rsum_ext. intros a Ha. etransitivity; [symmetry; apply Rsum_mul|]. apply Rsum_ext. intros i Hi. change (cell_sol_at f P c a k) with (coo P f c a k). symmetry. apply Rmult_assoc.
      - rewrite Rsum_swap. apply Rsum_ext. intros i Hi. etransitivity; [|apply Rmult_comm]. etransitivity; [|apply Rsum_mul]. apply Rsum_ext. intros a Ha. apply Rmult_comm.
    Qed.
    Lemma at_node (v : list (list Rops)) c a k : length v = length (points f) -> (c < length (cells f))%nat -> (a < num_nodes f)%nat -> cell_sol_at f v c a k = get2 0 v (cell_node f c a) k.
    Proof.
      intros L Hc Ha. unfold cell_sol_at, get2. rewrite gather_at; [reflexivity|]. destruct (MESH c Hc) as (LC & I). rewrite L. apply I. apply nth_In. lia.
    Qed.
    Lemma node_lt c a : (c < length (cells f))%nat -> (a < num_nodes f)%nat -> (cell_node f c a < length (points f))%nat.
    Proof. intros Hc Ha. destruct (MESH c Hc) as (LC & I). apply I. apply nth_In. lia. Qed.
    Lemma sol_len v : sol_ok p [v] -> length v = length (points f).
    Proof.
      intros (L & H). destruct STD as (EF & _). rewrite EF in *. specialize (H 0%nat ltac:(cbn; lia)). unfold fe_of in H. rewrite EF in H. cbn in H. exact (proj1 H).
    Qed.
    Lemma grad_turning W v c q : sol_ok p [v] -> turning (dim f) W P sol v -> (c < length (cells f))%nat -> det (K := Rops) (dim f) (jacobian_dx_deta P f c q) <> 0 ->
      same (dim f) (sol_to_grad P f v c q) (product (dim f) W (deform P f sol c q)).
    Proof.
      intros SV T Hc N k j Hk Hj. unfold product, deform.
      transitivity (sum_n (K := Rops) (dim f) (fun l => W k l * (sol_to_grad P f sol c q l j + sol_to_grad P f P c q l j))).
      - unfold sol_to_grad. transitivity (sum_n (K := Rops) (num_nodes f) (fun a => sum_n (K := Rops) (dim f) (fun l => W k l * ((cell_sol_at f sol c a l + cell_sol_at f P c a l) * get_shape_grads P f c q a j)))).
        + apply Rsum_ext. intros a Ha. rewrite (at_node v c a k (sol_len v SV) Hc Ha). rewrite (T (cell_node f c a) k); [|rewrite PL; now apply node_lt|exact Hk].
          etransitivity; [apply Rmult_comm|]. rewrite <- Rsum_mul. apply Rsum_ext. intros l Hl. rewrite (at_node sol c a l (sol_len sol SOL) Hc Ha), (at_node P c a l PL Hc Ha). req; ring.
        + rewrite Rsum_swap. apply Rsum_ext. intros l Hl. rewrite Rsum_mul. f_equal. rewrite <- Rsum_plus. apply Rsum_ext. intros a Ha. cbn [mul Rops]. req; ring.
      - apply Rsum_ext. intros l Hl. rewrite (grad_of_points c q Hc N l j Hl Hj). reflexivity.
    Qed.
    Theorem hy_torque W v res : sol_ok p [v] -> compute_residual sqrtK p [P] [sol] = Ok [res] -> skew (dim f) W -> turning (dim f) W P sol v ->
      (forall c q, (c < p_num_cells p)%nat -> (q < num_quads f)%nat -> det (K := Rops) (dim f) (jacobian_dx_deta P f c q) <> 0) ->
      work (K := Rops) (length (points f)) (vec f) v res = load_work sqrtK p f P sol v.
    Proof.
      intros SV CR SK T N. apply hy_free; auto. intros c q Hc Hq.
      rewrite (ten_dot_ext (dim f) _ _ _ _ (same_refl _ (St (deform P f sol c q))) (grad_turning W v c q SV T ltac:(rewrite <- CELLS; exact Hc) (N c q Hc Hq))).
      rewrite turn_dot. apply skew_dot; [exact SK|]. apply (law_sym _ _ _ LAW). now apply POS.
    Qed.
  End At.
End Use.
