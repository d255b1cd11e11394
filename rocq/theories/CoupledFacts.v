(** Problems with two variables and a universal kernel made of fluxes and sources: residual and weak form (C82, C83). *)
From Coq Require Import List Arith Lia Bool Setoid Ring.
From Verif Require Import Num Arr ArrFacts Fe Problem BatchFacts SpecAssembly AssemblyFacts ProblemFacts ResidualFacts AgreeFacts DerivFacts
  FeFacts SpecWeak KernelFacts SpecEnergy SpecFe SpecCoupled.
Import ListNotations.

Section Kernel.
  Context {K : ops} {V : Type}.
  Open Scope num_scope.
  Definition local_state (f0 f1 : fe K) (ci : cell_in K V) (q : nat) : point_state :=
    let cs := unravel [(num_nodes f0, vec f0); (num_nodes f1, vec f1)] (ci_sol ci) in
    mkState (fun k j => sum_n (num_nodes f0) (fun a => get2 0 (nth 0 cs []) a k * ci_grads ci q a j))
            (fun k => sum_n (num_nodes f0) (fun a => get2 0 (nth 0 cs []) a k * shape_vals f0 q a))
            (fun k j => sum_n (num_nodes f1) (fun a => get2 0 (nth 1 cs []) a k * ci_grads ci q (num_nodes f0 + a)%nat j))
            (fun k => sum_n (num_nodes f1) (fun a => get2 0 (nth 1 cs []) a k * shape_vals f1 q a))
            (at_quad (ci_iv ci) q).
  Definition coupled_kernel (f0 f1 : fe K) (F : coupled_form) (ci : cell_in K V) : list K :=
    let st := local_state f0 f1 ci in
    flat_map (fun a => map (fun k => sum_n (num_quads f0) (fun q =>
        sum_n (dim f0) (fun j => flux0 F (st q) k j * ci_vgJxW ci q a j) + source0 F (st q) k * shape_vals f0 q a * ci_JxW ci 0 q))
      (seq 0 (vec f0))) (seq 0 (num_nodes f0)) ++
    flat_map (fun a => map (fun k => sum_n (num_quads f1) (fun q =>
        sum_n (dim f1) (fun j => flux1 F (st q) k j * ci_vgJxW ci q (num_nodes f0 + a)%nat j) + source1 F (st q) k * shape_vals f1 q a * ci_JxW ci 1 q))
      (seq 0 (vec f1))) (seq 0 (num_nodes f1)).
  (** two variables, no surface, no map but a universal kernel, which on the internal variables of the cells is the coupled kernel *)
  Definition coupled_problem (p : problem K V) (f0 f1 : fe K) (F : coupled_form) : Prop :=
    fes p = [f0; f1] /\ boundary_inds_list p = [] /\ internal_vars_surfaces p = [] /\
    tensor_map (maps p) = None /\ mass_map (maps p) = None /\ surface_maps (maps p) = None /\ universal_kernels_surface (maps p) = None /\
    exists uk, universal_kernel (maps p) = Some uk /\ (forall ci, length (uk ci) = (num_nodes f0 * vec f0 + num_nodes f1 * vec f1)%nat) /\
      forall ci c, (c < p_num_cells p)%nat -> ci_iv ci = flat_map (fun iv => match nth_error iv c with Some x => [x] | None => [] end) (internal_vars p) -> uk ci = coupled_kernel f0 f1 F ci.
  Lemma flat_table_len (G : nat -> nat -> K) m n : length (flat_map (fun a => map (G a) (seq 0 m)) (seq 0 n)) = (n * m)%nat.
  Proof. rewrite (flat_map_length_const _ _ m); [now rewrite seq_length|]. intros. now rewrite map_length, seq_length. Qed.
  Lemma coupled_len f0 f1 F ci : length (coupled_kernel f0 f1 F ci) = (num_nodes f0 * vec f0 + num_nodes f1 * vec f1)%nat.
  Proof. unfold coupled_kernel. cbv zeta. rewrite app_length. now rewrite !flat_table_len. Qed.
End Kernel.

Section Weak.
  Context {K : ops} (KR : ring_laws K) {V : Type}.
  Open Scope num_scope.
  Let Kth : ring_theory (@zero K) one add mul sub opp eq := KR.
  Add Ring KringCp : Kth.
  Variables (sqrtK : K -> K) (p : problem K V) (f0 f1 : fe K) (F : coupled_form (K := K) (V := V)) (P0 P1 : list (list K)).
  Hypothesis CP : coupled_problem p f0 f1 F.
  Hypothesis WF : wf_problem p.
  Hypothesis NC : (0 < p_num_cells p)%nat.
  Hypothesis FO : form_ok (vec f0) (dim f0) (vec f1) (dim f1) F.
  Hypothesis IVS : forall iv, In iv (internal_vars p) -> length iv = p_num_cells p.

  Lemma cp_fes : fes p = [f0; f1]. Proof. exact (proj1 CP). Qed.
  Lemma cp_fe i : (i < 2)%nat -> fe_of p i = if (i =? 0)%nat then f0 else f1.
  Proof. intros Hi. unfold fe_of. rewrite cp_fes. destruct i as [|[|i]]; auto. lia. Qed.
  Lemma cp_len : length (fes p) = 2%nat. Proof. now rewrite cp_fes. Qed.
  Lemma cp_shapes : local_shapes p = [(num_nodes f0, vec f0); (num_nodes f1, vec f1)].
  Proof. unfold local_shapes. now rewrite cp_fes. Qed.
  Lemma cp_global : global_shapes p = [(length (points f0), vec f0); (length (points f1), vec f1)].
  Proof. unfold global_shapes. now rewrite cp_fes. Qed.
  Lemma cp_node0 c a : node_of p 0 c a = cell_node f0 c a.
  Proof. unfold node_of, cell_node. now rewrite cp_fe by lia. Qed.
  Lemma cp_node1 c a : node_of p 1 c a = cell_node f1 c a.
  Proof. unfold node_of, cell_node. now rewrite cp_fe by lia. Qed.
  Lemma cp_node0_ok c a : (c < p_num_cells p)%nat -> (a < num_nodes f0)%nat -> (cell_node f0 c a < length (points f0))%nat.
  Proof. intros Hc Ha. pose proof (node_bound p WF 0 c a) as H. rewrite cp_node0, cp_len, cp_fe in H by lia. cbn in H. apply H; auto. Qed.
  Lemma cp_node1_ok c a : (c < p_num_cells p)%nat -> (a < num_nodes f1)%nat -> (cell_node f1 c a < length (points f1))%nat.
  Proof. intros Hc Ha. pose proof (node_bound p WF 1 c a) as H. rewrite cp_node1, cp_len, cp_fe in H by lia. cbn in H. apply H; auto. Qed.
  Lemma cp_len0 u w : sol_ok p [u; w] -> length u = length (points f0).
  Proof. intros [_ H]. specialize (H 0%nat). rewrite cp_len, cp_fe in H by lia. apply H. lia. Qed.
  Lemma cp_len1 u w : sol_ok p [u; w] -> length w = length (points f1).
  Proof. intros [_ H]. specialize (H 1%nat). rewrite cp_len, cp_fe in H by lia. apply H. lia. Qed.
  Lemma cp_sol x : sol_ok p x -> exists u w, x = [u; w] /\ shaped (length (points f0)) (vec f0) u /\ shaped (length (points f1)) (vec f1) w.
  Proof.
    intros [L H]. rewrite cp_len in L, H. destruct x as [|u [|w [|? ?]]]; try discriminate. exists u, w. split; auto.
    pose proof (H 0%nat) as H0. pose proof (H 1%nat) as H1. rewrite cp_fe in H0, H1 by lia. split; [apply H0|apply H1]; lia.
  Qed.
  Lemma cp_sol_ok u w : shaped (length (points f0)) (vec f0) u -> shaped (length (points f1)) (vec f1) w -> sol_ok p [u; w].
  Proof.
    intros H0 H1. split; [now rewrite cp_len|]. intros v Hv. rewrite cp_len in Hv. rewrite cp_fe by lia. destruct v as [|[|v]]; cbn; auto. lia.
  Qed.
  Lemma cp_field0 u w c a k : sol_ok p [u; w] -> (c < p_num_cells p)%nat -> (a < num_nodes f0)%nat -> get2 0 u (cell_node f0 c a) k = cell_sol_at f0 u c a k.
  Proof. intros SO Hc Ha. unfold get2, cell_sol_at. rewrite gather_in; auto. rewrite (cp_len0 _ _ SO). now apply cp_node0_ok. Qed.
  Lemma cp_field1 u w c a k : sol_ok p [u; w] -> (c < p_num_cells p)%nat -> (a < num_nodes f1)%nat -> get2 0 w (cell_node f1 c a) k = cell_sol_at f1 w c a k.
  Proof. intros SO Hc Ha. unfold get2, cell_sol_at. rewrite gather_in; auto. rewrite (cp_len1 _ _ SO). now apply cp_node1_ok. Qed.

  (** the geometric arrays, variable by variable *)
  Lemma cp_grads0 c q a j : (a < num_nodes f0)%nat -> p_shape_grads p [P0; P1] c q a j = get_shape_grads P0 f0 c q a j.
  Proof. intros Ha. unfold p_shape_grads. rewrite cp_fes. cbn [combine map fst snd cat_axis]. apply Nat.ltb_lt in Ha. now rewrite Ha. Qed.
  Lemma cat_second n0 a : ((n0 + a <? n0)%nat = false) /\ (n0 + a - n0 = a)%nat.
  Proof. split; [apply Nat.ltb_ge; lia|lia]. Qed.
  Lemma cp_grads1 c q a j : (a < num_nodes f1)%nat -> p_shape_grads p [P0; P1] c q (num_nodes f0 + a)%nat j = get_shape_grads P1 f1 c q a j.
  Proof.
    intros Ha. unfold p_shape_grads. rewrite cp_fes. cbn [combine map fst snd cat_axis]. destruct (cat_second (num_nodes f0) a) as [-> ->].
    apply Nat.ltb_lt in Ha. now rewrite Ha.
  Qed.
  Lemma cp_vg0 c q a j : (a < num_nodes f0)%nat -> p_v_grads_JxW p [P0; P1] c q a j = get_shape_grads P0 f0 c q a j * get_JxW P0 f0 c q.
  Proof. intros Ha. unfold p_v_grads_JxW. rewrite cp_fes. cbn [combine map fst snd cat_axis]. apply Nat.ltb_lt in Ha. now rewrite Ha. Qed.
  Lemma cp_vg1 c q a j : (a < num_nodes f1)%nat -> p_v_grads_JxW p [P0; P1] c q (num_nodes f0 + a)%nat j = get_shape_grads P1 f1 c q a j * get_JxW P1 f1 c q.
  Proof.
    intros Ha. unfold p_v_grads_JxW. rewrite cp_fes. cbn [combine map fst snd cat_axis]. destruct (cat_second (num_nodes f0) a) as [-> ->].
    apply Nat.ltb_lt in Ha. now rewrite Ha.
  Qed.
  Lemma cp_J0 c q : p_JxW p [P0; P1] c 0 q = get_JxW P0 f0 c q.
  Proof. unfold p_JxW. now rewrite cp_fes. Qed.
  Lemma cp_J1 c q : p_JxW p [P0; P1] c 1 q = get_JxW P1 f1 c q.
  Proof. unfold p_JxW. now rewrite cp_fes. Qed.

  (** the kernels *)
  Definition cp_kf (s : nat) : face_in K V -> list K := fun _ => [].
  Lemma cp_kernel c sol : (c < p_num_cells p)%nat -> kernel_cell p (cell_input p [P0; P1] sol c) = coupled_kernel f0 f1 F (cell_input p [P0; P1] sol c).
  Proof.
    intros Hc. destruct CP as (_ & _ & _ & T & M & _ & _ & uk & U & L & E). unfold kernel_cell. rewrite T, M, U. cbn [option_map badd unscalar]. apply (E _ c Hc). reflexivity.
  Qed.
  Lemma cp_kernels : kernels_ok p cp_kf.
  Proof.
    split.
    - intros ci _. destruct CP as (_ & _ & _ & T & M & _ & _ & uk & U & L & E). unfold kernel_cell. rewrite T, M, U. cbn [option_map badd unscalar].
      rewrite L, cp_shapes. unfold all_dofs. cbn. lia.
    - intros s Hs. destruct CP as (_ & B & _). rewrite B in Hs. cbn in Hs. lia.
  Qed.
  Lemma cp_ivs : ivs_ok p.
  Proof.
    destruct CP as (_ & B & S & _). split; [exact IVS|]. rewrite B, S. split; [reflexivity|]. intros s iv Hs. inversion Hs.
  Qed.

  Section Sol.
  Variables (u w : list (list K)).
  Hypothesis SOL : sol_ok p [u; w].
  Lemma cp_cell0 c a k : (c < p_num_cells p)%nat -> (a < num_nodes f0)%nat -> (k < vec f0)%nat ->
    get2 0 (nth 0 (unravel [(num_nodes f0, vec f0); (num_nodes f1, vec f1)] (cell_values p [u; w] c)) []) a k = cell_sol_at f0 u c a k.
  Proof.
    intros Hc Ha Hk. rewrite <- cp_shapes. assert (VD : valid_dof (local_shapes p) 0 a k) by (rewrite cp_shapes; repeat split; cbn; auto; lia).
    rewrite get2_unravel; auto.
    - rewrite cell_values_nth by auto. rewrite cp_node0. cbn [nth]. now apply (cp_field0 u w).
    - rewrite <- all_dofs_total. apply cell_values_length; auto.
  Qed.
  Lemma cp_cell1 c a k : (c < p_num_cells p)%nat -> (a < num_nodes f1)%nat -> (k < vec f1)%nat ->
    get2 0 (nth 1 (unravel [(num_nodes f0, vec f0); (num_nodes f1, vec f1)] (cell_values p [u; w] c)) []) a k = cell_sol_at f1 w c a k.
  Proof.
    intros Hc Ha Hk. rewrite <- cp_shapes. assert (VD : valid_dof (local_shapes p) 1 a k) by (rewrite cp_shapes; repeat split; cbn; auto; lia).
    rewrite get2_unravel; auto.
    - rewrite cell_values_nth by auto. rewrite cp_node1. cbn [nth]. now apply (cp_field1 u w).
    - rewrite <- all_dofs_total. apply cell_values_length; auto.
  Qed.
  Lemma local_state_at c q : (c < p_num_cells p)%nat ->
    same_state (vec f0) (dim f0) (vec f1) (dim f1) (local_state f0 f1 (cell_input p [P0; P1] [u; w] c) q) (state_at p f0 f1 P0 P1 u w c q).
  Proof.
    intros Hc. unfold same_state, local_state, state_at. cbv zeta. cbn [grad0 val0 grad1 val1 ivs ci_sol ci_grads ci_iv cell_input]. repeat split.
    - intros k j Hk Hj. apply sum_n_ext. intros a Ha. now rewrite cp_cell0, cp_grads0 by auto.
    - intros k Hk. apply sum_n_ext. intros a Ha. now rewrite cp_cell0 by auto.
    - intros k j Hk Hj. apply sum_n_ext. intros a Ha. now rewrite cp_cell1, cp_grads1 by auto.
    - intros k Hk. apply sum_n_ext. intros a Ha. now rewrite cp_cell1 by auto.
    - apply at_quad_iv.
  Qed.
  Definition term0 (c a k : nat) : K := sum_n (num_quads f0) (fun q =>
    (sum_n (dim f0) (fun j => flux0 F (state_at p f0 f1 P0 P1 u w c q) k j * get_shape_grads P0 f0 c q a j)
     + source0 F (state_at p f0 f1 P0 P1 u w c q) k * shape_vals f0 q a) * get_JxW P0 f0 c q).
  Definition term1 (c a k : nat) : K := sum_n (num_quads f1) (fun q =>
    (sum_n (dim f1) (fun j => flux1 F (state_at p f0 f1 P0 P1 u w c q) k j * get_shape_grads P1 f1 c q a j)
     + source1 F (state_at p f0 f1 P0 P1 u w c q) k * shape_vals f1 q a) * get_JxW P1 f1 c q).
  Lemma cp_entry0 c a k : (c < p_num_cells p)%nat -> (a < num_nodes f0)%nat -> (k < vec f0)%nat ->
    nth (dof_number (local_shapes p) 0 a k) (kernel_cell p (cell_input p [P0; P1] [u; w] c)) 0 = term0 c a k.
  Proof.
    intros Hc Ha Hk. rewrite cp_kernel, cp_shapes by auto. unfold dof_number. cbn [dofs_before nth snd]. rewrite Nat.add_0_l. unfold coupled_kernel. cbv zeta.
    rewrite app_nth1 by (rewrite flat_table_len; nia).
    rewrite (nth_flat_table 0 (fun a k => sum_n (num_quads f0) (fun q => _ + _))) by auto.
    apply sum_n_ext. intros q Hq. cbn [ci_vgJxW ci_JxW cell_input]. rewrite cp_J0.
    destruct (FO _ _ (local_state_at c q Hc)) as (E1 & E2 & _). rewrite E2 by auto.
    rewrite (sum_n_ext (dim f0) _ (fun j => flux0 F (state_at p f0 f1 P0 P1 u w c q) k j * get_shape_grads P0 f0 c q a j * get_JxW P0 f0 c q))
      by (intros j Hj; rewrite E1, cp_vg0 by auto; ring).
    rewrite (FeFacts.sum_n_mul_r' KR). ring.
  Qed.
  Lemma cp_entry1 c a k : (c < p_num_cells p)%nat -> (a < num_nodes f1)%nat -> (k < vec f1)%nat ->
    nth (dof_number (local_shapes p) 1 a k) (kernel_cell p (cell_input p [P0; P1] [u; w] c)) 0 = term1 c a k.
  Proof.
    intros Hc Ha Hk. rewrite cp_kernel, cp_shapes by auto. unfold dof_number. cbn [dofs_before nth snd]. unfold coupled_kernel. cbv zeta.
    rewrite app_nth2 by (rewrite flat_table_len; nia). rewrite flat_table_len.
    replace (num_nodes f0 * vec f0 + 0 + a * vec f1 + k - num_nodes f0 * vec f0)%nat with (a * vec f1 + k)%nat by lia.
    rewrite (nth_flat_table 0 (fun a k => sum_n (num_quads f1) (fun q => _ + _))) by auto.
    apply sum_n_ext. intros q Hq. cbn [ci_vgJxW ci_JxW cell_input]. rewrite cp_J1.
    destruct (FO _ _ (local_state_at c q Hc)) as (_ & _ & E1 & E2). rewrite E2 by auto.
    rewrite (sum_n_ext (dim f1) _ (fun j => flux1 F (state_at p f0 f1 P0 P1 u w c q) k j * get_shape_grads P1 f1 c q a j * get_JxW P1 f1 c q))
      by (intros j Hj; rewrite E1, cp_vg1 by auto; ring).
    rewrite (FeFacts.sum_n_mul_r' KR). ring.
  Qed.
  Lemma coupled_residual : exists r0 r1, compute_residual sqrtK p [P0; P1] [u; w] = Ok [r0; r1] /\ sol_ok p [r0; r1] /\
    (forall n k, (n < length (points f0))%nat -> (k < vec f0)%nat ->
       get2 0 r0 n k = sum_n (p_num_cells p) (fun c => sum_n (num_nodes f0) (fun a => if (cell_node f0 c a =? n)%nat then term0 c a k else 0))) /\
    (forall n k, (n < length (points f1))%nat -> (k < vec f1)%nat ->
       get2 0 r1 n k = sum_n (p_num_cells p) (fun c => sum_n (num_nodes f1) (fun a => if (cell_node f1 c a =? n)%nat then term1 c a k else 0))).
  Proof.
    pose proof cp_kernels as KER. pose proof cp_ivs as IV.
    pose proof (compute_residual_ok sqrtK p [P0; P1] [u; w] cp_kf WF NC SOL IV KER) as E.
    pose proof (helper_shapes KR sqrtK p [P0; P1] [u; w] cp_kf WF NC SOL KER) as HSH.
    assert (B : boundary_inds_list p = []) by apply CP.
    assert (L2 : (0 < length (fes p))%nat /\ (1 < length (fes p))%nat) by (rewrite cp_len; lia).
    pose proof (proj2 (helper_var KR sqrtK p [P0; P1] [u; w] cp_kf WF NC SOL KER 0%nat (proj1 L2))) as HV0.
    pose proof (proj2 (helper_var KR sqrtK p [P0; P1] [u; w] cp_kf WF NC SOL KER 1%nat (proj2 L2))) as HV1.
    set (R := compute_residual_vars_helper p _ _) in *. rewrite cp_global in HSH.
    destruct R as [|r0 [|r1 [|r2 R']]]; inversion HSH as [|? ? ? ? HS1 HS2]; subst; inversion HS2 as [|? ? ? ? HS3 HS4]; subst; [|inversion HS4].
    exists r0, r1. split; [exact E|]. split; [|split].
    - apply cp_sol_ok; [destruct HS1 as [A1 A2]|destruct HS3 as [A1 A2]]; cbn in A1, A2; rewrite Forall_forall in A2; split; auto.
    - intros n k Hn Hk. specialize (HV0 n k). rewrite cp_fe in HV0 by lia. cbn [nth Nat.eqb] in HV0. rewrite HV0 by auto. rewrite B. cbn [length].
      match goal with |- ?A + sum_n 0 ?B = _ => change (sum_n 0 B) with (@zero K); transitivity A; [ring|] end.
      apply sum_n_ext. intros c Hc. apply sum_n_ext. intros a Ha. rewrite cp_node0. destruct (_ =? _)%nat; auto. now apply cp_entry0.
    - intros n k Hn Hk. specialize (HV1 n k). rewrite cp_fe in HV1 by lia. cbn [nth Nat.eqb] in HV1. rewrite HV1 by auto. rewrite B. cbn [length].
      match goal with |- ?A + sum_n 0 ?B = _ => change (sum_n 0 B) with (@zero K); transitivity A; [ring|] end.
      apply sum_n_ext. intros c Hc. apply sum_n_ext. intros a Ha. rewrite cp_node1. destruct (_ =? _)%nat; auto. now apply cp_entry1.
  Qed.

  (** testing *)
  Lemma scatter_tested N m nn (node : nat -> nat -> nat) (v r : list (list K)) (X : nat -> nat -> nat -> K) :
    (forall c a, (c < p_num_cells p)%nat -> (a < nn)%nat -> (node c a < N)%nat) ->
    (forall n k, (n < N)%nat -> (k < m)%nat -> get2 0 r n k = sum_n (p_num_cells p) (fun c => sum_n nn (fun a => if (node c a =? n)%nat then X c a k else 0))) ->
    work N m v r = sum_n (p_num_cells p) (fun c => sum_n m (fun k => sum_n nn (fun a => get2 0 v (node c a) k * X c a k))).
  Proof.
    intros NB HR. unfold work. rewrite (sum_n_swap' KR). rewrite (sum_n_swap' KR (p_num_cells p)). apply sum_n_ext. intros k Hk.
    rewrite (sum_n_ext N _ (fun n => sum_n (p_num_cells p) (fun c => sum_n nn (fun a => get2 0 v n k * (if (node c a =? n)%nat then X c a k else 0))))).
    2:{ intros n Hn. rewrite HR by auto. rewrite <- (FeFacts.sum_n_mul_l KR). apply sum_n_ext. intros c Hc. now rewrite (FeFacts.sum_n_mul_l KR). }
    rewrite (sum_n_swap' KR). apply sum_n_ext. intros c Hc. rewrite (sum_n_swap' KR). apply sum_n_ext. intros a Ha.
    rewrite (sum_n_single KR _ (node c a)); [now rewrite Nat.eqb_refl|now apply NB|].
    intros n Hn Hne. replace (node c a =? n)%nat with false by (symmetry; apply Nat.eqb_neq; congruence). ring.
  Qed.
  Lemma term_tested nq nn d m (S : nat -> nat -> nat -> K) (s : nat -> nat -> K) (G : nat -> nat -> nat -> K) (Nv : nat -> nat -> K) (J : nat -> K) (x : nat -> nat -> K) :
    sum_n m (fun k => sum_n nn (fun a => x a k * sum_n nq (fun q => (sum_n d (fun j => S q k j * G q a j) + s q k * Nv q a) * J q)))
    = sum_n nq (fun q => (dot2 m d (S q) (fun k j => sum_n nn (fun a => x a k * G q a j)) + dot1 m (s q) (fun k => sum_n nn (fun a => x a k * Nv q a))) * J q).
  Proof.
    rewrite (sum_n_ext m _ (fun k => sum_n nq (fun q => sum_n nn (fun a => x a k * (sum_n d (fun j => S q k j * G q a j) + s q k * Nv q a) * J q)))).
    2:{ intros k Hk. rewrite (sum_n_swap' KR). apply sum_n_ext. intros a Ha. rewrite <- (FeFacts.sum_n_mul_l KR). apply sum_n_ext. intros; ring. }
    rewrite (sum_n_swap' KR). apply sum_n_ext. intros q Hq. unfold dot2, dot1. rewrite <- (FeFacts.sum_n_add KR), <- (FeFacts.sum_n_mul_r' KR). apply sum_n_ext. intros k Hk.
    rewrite (FeFacts.sum_n_mul_r' KR). f_equal.
    rewrite (sum_n_ext nn _ (fun a => sum_n d (fun j => x a k * (S q k j * G q a j)) + s q k * (x a k * Nv q a))) by (intros a Ha; rewrite (FeFacts.sum_n_mul_l KR); ring).
    rewrite (FeFacts.sum_n_add KR), (FeFacts.sum_n_mul_l KR). f_equal. rewrite (sum_n_swap' KR). apply sum_n_ext. intros j Hj.
    rewrite <- (FeFacts.sum_n_mul_l KR). apply sum_n_ext. intros; ring.
  Qed.
  Theorem coupled_weak0 v z r0 r1 : sol_ok p [v; z] -> compute_residual sqrtK p [P0; P1] [u; w] = Ok [r0; r1] ->
    work (length (points f0)) (vec f0) v r0
    = over_cells p f0 P0 (fun c q => dot2 (vec f0) (dim f0) (flux0 F (state_at p f0 f1 P0 P1 u w c q)) (sol_to_grad P0 f0 v c q)
                                   + dot1 (vec f0) (source0 F (state_at p f0 f1 P0 P1 u w c q)) (convert_from_dof_to_quad f0 v c q)).
  Proof.
    intros SV E. destruct coupled_residual as (r0' & r1' & E' & _ & H0 & H1). rewrite E in E'. injection E' as <- <-. unfold over_cells.
    rewrite (scatter_tested _ _ (num_nodes f0) (cell_node f0) v r0 term0 cp_node0_ok H0).
    apply sum_n_ext. intros c Hc. unfold term0.
    rewrite (sum_n_ext (vec f0) _ (fun k => sum_n (num_nodes f0) (fun a => cell_sol_at f0 v c a k * term0 c a k)))
      by (intros k Hk; apply sum_n_ext; intros a Ha; now rewrite (cp_field0 v z) by auto).
    unfold term0. rewrite term_tested. reflexivity.
  Qed.
  Theorem coupled_weak1 v z r0 r1 : sol_ok p [v; z] -> compute_residual sqrtK p [P0; P1] [u; w] = Ok [r0; r1] ->
    work (length (points f1)) (vec f1) z r1
    = over_cells p f1 P1 (fun c q => dot2 (vec f1) (dim f1) (flux1 F (state_at p f0 f1 P0 P1 u w c q)) (sol_to_grad P1 f1 z c q)
                                   + dot1 (vec f1) (source1 F (state_at p f0 f1 P0 P1 u w c q)) (convert_from_dof_to_quad f1 z c q)).
  Proof.
    intros SV E. destruct coupled_residual as (r0' & r1' & E' & _ & H0 & H1). rewrite E in E'. injection E' as <- <-. unfold over_cells.
    rewrite (scatter_tested _ _ (num_nodes f1) (cell_node f1) z r1 term1 cp_node1_ok H1).
    apply sum_n_ext. intros c Hc. unfold term1.
    rewrite (sum_n_ext (vec f1) _ (fun k => sum_n (num_nodes f1) (fun a => cell_sol_at f1 z c a k * term1 c a k)))
      by (intros k Hk; apply sum_n_ext; intros a Ha; now rewrite (cp_field1 v z) by auto).
    unfold term1. rewrite term_tested. reflexivity.
  Qed.
  Theorem coupled_weak v z r0 r1 : sol_ok p [v; z] -> compute_residual sqrtK p [P0; P1] [u; w] = Ok [r0; r1] ->
    work (length (points f0)) (vec f0) v r0 + work (length (points f1)) (vec f1) z r1 = coupled_work p f0 f1 P0 P1 F u w v z.
  Proof. intros SV E. unfold coupled_work. now rewrite (coupled_weak0 v z r0 r1 SV E), (coupled_weak1 v z r0 r1 SV E). Qed.
  End Sol.

  (** fields along a line *)
  Lemma cp_line (u w du dw : list (list K)) (t : K) : line3 [u; w] [du; dw] t = [along u du t; along w dw t].
  Proof. reflexivity. Qed.
  Lemma cp_line_ok u w du dw t : sol_ok p [u; w] -> sol_ok p [du; dw] -> sol_ok p [along u du t; along w dw t].
  Proof. intros SU SD. rewrite <- cp_line. now apply line_ok. Qed.
  Lemma cp_nth_along u w du dw t v n k : sol_ok p [u; w] -> sol_ok p [du; dw] -> valid_dof (global_shapes p) v n k ->
    get2 0 (nth v [along u du t; along w dw t] []) n k = get2 0 (nth v [u; w] []) n k + t * get2 0 (nth v [du; dw] []) n k.
  Proof. intros SU SD VD. rewrite <- cp_line. apply (get_line3 [u; w] [du; dw] t (global_shapes p)); auto using sol_shapes_ok. Qed.
  Lemma cp_along0 u w du dw t c a k : sol_ok p [u; w] -> sol_ok p [du; dw] -> (c < p_num_cells p)%nat -> (a < num_nodes f0)%nat -> (k < vec f0)%nat ->
    cell_sol_at f0 (along u du t) c a k = cell_sol_at f0 u c a k + t * cell_sol_at f0 du c a k.
  Proof.
    intros SU SD Hc Ha Hk. rewrite <- (cp_field0 _ _ c a k (cp_line_ok u w du dw t SU SD) Hc Ha), <- (cp_field0 _ _ c a k SU Hc Ha), <- (cp_field0 _ _ c a k SD Hc Ha).
    apply (cp_nth_along u w du dw t 0 (cell_node f0 c a) k SU SD). rewrite cp_global. repeat split; cbn; auto; try lia; now apply cp_node0_ok.
  Qed.
  Lemma cp_along1 u w du dw t c a k : sol_ok p [u; w] -> sol_ok p [du; dw] -> (c < p_num_cells p)%nat -> (a < num_nodes f1)%nat -> (k < vec f1)%nat ->
    cell_sol_at f1 (along w dw t) c a k = cell_sol_at f1 w c a k + t * cell_sol_at f1 dw c a k.
  Proof.
    intros SU SD Hc Ha Hk. rewrite <- (cp_field1 _ _ c a k (cp_line_ok u w du dw t SU SD) Hc Ha), <- (cp_field1 _ _ c a k SU Hc Ha), <- (cp_field1 _ _ c a k SD Hc Ha).
    apply (cp_nth_along u w du dw t 1 (cell_node f1 c a) k SU SD). rewrite cp_global. repeat split; cbn; auto; try lia; now apply cp_node1_ok.
  Qed.
  Lemma state_along u w du dw t c q : sol_ok p [u; w] -> sol_ok p [du; dw] -> (c < p_num_cells p)%nat ->
    same_state (vec f0) (dim f0) (vec f1) (dim f1) (state_at p f0 f1 P0 P1 (along u du t) (along w dw t) c q)
      (along_state (state_at p f0 f1 P0 P1 u w c q) (state_at p f0 f1 P0 P1 du dw c q) t).
  Proof.
    intros SU SD Hc. unfold same_state, state_at, along_state. cbn [grad0 val0 grad1 val1 ivs].
    unfold sol_to_grad, convert_from_dof_to_quad. repeat split; intros;
      rewrite <- (FeFacts.sum_n_mul_l KR), <- (FeFacts.sum_n_add KR); apply sum_n_ext; intros a Ha.
    - rewrite (cp_along0 u w du dw) by auto. ring.
    - rewrite (cp_along0 u w du dw) by auto. ring.
    - rewrite (cp_along1 u w du dw) by auto. ring.
    - rewrite (cp_along1 u w du dw) by auto. ring.
  Qed.
End Weak.
