(** Lemmas for C115. *)
From Coq Require Import Reals String List Arith Lia Lra Bool Permutation.
From Verif Require Import Num Arr ArrFacts BatchFacts Fe FeFacts GeomFacts Basis SpecBasis SpecFe Problem SpecAssembly AssemblyFacts ProblemFacts ResidualFacts SpecWeak KernelFacts ElasticFacts SolverBc SpecBc BcFacts BcMain SpecLinear Mesh MeshFacts MeshMain MeshFe SpecVolume Lagrangian Plasticity HyperElastic SpecHyper  Beam SpecBeam BeamMain BeamRun BeamEnd BeamMet RelaxBeam.
Import ListNotations.
Local Open Scope R_scope.
Local Notation sum := (sum_n (K := Rops)).

Lemma aux_same grad f pa P sol : relax_aux grad f = Ok pa -> compute_residual sqrt pa [P] [sol] = compute_residual sqrt (const_problem f (beam_stress grad) [] []) [P] [sol].
Proof. intros [= <-]. reflexivity. Qed.
Lemma zeros_shaped m : shaped m 2 (repeat [0; 0] m : list (list Rops)).
Proof. split; [apply repeat_length|]. intros r HR. apply repeat_spec in HR as ->. reflexivity. Qed.
Lemma load_main : forall s (f : fe Rops) P grad p b1 pa, built_element s 2 f -> vec f = 2%nat -> (0 < num_cells f)%nat -> length P = length (points f) -> plane_map (beam_stress grad) ->
  displacement_problem grad f = Ok p -> boundary_inds_list p = [b1] -> relax_aux grad f = Ok pa -> exists w, sum (length (points f)) w = faces_length P f b1 /\
  (forall n, (forall c fc a, In (c, fc) b1 -> (a < num_nodes f)%nat -> nth a (nth c (cells f) []) 0%nat <> n) -> w n = 0) /\
  forall sol, shaped (length (points f)) 2 sol -> exists res aux, compute_residual sqrt p [P] [sol] = Ok [res] /\ compute_residual sqrt pa [P] [sol] = Ok [aux] /\
    forall n, (n < length (points f))%nat -> get2 (@zero Rops) res n 0 = get2 (@zero Rops) aux n 0 /\ get2 (@zero Rops) res n 1 = get2 (@zero Rops) aux n 1 + / 10 ^ 5 * w n.
Proof.
  intros s f P grad p b1 pa B V2 NC LP PM EP EB EA. rewrite disp_is in EP. injection EP as <-. injection EB as <-. set (b1 := faces_at f location_midspan_bottom).
  assert (IN : forall b c fc, In b [b1] -> In (c, fc) b -> (c < num_cells f)%nat) by (intros b c fc [<-|[]]; exact (in1 s f B c fc)).
  assert (R : forall sol, shaped (length (points f)) 2 sol -> exists res aux, compute_residual sqrt (const_problem f (beam_stress grad) [b1] [imp]) [P] [sol] = Ok [res] /\ compute_residual sqrt pa [P] [sol] = Ok [aux] /\
    forall n, (n < length (points f))%nat -> get2 (@zero Rops) res n 0 = get2 (@zero Rops) aux n 0 /\ get2 (@zero Rops) res n 1 = get2 (@zero Rops) aux n 1 + / 10 ^ 5 * edge_load P f b1 n).
  { intros sol SH. destruct (c_residual s f P (beam_stress grad) [b1] [imp] B V2 NC PM eq_refl IN sol SH) as (res & E & _ & HR). destruct (c_residual s f P (beam_stress grad) [] [] B V2 NC PM eq_refl (fun b c fc (H : In b []) => match H with end) sol SH) as (aux & EX & _ & HX).
    exists res, aux. split; [exact E|]. split; [rewrite (aux_same grad f pa P sol EA); exact EX|]. intros n Hn. rewrite !HR, !HX by (assumption || lia). split.
    - transitivity (internal P f (beam_stress grad) sol n 0 + (0 * edge_load P f b1 n + 0)); [reflexivity|]. transitivity (internal P f (beam_stress grad) sol n 0 + 0); [req; ring|reflexivity].
    - transitivity (internal P f (beam_stress grad) sol n 1 + (/ 10 ^ 5 * edge_load P f b1 n + 0)); [reflexivity|]. transitivity (internal P f (beam_stress grad) sol n 1 + 0 + / 10 ^ 5 * edge_load P f b1 n); [req; ring|reflexivity]. }
  exists (edge_load P f b1). split; [|split; [|exact R]].
  - pose proof (zeros_shaped (length (points f))) as SH. destruct (R _ SH) as (res & aux & E & EX & H). pose proof (c_total s f P (beam_stress grad) [b1] [imp] B V2 NC PM eq_refl IN _ SH LP res 1 ltac:(lia) E) as T1. rewrite (aux_same grad f pa P _ EA) in EX.
    pose proof (c_total s f P (beam_stress grad) [] [] B V2 NC PM eq_refl (fun b c fc (H : In b []) => match H with end) _ SH LP aux 1 ltac:(lia) EX) as T2.
    assert (T3 : sum (length (points f)) (fun n => get2 (@zero Rops) res n 1) = sum (length (points f)) (fun n => get2 (@zero Rops) aux n 1) + / 10 ^ 5 * sum (length (points f)) (edge_load P f b1)).
    { rewrite <- Rsum_mul, <- Rsum_plus. apply Rsum_ext. intros n Hn. exact (proj2 (H n Hn)). }
    assert (T1' : sum (length (points f)) (fun n => get2 (@zero Rops) res n 1) = / 10 ^ 5 * faces_length P f b1) by (etransitivity; [exact T1|]; transitivity (/ 10 ^ 5 * faces_length P f b1 + 0); [reflexivity|req; ring]).
    assert (T2' : sum (length (points f)) (fun n => get2 (@zero Rops) aux n 1) = 0) by exact T2. rewrite T1', T2' in T3. apply (Rmult_eq_reg_l (/ 10 ^ 5)); [|apply Rinv_neq_0_compat; lra]. rewrite T3. req. ring.
  - intros n HN. unfold edge_load. apply (sum_n_zero_ext Rops_ring). intros e He. cbn zeta. destruct (nth e b1 (0, 0)%nat) as (c & fc) eqn:EN. cbn [fst snd]. assert (HI : In (c, fc) b1) by (rewrite <- EN; now apply nth_In). apply (sum_n_zero_ext Rops_ring). intros a Ha.
    destruct (Nat.eqb_spec (cell_node f c a) n) as [EQ|_]; [|reflexivity]. exfalso. apply (HN c fc a HI Ha). rewrite <- EQ. unfold cell_node. destruct B as (_ & _ & MO & _). destruct (MO c (IN b1 c fc (or_introl eq_refl) HI)) as (LC & _). try (rewrite !gather_in by (rewrite ?LC; assumption)). reflexivity.
Qed.
Lemma no_common : forall quad fquad normals (f : fe Rops) grad p pa, fe_init (K := Rops) sqrt "QUAD4" quad fquad normals (m_points beam_mesh) (m_cells beam_mesh) 2 2 (Some compression_dirichlet_bc_info) = Ok f -> facet_normals "QUAD4" 2 f -> plane_map (beam_stress grad) ->
  sum (num_face_quads f) (fun q => nth q (snd fquad) 0) <> 0 -> displacement_problem grad f = Ok p -> relax_aux grad f = Ok pa -> forall sol, solves p [m_points beam_mesh] [sol] -> solves pa [m_points beam_mesh] [sol] -> False.
Proof.
  intros quad fquad normals f grad p pa B FN PM W EP EA sol (OKS & rl & ER & HZ) (_ & al & EX & HZA). pose proof (met_element _ _ _ _ f B) as BE. pose proof (met_cells _ _ _ _ f B) as NC. pose proof (built_vec _ _ _ _ _ _ _ _ _ _ _ B) as V2. pose proof (built_points _ _ _ _ _ _ _ _ _ _ _ B) as PE.
  assert (P9 : length (points f) = 153%nat) by (rewrite PE; exact beam_points_len).
  destruct (load_main "QUAD4" f (m_points beam_mesh) grad p (faces_at f location_midspan_bottom) pa BE V2 ltac:(lia) ltac:(now rewrite PE) PM EP ltac:(rewrite disp_is in EP; injection EP as <-; reflexivity) EA) as (w & SW & WZ & R).
  assert (EF : fe_of p 0 = f) by (rewrite disp_is in EP; injection EP as <-; reflexivity). assert (EFA : fe_of pa 0 = f) by (injection EA as <-; reflexivity).
  assert (SH : shaped (length (points f)) 2 sol). { destruct OKS as (_ & H). assert (L : (0 < length (fes p))%nat) by (rewrite disp_is in EP; injection EP as <-; cbn; lia). specialize (H 0%nat L). rewrite EF, V2 in H. exact H. }
  destruct (R sol SH) as (res & aux & ER' & EX' & H). pose proof (eq_trans (eq_sym ER) ER') as EQ. injection EQ as ->. pose proof (eq_trans (eq_sym EX) EX') as EQA. injection EQA as ->.
  pose proof (selects_of f _ _ _ middle_iff (faces_at_spec _ 2 f _ BE)) as S1. assert (N1 : NoDup middle_faces) by (repeat constructor; cbn; intuition congruence). pose proof (met_select _ _ _ _ f B _ _ _ _ beam_middle_node middle_checked N1 S1) as P1.
  pose proof (met_length _ _ _ _ f B _ middle_faces FN P1 ltac:(intros cf [<-|[<-|[]]]; cbn; lia)) as ML. assert (SUM : sum (length (points f)) w = 0).
  { apply (sum_n_zero_ext Rops_ring). intros n Hn. destruct (compression_spec _ _ _ _ _ _ _ _ _ f B) as (_ & CS).
    destruct (le_lt_dec 72 n) as [L1|L1]; [destruct (le_lt_dec n 80) as [L2|L2]|].
    - destruct (CS n 1%nat Hn) as (_ & _ & FREE). assert (PT : nth n (points f) [] = [INR (n / 3); INR (n mod 3)]) by (rewrite PE; apply beam_point; lia). rewrite PT in FREE. cbn [nth] in FREE.
      assert (D1 : (24 <= n / 3)%nat) by (apply Nat.div_le_lower_bound; lia). assert (D2 : (n / 3 < 27)%nat) by (apply Nat.div_lt_upper_bound; lia). apply le_INR in D1. apply lt_INR in D2. assert (I24 : INR 24 = 24) by (cbn; lra). assert (I27 : INR 27 = 27) by (cbn; lra). rewrite I24 in D1. rewrite I27 in D2.
      assert (PF : prescribed f n 1 = None). { apply FREE; unfold left_end, right_end; intros X; apply Rabs_def2b in X; lra. }
      assert (Z1 : get2 (@zero Rops) res n 1 = 0). { assert (L : (0 < length (fes p))%nat) by (rewrite disp_is in EP; injection EP as <-; cbn; lia). specialize (HZ 0%nat n 1%nat L). rewrite EF, V2, PF in HZ. exact (HZ Hn ltac:(lia)). }
      assert (Z2 : get2 (@zero Rops) aux n 1 = 0). { assert (L : (0 < length (fes pa))%nat) by (injection EA as <-; cbn; lia). specialize (HZA 0%nat n 1%nat L). rewrite EFA, V2, PF in HZA. exact (HZA Hn ltac:(lia)). }
      destruct (H n Hn) as (_ & H1). rewrite Z1, Z2 in H1. apply (Rmult_eq_reg_l (/ 10 ^ 5)); [|apply Rinv_neq_0_compat; lra]. symmetry. etransitivity; [exact (Rmult_0_r _)|]. etransitivity; [exact H1|]. exact (Rplus_0_l _).
    - apply WZ. intros c fc a HI Ha. apply (Permutation_in _ P1) in HI. destruct BE as (_ & _ & MO & _). destruct (MO c ltac:(fold (num_cells f); rewrite NC; destruct HI as [[= <- <-]|[[= <- <-]|[]]]; lia)) as (LC & _). rewrite <- LC in Ha.
      assert (Hc : (c < 100)%nat) by (destruct HI as [[= <- <-]|[[= <- <-]|[]]]; lia). rewrite (met_cell _ _ _ _ f B c Hc) in Ha |- *. destruct HI as [[= <- <-]|[[= <- <-]|[]]]; cbn in Ha; do 4 (destruct a as [|a]; [cbn; lia|]); lia.
    - apply WZ. intros c fc a HI Ha. apply (Permutation_in _ P1) in HI. destruct BE as (_ & _ & MO & _). destruct (MO c ltac:(fold (num_cells f); rewrite NC; destruct HI as [[= <- <-]|[[= <- <-]|[]]]; lia)) as (LC & _). rewrite <- LC in Ha.
      assert (Hc : (c < 100)%nat) by (destruct HI as [[= <- <-]|[[= <- <-]|[]]]; lia). rewrite (met_cell _ _ _ _ f B c Hc) in Ha |- *. destruct HI as [[= <- <-]|[[= <- <-]|[]]]; cbn in Ha; do 4 (destruct a as [|a]; [cbn; lia|]); lia. }
  rewrite SUM in SW. rewrite ML in SW. apply W. cbn [length INR middle_faces] in SW. assert (X : (1 + 1) * sum (num_face_quads f) (fun q => nth q (snd fquad) 0) = 0) by (symmetry; exact SW). apply Rmult_integral in X as [X|X]; [exfalso; lra|exact X].
Qed.

Lemma start_main : forall s (f : fe Rops) P grad p b1 pa sol, built_element s 2 f -> vec f = 2%nat -> (0 < num_cells f)%nat -> length P = length (points f) -> plane_map (beam_stress grad) ->
  displacement_problem grad f = Ok p -> boundary_inds_list p = [b1] -> relax_aux grad f = Ok pa -> solves p [P] [sol] -> exists w aux, sum (length (points f)) w = faces_length P f b1 /\ compute_residual sqrt pa [P] [sol] = Ok [aux] /\
  forall n k, (n < length (points f))%nat -> (k < 2)%nat -> match prescribed f n k with Some v => get2 (@zero Rops) sol n k = v | None => get2 (@zero Rops) aux n k = match k with 0%nat => 0 | _ => - (/ 10 ^ 5 * w n) end end.
Proof.
  intros s f P grad p b1 pa sol B V2 NC LP PM EP EB EA (OKS & rl & ER & HZ). destruct (load_main s f P grad p b1 pa B V2 NC LP PM EP EB EA) as (w & SW & _ & R).
  assert (EF : fe_of p 0 = f) by (rewrite disp_is in EP; injection EP as <-; reflexivity). assert (L : (0 < length (fes p))%nat) by (rewrite disp_is in EP; injection EP as <-; cbn; lia).
  assert (SH : shaped (length (points f)) 2 sol). { destruct OKS as (_ & H). specialize (H 0%nat L). rewrite EF, V2 in H. exact H. }
  destruct (R sol SH) as (res & aux & ER' & EX & H). pose proof (eq_trans (eq_sym ER) ER') as EQ. injection EQ as ->. exists w, aux. split; [exact SW|]. split; [exact EX|]. intros n k Hn Hk. specialize (HZ 0%nat n k L). rewrite EF, V2 in HZ. specialize (HZ Hn Hk).
  destruct (prescribed f n k) as [v|]; [exact HZ|]. assert (Z : get2 (@zero Rops) res n k = 0) by exact HZ. destruct (H n Hn) as (H0 & H1). destruct k as [|[|k]]; [|assert (Z' := eq_trans (eq_sym H1) Z)|lia].
  - exact (eq_trans (eq_sym H0) Z).
  - generalize Z'. generalize (get2 (@zero Rops) aux n 1) as a. intros a Ha. change (a + / 10 ^ 5 * w n = 0)%R in Ha. change (a = - (/ 10 ^ 5 * w n))%R. lra.
Qed.
Lemma relax_met : forall quad, let fquad := ([[0]; [1]], [1 / 2; 1 / 2]) : list (list Rops) * list Rops in exists f p pa b1, let grad (_ : tensor -> R) := neo_stress 2 (10 ^ 3) (3 / 10) in
  fe_init (K := Rops) sqrt "QUAD4" quad fquad quad_normals (m_points beam_mesh) (m_cells beam_mesh) 2 2 (Some compression_dirichlet_bc_info) = Ok f /\ built_element "QUAD4" 2 f /\ vec f = 2%nat /\ num_cells f = 100%nat /\ facet_normals "QUAD4" 2 f /\
  sum (num_face_quads f) (fun q => nth q (snd fquad) 0) = 1 /\ plane_map (beam_stress grad) /\ displacement_problem grad f = Ok p /\ relax_aux grad f = Ok pa /\ boundary_inds_list p = [b1] /\ length b1 = 2%nat /\ boundary_inds_list pa = [].
Proof.
  intros quad fquad. destruct (disp_met quad fquad) as (f & p & b1 & B & BE & V2 & NC & PM & _ & EP & EB & LB). exists f, p. eexists _, b1. intros grad.
  repeat (split; [solve [eassumption | exact (quad_facet_normals _ _ _ f B) | destruct (built_inv _ _ _ _ _ _ _ _ _ _ _ B) as (info & fi & [[ns vs] ws] & HI & HFI & HD & Hf); assert (QE : num_face_quads f = 2%nat) by (now rewrite Hf); rewrite QE; cbn; lra | reflexivity]|]). reflexivity.
Qed.
