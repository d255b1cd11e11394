(** Lemmas for C112: the Dirichlet conditions, and the mesh of the examples. *)
From Coq Require Import Reals String List Arith Lia Lra Bool Sorting.Sorted Sorting.Permutation.
From Verif Require Import Num Arr ArrFacts BatchFacts Fe FeFacts GeomFacts Basis SpecBasis SpecFe Problem SpecAssembly SpecBc BcFacts
  SpecLinear ElasticFacts SpecSelect SelectFacts Mesh SpecMesh MeshFacts MeshMain MeshFe Lagrangian LaserHeat Plasticity HyperElastic Beam SpecBeam BeamMain BeamRun.
Import ListNotations.
Local Open Scope R_scope.

Lemma Rabs_def2b x a : Rabs x <= a -> - a <= x <= a.
Proof. intros H. unfold Rabs in H. destruct (Rcase_abs x); lra. Qed.
Lemma ends_apart x y : left_end x y -> right_end x y -> False.
Proof. unfold left_end, right_end. intros H1 H2. apply Rabs_def2b in H1. apply Rabs_def2b in H2. lra. Qed.

Lemma init_dirichlet sq s qd fq nm p0 cl v d locs vecs values (f : fe Rops) : fe_init (K := Rops) sq s qd fq nm p0 cl v d (Some (locs, vecs, values)) = Ok f ->
  length vecs = length locs -> length values = length locs -> existsb loc_wrong locs = false ->
  points f = p0 /\ dirichlet_ok (points f) locs vecs values (node_inds_list f) (vec_inds_list f) (vals_list f).
Proof.
  intros B L1 L2 W. destruct (built_inv _ _ _ _ _ _ _ _ _ _ _ B) as (info & fi & [[ns vs] ws] & HI & HFI & HD & Hf).
  destruct (dirichlet_spec (K := Rops) p0 locs vecs values) as (_ & _ & D). destruct (D L1 L2 W) as (ns' & vs' & ws' & ED & OK). rewrite ED in HD. injection HD as -> -> ->. rewrite Hf. split; [reflexivity|exact OK].
Qed.
Lemma clamped_spec sq s qd fq nm p0 cl v d (f : fe Rops) : fe_init (K := Rops) sq s qd fq nm p0 cl v d (Some clamped_left_dirichlet_bc_info) = Ok f ->
  bc_ok f /\ forall n k, (n < length (points f))%nat -> let x := nth n (points f) [] in
    (left_end (nth 0 x 0) (nth 1 x 0) -> (k < 2)%nat -> prescribed f n k = Some 0) /\ (~ left_end (nth 0 x 0) (nth 1 x 0) -> prescribed f n k = None).
Proof.
  intros B. destruct (init_dirichlet _ _ _ _ _ _ _ _ _ _ _ _ f B eq_refl eq_refl eq_refl) as (PE & OK). destruct (dirichlet_prescribed f _ _ _ OK) as (BC & PR & _). split; [exact BC|]. intros n k Hn x.
  specialize (PR n k). unfold dirichlet_value in PR. cbn [length seq fold_left nth loc_holds] in PR. apply Nat.ltb_lt in Hn. rewrite Hn in PR. cbn [andb] in PR. fold x in PR. pose proof (left_iff x) as LI.
  split; intros H.
  - intros Hk. rewrite PR. apply LI in H. rewrite H. destruct k as [|[|k]]; [reflexivity|reflexivity|lia].
  - rewrite PR. destruct (location_left x); [exfalso; tauto|]. rewrite !andb_false_r. reflexivity.
Qed.
Lemma compression_spec sq s qd fq nm p0 cl v d (f : fe Rops) : fe_init (K := Rops) sq s qd fq nm p0 cl v d (Some compression_dirichlet_bc_info) = Ok f ->
  bc_ok f /\ forall n k, (n < length (points f))%nat -> let x := nth n (points f) [] in
    (left_end (nth 0 x 0) (nth 1 x 0) -> (k < 2)%nat -> prescribed f n k = Some 0) /\
    (right_end (nth 0 x 0) (nth 1 x 0) -> prescribed f n 0 = Some (- (5 / 2)) /\ prescribed f n 1 = Some 0) /\
    (~ left_end (nth 0 x 0) (nth 1 x 0) -> ~ right_end (nth 0 x 0) (nth 1 x 0) -> prescribed f n k = None).
Proof.
  intros B. destruct (init_dirichlet _ _ _ _ _ _ _ _ _ _ _ _ f B eq_refl eq_refl eq_refl) as (PE & OK). destruct (dirichlet_prescribed f _ _ _ OK) as (BC & PR & _). split; [exact BC|]. intros n k Hn x.
  specialize (PR n). unfold dirichlet_value in PR. cbn [length seq fold_left nth loc_holds] in PR. apply Nat.ltb_lt in Hn. rewrite Hn in PR. cbn [andb] in PR. fold x in PR. pose proof (left_iff x) as LI. pose proof (right_iff x) as RI. pose proof (ends_apart (nth 0 x 0) (nth 1 x 0)) as AP.
  split; [|split].
  - intros H Hk. rewrite PR. assert (RF : location_right x = false) by (destruct (location_right x); [exfalso; tauto|reflexivity]). apply LI in H. rewrite H, RF. destruct k as [|[|k]]; [reflexivity|reflexivity|lia].
  - intros H. rewrite !PR. apply RI in H. rewrite H. cbn. split; [|reflexivity]. f_equal. unfold END_COMPRESSION, beam_Lx. field.
  - intros H1 H2. rewrite PR. destruct (location_left x); [exfalso; tauto|]. destruct (location_right x); [exfalso; tauto|]. rewrite !andb_false_r. reflexivity.
Qed.

(** ** the mesh of 50 x 2 cells *)
Lemma beam_built quad fquad normals dir bc : Dirichlet_boundary_conditions (m_points beam_mesh : list (list Rops)) dir = Ok bc -> exists f, fe_init (K := Rops) sqrt "QUAD4" quad fquad normals (m_points beam_mesh) (m_cells beam_mesh) 2 2 dir = Ok f.
Proof. intros E. unfold fe_init. rewrite E. eexists. reflexivity. Qed.
Lemma beam_point n : (n < 153)%nat -> nth n (m_points beam_mesh) [] = [INR (n / 3); INR (n mod 3)].
Proof.
  intros Hn. assert (H1 : (n / 3 <= 50)%nat) by (apply Nat.lt_succ_r, Nat.div_lt_upper_bound; lia). assert (H2 : (n mod 3 <= 2)%nat) by (pose proof (Nat.mod_upper_bound n 3); lia).
  pose proof (rect_point 50 2 beam_Lx beam_Ly ltac:(lia) ltac:(lia) (n / 3) (n mod 3) H1 H2) as E. replace (n / 3 * (2 + 1) + n mod 3)%nat with n in E by (pose proof (Nat.div_mod n 3); lia).
  etransitivity; [exact E|]. unfold beam_Lx, beam_Ly. replace (INR 50) with 50 by (cbn; lra). replace (INR 2) with 2 by (cbn; lra). f_equal; [field|f_equal; field].
Qed.
Lemma beam_left n : (n < 153)%nat -> location_left (nth n (m_points beam_mesh) []) = (n <? 3)%nat.
Proof.
  intros Hn. rewrite (beam_point n Hn). apply eq_true_iff_eq. rewrite left_iff, Nat.ltb_lt. cbn [nth]. unfold left_end. split; intros H.
  - assert (X : (n / 3 < 1)%nat); [|pose proof (Nat.div_mod n 3 ltac:(lia)); pose proof (Nat.mod_upper_bound n 3 ltac:(lia)); lia]. apply INR_lt. apply Rabs_def2b in H. change (INR 1) with 1. lra.
  - rewrite (Nat.div_small n 3 H). cbn. rewrite Rabs_R0. lra.
Qed.
Lemma beam_right n : (n < 153)%nat -> location_right (nth n (m_points beam_mesh) []) = (150 <=? n)%nat.
Proof.
  intros Hn. rewrite (beam_point n Hn). apply eq_true_iff_eq. rewrite right_iff, Nat.leb_le. cbn [nth]. unfold right_end.
  assert (I50 : INR 50 = 50) by (cbn; lra). assert (I49 : INR 49 = 49) by (cbn; lra). split; intros H.
  - assert (X : (49 < n / 3)%nat); [|pose proof (Nat.div_mod n 3 ltac:(lia)); pose proof (Nat.mod_upper_bound n 3 ltac:(lia)); lia]. apply INR_lt. rewrite I49. apply Rabs_def2b in H. lra.
  - assert (n / 3 = 50)%nat as ->; [|rewrite I50; replace (50 - 50) with 0 by lra; rewrite Rabs_R0; lra]. assert (n / 3 < 51)%nat by (apply Nat.div_lt_upper_bound; lia). assert (50 <= n / 3)%nat by (apply Nat.div_le_lower_bound; lia). lia.
Qed.
Lemma sorted_three (l : list nat) a : StronglySorted lt l -> (forall n, In n l <-> (a <= n < a + 3)%nat) -> length l = 3%nat.
Proof.
  intros SS H. assert (ND : NoDup l).
  { clear H. induction SS as [|x l SS IH F]; constructor; auto. intros X. rewrite Forall_forall in F. specialize (F x X). lia. }
  change 3%nat with (length (seq a 3)). apply Permutation_length, NoDup_Permutation; [exact ND|apply seq_NoDup|]. intros n. rewrite H, in_seq. reflexivity.
Qed.
Lemma beam_points_len : length (m_points beam_mesh) = 153%nat.
Proof. etransitivity; [exact (rect_points_len 50 2 beam_Lx beam_Ly ltac:(lia) ltac:(lia))|reflexivity]. Qed.
Lemma beam_edges sq s qd fq nm cl v d (f : fe Rops) : fe_init (K := Rops) sq s qd fq nm (m_points beam_mesh) cl v d (Some compression_dirichlet_bc_info) = Ok f ->
  length (node_inds_list f) = 4%nat /\ edges_checked f = true.
Proof.
  intros B. destruct (init_dirichlet _ _ _ _ _ _ _ _ _ _ _ _ f B eq_refl eq_refl eq_refl) as (PE & L1 & _ & _ & S). rewrite PE in S. pose proof (beam_points_len : length (m_points beam_mesh : list (list Rops)) = 153%nat) as BL. rewrite BL in S. split; [exact L1|].
  unfold edges_checked. apply forallb_forall. intros l HI. apply (In_nth _ _ []) in HI as (i & Hi & <-). rewrite L1 in Hi. destruct (S i Hi) as (HN & SS & _). apply Nat.eqb_eq. cbn [length] in Hi.
  assert (A : exists a, forall n, In n (nth i (node_inds_list f) []) <-> (a <= n < a + 3)%nat); [|destruct A as (a & A); exact (sorted_three _ a SS A)].
  destruct i as [|[|[|[|i]]]]; [exists 0%nat|exists 0%nat|exists 150%nat|exists 150%nat|lia]; intros n; rewrite HN; cbn [nth loc_holds].
  1,2: split; [intros (H1 & H2); rewrite beam_left in H2 by exact H1; apply Nat.ltb_lt in H2; lia|intros H; split; [lia|rewrite beam_left by lia; apply Nat.ltb_lt; lia]].
  1,2: split; [intros (H1 & H2); rewrite beam_right in H2 by exact H1; apply Nat.leb_le in H2; lia|intros H; split; [lia|rewrite beam_right by lia; apply Nat.leb_le; lia]].
Qed.

Lemma balance_main : forall s sq qd fq nm p0 cl dir (f f0 : fe Rops) P grad p pc b1 b2, fe_init (K := Rops) sq s qd fq nm p0 cl 2 2 dir = Ok f -> fe_init (K := Rops) sq s qd fq nm p0 cl 2 2 None = Ok f0 ->
  built_element s 2 f -> (0 < num_cells f)%nat -> plane_map (beam_stress grad) -> bc_ok f ->
  force_problem grad f = Ok p -> boundary_inds_list p = [b1; b2] -> counter_problem f0 = Ok pc -> exists q, beam_q P pc = Ok q /\
  forall lam sol, shaped (length (points f)) 2 sol -> exists r res, beam_balance P p q lam sol = Ok r /\ length r = (length (points f) * 2)%nat /\
    compute_residual sqrt (loaded_beam f (beam_stress grad) b1 b2 (lam * 5)) [P] [sol] = Ok [res] /\
    (forall n k, (n < length (points f))%nat -> (k < 2)%nat -> nth (n * 2 + k) r 0 = match prescribed f n k with Some v => get2 (@zero Rops) sol n k - v | None => get2 (@zero Rops) res n k end) /\
    ((forall i, (i < length (points f) * 2)%nat -> nth i r 0 = 0) <-> solves (loaded_beam f (beam_stress grad) b1 b2 (lam * 5)) [P] [sol]).
Proof.
  intros s sq qd fq nm p0 cl dir f f0 P grad p pc b1 b2 B1 B0 BE NC PM BC EP EB EC. pose proof (bare_init _ _ _ _ _ _ _ _ _ _ _ B1) as E. rewrite B0 in E. injection E as ->.
  pose proof (built_vec _ _ _ _ _ _ _ _ _ _ _ B1) as V2. rewrite force_is in EP. injection EP as <-. injection EB as <- <-. rewrite counter_is in EC. injection EC as <-.
  destruct (q_spec s f P grad BE V2 NC) as (q & EQ & LQ & HQ). exists q. split; [exact EQ|]. intros lam sol SH.
  destruct (balance_spec s f P grad BE V2 NC PM q lam sol BC SH LQ HQ) as (r & ER & LR & HR). destruct (loaded_residual s f P grad BE V2 NC PM (lam * 5) sol SH) as (res & ES & SR & HS).
  assert (HB : forall n k, (n < length (points f))%nat -> (k < 2)%nat -> nth (n * 2 + k) r 0 = match prescribed f n k with Some v => get2 (@zero Rops) sol n k - v | None => get2 (@zero Rops) res n k end).
  { intros n k Hn Hk. rewrite (HR n k Hn Hk). destruct (prescribed f n k); [reflexivity|]. symmetry. exact (HS n k Hn Hk). }
  exists r, res. split; [exact ER|]. split; [exact LR|]. split; [exact ES|]. split; [exact HB|].
  assert (V2' : vec (fe_of (loaded_beam f (beam_stress grad) (faces_at f location_midspan_bottom) (faces_at f location_right) (lam * 5)) 0) = 2%nat) by exact V2. split.
  - intros Z. split.
    + split; [reflexivity|]. intros v Hv. assert (v = 0%nat) as -> by (cbn in Hv; lia). rewrite V2'. exact SH.
    + exists [res]. split; [exact ES|]. intros v n j Hv Hn Hj. assert (v = 0%nat) as -> by (cbn in Hv; lia). rewrite V2' in Hj. cbn [nth]. change (fe_of _ 0) with f in *.
      specialize (HB n j Hn Hj). rewrite (Z (n * 2 + j)%nat) in HB by nia. destruct (prescribed f n j) as [b|]; [|symmetry; exact HB]. apply Rminus_diag_uniq. symmetry. exact HB.
  - intros (_ & res' & ES' & HZ) i Hi. rewrite ES in ES'. injection ES' as <-. assert (EI : exists n k, i = (n * 2 + k)%nat /\ (k < 2)%nat /\ (n < length (points f))%nat).
    { exists (i / 2)%nat, (i mod 2)%nat. pose proof (Nat.div_mod i 2 ltac:(lia)). split; [lia|]. split; [apply Nat.mod_upper_bound; lia|apply Nat.div_lt_upper_bound; lia]. }
    destruct EI as (n & k & -> & Hk & Hn). rewrite (HB n k Hn Hk). specialize (HZ 0%nat n k ltac:(cbn; lia) Hn ltac:(now rewrite V2')). cbn [nth] in HZ. change (fe_of _ 0) with f in HZ.
    destruct (prescribed f n k) as [b|]; [|exact HZ]. apply Rminus_diag_eq. exact HZ.
Qed.
(** the support forces *)
Lemma support_main : forall s (f : fe Rops) P grad p b1 b2 T sol, built_element s 2 f -> vec f = 2%nat -> (0 < num_cells f)%nat -> length P = length (points f) -> plane_map (beam_stress grad) ->
  force_problem grad f = Ok p -> boundary_inds_list p = [b1; b2] -> solves (loaded_beam f (beam_stress grad) b1 b2 T) [P] [sol] ->
  exists res, compute_residual sqrt (loaded_beam f (beam_stress grad) b1 b2 T) [P] [sol] = Ok [res] /\
    let held k := sum_n (K := Rops) (length (points f)) (fun n => match prescribed f n k with Some _ => get2 (@zero Rops) res n k | None => 0 end) in
    held 0%nat = T * faces_length P f b2 /\ held 1%nat = / 10 ^ 5 * faces_length P f b1.
Proof.
  intros s f P grad p b1 b2 T sol BE V2 NC LP PM EP EB (SOL & res0 & ES & HZ). rewrite force_is in EP. injection EP as <-. injection EB as <- <-.
  assert (SH : shaped (length (points f)) 2 sol) by (rewrite <- V2; exact (proj2 SOL 0%nat ltac:(cbn; lia))).
  destruct (loaded_residual s f P grad BE V2 NC PM T sol SH) as (res & ER & SR & _). rewrite ER in ES. injection ES as <-. exists res. split; [exact ER|]. intros held.
  destruct (loaded_total s f P grad BE V2 NC PM LP T sol res SH ER) as (T0 & T1).
  assert (H : forall k, (k < 2)%nat -> held k = sum_n (K := Rops) (length (points f)) (fun n => get2 (@zero Rops) res n k)).
  { intros k Hk. apply Rsum_ext. intros n Hn. specialize (HZ 0%nat n k ltac:(cbn; lia) Hn ltac:(change (k < vec f)%nat; now rewrite V2)). cbn [nth] in HZ. change (fe_of _ 0) with f in HZ. destruct (prescribed f n k); [reflexivity|symmetry; exact HZ]. }
  rewrite !H by lia. split; [exact T0|exact T1].
Qed.

Lemma ends_main : forall s sq qd fq nm p0 cl dir (f f0 : fe Rops) P grad p pc b1 b2, fe_init (K := Rops) sq s qd fq nm p0 cl 2 2 dir = Ok f -> fe_init (K := Rops) sq s qd fq nm p0 cl 2 2 None = Ok f0 ->
  built_element s 2 f -> (0 < num_cells f)%nat -> plane_map (beam_stress grad) -> bc_ok f ->
  force_problem grad f = Ok p -> boundary_inds_list p = [b1; b2] -> counter_problem f0 = Ok pc -> exists q, beam_q P pc = Ok q /\
  forall sol, shaped (length (points f)) 2 sol ->
    (forall r, beam_balance P p q 0 sol = Ok r -> ((forall i, (i < length (points f) * 2)%nat -> nth i r 0 = 0) <-> solves (loaded_beam f (beam_stress grad) b1 b2 0) [P] [sol])) /\
    (forall r, beam_balance P p q 1 sol = Ok r -> ((forall i, (i < length (points f) * 2)%nat -> nth i r 0 = 0) <-> solves p [P] [sol])).
Proof.
  intros s sq qd fq nm p0 cl dir f f0 P grad p pc b1 b2 B1 B0 BE NC PM BC EP EB EC. destruct (balance_main s sq qd fq nm p0 cl dir f f0 P grad p pc b1 b2 B1 B0 BE NC PM BC EP EB EC) as (q & EQ & H). exists q. split; [exact EQ|]. intros sol SH. split.
  - intros r ER. destruct (H 0 sol SH) as (r' & res & ER' & _ & _ & _ & S). rewrite ER in ER'. injection ER' as <-. rewrite Rmult_0_l in S. exact S.
  - intros r ER. destruct (H 1 sol SH) as (r' & res & ER' & _ & ES & _ & S). rewrite ER in ER'. injection ER' as <-. rewrite S. rewrite Rmult_1_l in *.
    pose proof (built_vec _ _ _ _ _ _ _ _ _ _ _ B1) as V2. rewrite force_is in EP. injection EP as <-. injection EB as <- <-.
    destruct (c_residual s f P (beam_stress grad) [faces_at f location_midspan_bottom; faces_at f location_right] [imp; pull 5] BE V2 NC PM eq_refl (in12 s f BE) sol SH) as (res2 & E2 & _ & H2).
    destruct (loaded_residual s f P grad BE V2 NC PM 5 sol SH) as (res1 & E1 & _ & H1).
    assert (EQR : forall n k, (n < length (points f))%nat -> (k < 2)%nat -> get2 (@zero Rops) res1 n k = get2 (@zero Rops) res2 n k).
    { intros n k Hn Hk. rewrite (H1 n k Hn Hk), (H2 n k Hn Hk). f_equal. transitivity (imp k * edge_load P f (faces_at f location_midspan_bottom) n + (pull 5 k * edge_load P f (faces_at f location_right) n + 0)); [req; ring|reflexivity]. }
    split; intros (OKS & res0 & ER0 & HZ).
    + split; [exact OKS|]. exists [res2]. split; [exact E2|]. intros v n j Hv Hn Hj. assert (v = 0%nat) as -> by (cbn in Hv; lia). specialize (HZ 0%nat n j ltac:(cbn; lia) Hn Hj). rewrite E1 in ER0. injection ER0 as <-. cbn [nth] in *. change (fe_of _ 0) with f in *. destruct (prescribed f n j); [exact HZ|]. rewrite V2 in Hj. rewrite <- (EQR n j Hn Hj). exact HZ.
    + split; [exact OKS|]. exists [res1]. split; [exact E1|]. intros v n j Hv Hn Hj. assert (v = 0%nat) as -> by (cbn in Hv; lia). specialize (HZ 0%nat n j ltac:(cbn; lia) Hn Hj). rewrite E2 in ER0. injection ER0 as <-. cbn [nth] in *. change (fe_of _ 0) with f in *. destruct (prescribed f n j); [exact HZ|]. rewrite V2 in Hj. rewrite (EQR n j Hn Hj). exact HZ.
Qed.

Lemma total_main : forall s (f : fe Rops) P grad p b1 b2 T sol res, built_element s 2 f -> vec f = 2%nat -> (0 < num_cells f)%nat -> length P = length (points f) -> plane_map (beam_stress grad) ->
  force_problem grad f = Ok p -> boundary_inds_list p = [b1; b2] -> shaped (length (points f)) 2 sol -> compute_residual sqrt (loaded_beam f (beam_stress grad) b1 b2 T) [P] [sol] = Ok [res] ->
  sum_n (K := Rops) (length (points f)) (fun n => get2 (@zero Rops) res n 0) = T * faces_length P f b2 /\ sum_n (K := Rops) (length (points f)) (fun n => get2 (@zero Rops) res n 1) = / 10 ^ 5 * faces_length P f b1.
Proof.
  intros s f P grad p b1 b2 T sol res BE V2 NC LP PM EP EB SH ER. rewrite force_is in EP. injection EP as <-. injection EB as <- <-. exact (loaded_total s f P grad BE V2 NC PM LP T sol res SH ER).
Qed.
