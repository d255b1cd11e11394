(** Lemmas for C112: the loaded faces of the mesh of the examples and their lengths. *)
From Coq Require Import Reals String List Arith Lia Lra Bool Sorting.Sorted Sorting.Permutation.
From Verif Require Import Num Arr ArrFacts BatchFacts Fe FeFacts GeomFacts Basis SpecBasis SpecFe SpecGeom Problem SpecAssembly SpecBc BcFacts SpecLinear ElasticFacts
  SpecSelect SelectFacts Mesh SpecMesh MeshFacts MeshMain MeshFe Lagrangian LaserHeat Plasticity HyperElastic SpecHyper HyperFacts HyperUse SpecVolume Volume VolumeMain VolumeEnd ThermalFacts HyperEnd NansonFacts Beam SpecBeam BeamMain BeamRun BeamEnd.
Import ListNotations.
Local Open Scope R_scope.

Definition quad_faces : list (list nat) := [[0; 1]; [0; 3]; [1; 2]; [3; 2]]%nat.
Definition checked (cond : nat -> bool) (l : list (nat * nat)) : bool :=
  forallb (fun c => forallb (fun fc => Bool.eqb (forallb (fun a => cond (nth a (quad_of 2 (c / 2) (c mod 2)) 0%nat)) (nth fc quad_faces []))
    (existsb (fun cf => (fst cf =? c)%nat && (snd cf =? fc)%nat) l)) (seq 0 4)) (seq 0 100)
  && forallb (fun cf => (fst cf <? 100)%nat && (snd cf <? 4)%nat) l.
Definition right_faces : list (nat * nat) := [(98, 2); (99, 2)]%nat.
Definition middle_faces : list (nat * nat) := [(48, 0); (50, 0)]%nat.
Definition right_node (n : nat) : bool := (150 <=? n)%nat.
Definition middle_node (n : nat) : bool := (n mod 3 =? 0)%nat && (24 <=? n / 3)%nat && (n / 3 <=? 26)%nat.
Lemma right_checked : checked right_node right_faces = true. Proof. vm_compute. reflexivity. Qed.
Lemma middle_checked : checked middle_node middle_faces = true. Proof. vm_compute. reflexivity. Qed.
Lemma beam_right_node n : (n < 153)%nat -> right_end (nth 0 (nth n (m_points beam_mesh) []) 0) (nth 1 (nth n (m_points beam_mesh) []) 0) <-> right_node n = true.
Proof. intros Hn. rewrite <- right_iff. unfold right_node. rewrite beam_right by exact Hn. reflexivity. Qed.
Lemma beam_middle_node n : (n < 153)%nat -> middle_below (nth 0 (nth n (m_points beam_mesh) []) 0) (nth 1 (nth n (m_points beam_mesh) []) 0) <-> middle_node n = true.
Proof.
  intros Hn. rewrite (beam_point n Hn). unfold middle_below, middle_node. cbn [nth]. rewrite !andb_true_iff, Nat.eqb_eq, !Nat.leb_le.
  assert (I23 : INR 23 = 23) by (cbn; lra). assert (I27 : INR 27 = 27) by (cbn; lra). split.
  - intros (H1 & H2 & H3). rewrite <- I23 in H2. rewrite <- I27 in H3. apply INR_lt in H2, H3. split; [split|]; [|lia..]. assert (X : (n mod 3 < 1)%nat); [|lia]. apply INR_lt. apply Rabs_def2b in H1. change (INR 1) with 1. lra.
  - intros ((H1 & H2) & H3). rewrite H1. cbn [INR]. rewrite Rabs_R0. split; [lra|]. rewrite <- I23 at 1. rewrite <- I27. split; apply lt_INR; lia.
Qed.

Section Met.
  Variables (quad fquad : list (list Rops) * list Rops) (normals : nat -> nat -> Rops) (dir : option (list (location_fn Rops) * list nat * list (list Rops -> Rops))) (f : fe Rops).
  Hypothesis B : fe_init (K := Rops) sqrt "QUAD4" quad fquad normals (m_points beam_mesh) (m_cells beam_mesh) 2 2 dir = Ok f.
  Lemma met_element : built_element "QUAD4" 2 f. Proof. exact (rect_element 50 2 beam_Lx beam_Ly ltac:(lia) ltac:(lia) _ _ _ _ _ _ f B). Qed.
  Lemma met_cells : num_cells f = 100%nat. Proof. exact (rect_num_cells 50 2 beam_Lx beam_Ly ltac:(lia) ltac:(lia) _ _ _ _ _ _ f B). Qed.
  Lemma met_faces : face_inds f = quad_faces.
  Proof. destruct (built_inv _ _ _ _ _ _ _ _ _ _ _ B) as (info & fi & [[ns vs] ws] & HI & HFI & HD & Hf). injection HI as <-. cbn in HFI. injection HFI as <-. now rewrite Hf. Qed.
  Lemma met_cell c : (c < 100)%nat -> nth c (cells f) [] = quad_of 2 (c / 2) (c mod 2).
  Proof.
    intros Hc. rewrite (built_cells _ _ _ _ _ _ _ _ _ _ _ B). pose proof (rect_cell 50 2 beam_Lx beam_Ly ltac:(lia) ltac:(lia) (c / 2) (c mod 2) ltac:(apply Nat.div_lt_upper_bound; lia) ltac:(apply Nat.mod_upper_bound; lia)) as E.
    replace (c / 2 * 2 + c mod 2)%nat with c in E by (pose proof (Nat.div_mod c 2 ltac:(lia)); lia). exact E.
  Qed.
  Lemma met_select region cond l b : (forall n, (n < 153)%nat -> region (nth 0 (nth n (m_points beam_mesh) []) 0) (nth 1 (nth n (m_points beam_mesh) []) 0) <-> cond n = true) -> checked cond l = true -> NoDup l -> selects f region b -> Permutation b l.
  Proof.
    intros RC CH ND (NB & HB). unfold checked in CH. apply andb_true_iff in CH as (CH & RG). rewrite forallb_forall in CH, RG. apply NoDup_Permutation; [exact NB|exact ND|]. intros (c & fc). rewrite HB. rewrite met_faces. fold (num_cells f). rewrite met_cells. cbn [length quad_faces].
    assert (KEY : (c < 100)%nat -> (fc < 4)%nat -> (face_in_region f region c fc <-> In (c, fc) l)).
    { intros Hc Hf. specialize (CH c ltac:(apply in_seq; lia)). rewrite forallb_forall in CH. specialize (CH fc ltac:(apply in_seq; lia)). apply eqb_prop in CH.
      assert (EX : In (c, fc) l <-> existsb (fun cf => (fst cf =? c)%nat && (snd cf =? fc)%nat) l = true).
      { rewrite existsb_exists. split; [intros H; exists (c, fc); cbn; rewrite !Nat.eqb_refl; auto|]. intros ((c' & fc') & HI & HE). apply andb_true_iff in HE as (E1 & E2). apply Nat.eqb_eq in E1, E2. cbn in E1, E2. subst. exact HI. }
      rewrite EX, <- CH, forallb_forall. unfold face_in_region. rewrite met_faces, (met_cell c Hc), (built_points _ _ _ _ _ _ _ _ _ _ _ B).
      assert (LT : forall a, In a (nth fc quad_faces []) -> (nth a (quad_of 2 (c / 2) (c mod 2)) 0 < 153)%nat).
      { intros a Ha. assert (Ha4 : (a < 4)%nat) by (destruct fc as [|[|[|[|fc]]]]; cbn in Ha; lia). assert (c / 2 < 50)%nat by (apply Nat.div_lt_upper_bound; lia). assert (c mod 2 < 2)%nat by (apply Nat.mod_upper_bound; lia). unfold quad_of. destruct a as [|[|[|[|a]]]]; cbn [nth]; lia. }
      split; intros H a Ha; apply (RC _ (LT a Ha)); exact (H a Ha). }
    split; [intros (H1 & H2 & H3); now apply KEY|]. intros H. specialize (RG _ H). cbn in RG. apply andb_true_iff in RG as (R1 & R2). assert (c < 100)%nat by now apply Nat.ltb_lt. assert (fc < 4)%nat by now apply Nat.ltb_lt. split; [assumption|]. split; [assumption|]. now apply KEY.
  Qed.
  Lemma met_edge c fc : (c < 100)%nat -> (fc < 4)%nat -> facet_size 2 (facet_edges (m_points beam_mesh) f c fc) = 1.
  Proof.
    intros Hc Hf. unfold facet_size, facet_edges, vx. rewrite met_faces, (met_cell c Hc).
    assert (H1 : (c / 2 < 50)%nat) by (apply Nat.div_lt_upper_bound; lia). assert (H2 : (c mod 2 < 2)%nat) by (apply Nat.mod_upper_bound; lia).
    assert (PT : forall i j, (i <= 50)%nat -> (j <= 2)%nat -> nth (i * (2 + 1) + j) (m_points beam_mesh) [] = [INR i; INR j]).
    { intros i j Hi Hj. etransitivity; [exact (rect_point 50 2 beam_Lx beam_Ly ltac:(lia) ltac:(lia) i j Hi Hj)|]. unfold beam_Lx, beam_Ly. replace (INR 50) with 50 by (cbn; lra). replace (INR 2) with 2 by (cbn; lra). f_equal; [field|f_equal; field]. }
    set (i := (c / 2)%nat) in *. set (j := (c mod 2)%nat) in *. clearbody i j.
    rewrite <- sqrt_1. f_equal. unfold quad_of. pose proof (plus_INR i 1) as PI. pose proof (plus_INR j 1) as PJ. change (INR 1) with 1 in PI, PJ.
    destruct fc as [|[|[|[|fc]]]]; [..|lia]; cbn [quad_faces nth]; rewrite !PT by lia; cbn [nth]; rewrite ?PI, ?PJ; ring.
  Qed.
  Lemma met_length b l : facet_normals "QUAD4" 2 f -> Permutation b l -> (forall cf, In cf l -> (fst cf < 100)%nat /\ (snd cf < 4)%nat) -> faces_length (m_points beam_mesh) f b = INR (length l) * sum_n (K := Rops) (num_face_quads f) (fun q => nth q (snd fquad) 0).
  Proof.
    intros FN PB HL. set (w := sum_n (K := Rops) (num_face_quads f) (fun q => nth q (snd fquad) 0)).
    transitivity (sum_over (K := Rops) b (fun cf => sum_n (K := Rops) (num_face_quads f) (nanson_scale sqrt (m_points beam_mesh) f (fst cf) (snd cf)))).
    { symmetry. exact (sum_over_nth (K := Rops) (0, 0)%nat b (fun cf => sum_n (K := Rops) (num_face_quads f) (nanson_scale sqrt (m_points beam_mesh) f (fst cf) (snd cf)))). }
    rewrite (sum_over_perm Rops_ring b l _ PB). transitivity (sum_over (K := Rops) l (fun _ => w)).
    - apply sum_over_in. intros (c & fc) HI. cbn [fst snd]. destruct (HL _ HI) as (Hc & Hf). cbn [fst snd] in Hc, Hf. destruct (FN fc ltac:(rewrite met_faces; exact Hf)) as (HU & HO).
      apply Rsum_ext. intros q _. pose proof met_element as (LAG & DIM & MESH & _).
      etransitivity; [exact (nanson_aff "QUAD4"%string quad fquad normals _ _ 2 2 dir f B LAG MESH DIM (m_points beam_mesh) ltac:(now rewrite (built_points _ _ _ _ _ _ _ _ _ _ _ B)) _ _ c ltac:(fold (num_cells f); rewrite met_cells; exact Hc) (rect_affine 50 2 beam_Lx beam_Ly ltac:(lia) ltac:(lia) _ _ _ _ _ _ f B c Hc) fc ltac:(rewrite met_faces; exact Hf) ltac:(unfold det_dim, det2, beam_Lx, beam_Ly; cbn; lra) HU HO q)|].
      etransitivity; [exact (f_equal (fun z => _ * z * _) (met_edge c fc Hc Hf))|]. unfold SpecGeom.sign. destruct (Rlt_dec _ _) as [NEG|_]; [exfalso; revert NEG; unfold det_dim, det2, beam_Lx, beam_Ly; cbn; lra|]. req. ring.
    - clear HL PB. induction l as [|x l IH]; [cbn; req; ring|]. etransitivity; [exact (f_equal (fun z => w + z) IH)|]. cbn [length]. rewrite S_INR. req. ring.
  Qed.
End Met.

Definition quad_normals (fc i : nat) : Rops := match fc, i with 0%nat, 1%nat => -1 | 1%nat, 0%nat => -1 | 2%nat, 0%nat => 1 | 3%nat, 1%nat => 1 | _, _ => 0 end.
Lemma quad_facet_normals quad fquad dir f : fe_init (K := Rops) sqrt "QUAD4" quad fquad quad_normals (m_points beam_mesh) (m_cells beam_mesh) 2 2 dir = Ok f -> facet_normals "QUAD4" 2 f.
Proof.
  intros B. destruct (built_inv _ _ _ _ _ _ _ _ _ _ _ B) as (info & fi & [[ns vs] ws] & HI & HFI & HD & Hf).
  assert (NE : face_normals f = quad_normals) by now rewrite Hf. intros fc Hfc. rewrite NE, (met_faces _ _ _ _ f B) in *. cbn [length quad_faces] in Hfc. destruct fc as [|[|[|[|fc]]]]; [..|lia]; split.
  all: try (intros k Hk; assert (k = 0%nat) as -> by lia); cbv -[Rmult Rplus Rminus Rinv IZR Ropp]; ring.
Qed.
Lemma grad_plane grad : grad_correct 2 grad (psi 2 (10 ^ 3) (3 / 10)) -> plane_map (beam_stress grad).
Proof. intros (_ & G) H H' E i j Hi Hj. unfold beam_stress, first_PK_stress. apply G; auto. intros a b Ha Hb. now rewrite (E a b Ha Hb). Qed.
Lemma neo_plane : grad_correct 2 (fun _ => neo_stress 2 (10 ^ 3) (3 / 10)) (psi 2 (10 ^ 3) (3 / 10)).
Proof. apply grad_psi. left. reflexivity. Qed.

Lemma mesh_main : forall quad fquad normals dir (f : fe Rops), fe_init (K := Rops) sqrt "QUAD4" quad fquad normals (m_points beam_mesh) (m_cells beam_mesh) 2 2 dir = Ok f ->
  built_element "QUAD4" 2 f /\ num_cells f = 100%nat /\ forall b1 b2, selects f middle_below b1 -> selects f right_end b2 ->
  (forall c fc, In (c, fc) b1 <-> (c = 48 \/ c = 50)%nat /\ fc = 0%nat) /\ (forall c fc, In (c, fc) b2 <-> (c = 98 \/ c = 99)%nat /\ fc = 2%nat) /\
  (facet_normals "QUAD4" 2 f -> let w := sum_n (K := Rops) (num_face_quads f) (fun q => nth q (snd fquad) 0) in
   faces_length (m_points beam_mesh) f b1 = 2 * w /\ faces_length (m_points beam_mesh) f b2 = 2 * w).
Proof.
  intros quad fquad normals dir f B. split; [exact (met_element _ _ _ _ f B)|]. split; [exact (met_cells _ _ _ _ f B)|]. intros b1 b2 S1 S2.
  assert (N1 : NoDup middle_faces) by (repeat constructor; cbn; intuition congruence). assert (N2 : NoDup right_faces) by (repeat constructor; cbn; intuition congruence).
  pose proof (met_select _ _ _ _ f B _ _ _ b1 beam_middle_node middle_checked N1 S1) as P1. pose proof (met_select _ _ _ _ f B _ _ _ b2 beam_right_node right_checked N2 S2) as P2.
  split; [|split].
  - intros c fc. transitivity (In (c, fc) middle_faces); [split; apply Permutation_in; [exact P1|now symmetry]|]. cbn. split; [intros [[= <- <-]|[[= <- <-]|[]]]; auto|intros ([-> | ->] & ->); auto].
  - intros c fc. transitivity (In (c, fc) right_faces); [split; apply Permutation_in; [exact P2|now symmetry]|]. cbn. split; [intros [[= <- <-]|[[= <- <-]|[]]]; auto|intros ([-> | ->] & ->); auto].
  - intros FN w. split.
    + etransitivity; [apply (met_length _ _ _ _ f B b1 middle_faces FN P1)|reflexivity]. intros cf [<-|[<-|[]]]; cbn; lia.
    + etransitivity; [apply (met_length _ _ _ _ f B b2 right_faces FN P2)|reflexivity]. intros cf [<-|[<-|[]]]; cbn; lia.
Qed.
Lemma met_main : forall quad fquad, exists f f0 p pc b1 b2, let grad (_ : tensor -> R) := neo_stress 2 (10 ^ 3) (3 / 10) in
  fe_init (K := Rops) sqrt "QUAD4" quad fquad quad_normals (m_points beam_mesh) (m_cells beam_mesh) 2 2 (Some clamped_left_dirichlet_bc_info) = Ok f /\
  fe_init (K := Rops) sqrt "QUAD4" quad fquad quad_normals (m_points beam_mesh) (m_cells beam_mesh) 2 2 None = Ok f0 /\ built_element "QUAD4" 2 f /\ num_cells f = 100%nat /\ facet_normals "QUAD4" 2 f /\
  plane_map (beam_stress grad) /\ bc_ok f /\ force_problem grad f = Ok p /\ boundary_inds_list p = [b1; b2] /\ counter_problem f0 = Ok pc /\ length b1 = 2%nat /\ length b2 = 2%nat.
Proof.
  intros quad fquad. destruct (dirichlet_spec (K := Rops) (m_points beam_mesh) (fst (fst clamped_left_dirichlet_bc_info)) (snd (fst clamped_left_dirichlet_bc_info)) (snd clamped_left_dirichlet_bc_info)) as (_ & _ & D). destruct (D eq_refl eq_refl eq_refl) as (ns & vs & ws & ED & _).
  destruct (beam_built quad fquad quad_normals (Some clamped_left_dirichlet_bc_info) _ ED) as (f & B). pose proof (met_element _ _ _ _ f B) as BE.
  exists f, (bare f), (const_problem f (beam_stress (fun _ => neo_stress 2 (10 ^ 3) (3 / 10))) [faces_at f location_midspan_bottom; faces_at f location_right] [imp; pull 5]), (const_problem (bare f) (fun _ _ _ => 0) [faces_at f location_right] [pull (- (5))]), (faces_at f location_midspan_bottom), (faces_at f location_right). intros grad.
  pose proof (selects_of f _ _ _ middle_iff (faces_at_spec _ 2 f _ BE)) as S1. pose proof (selects_of f _ _ _ right_iff (faces_at_spec _ 2 f _ BE)) as S2.
  assert (N1 : NoDup middle_faces) by (repeat constructor; cbn; intuition congruence). assert (N2 : NoDup right_faces) by (repeat constructor; cbn; intuition congruence).
  pose proof (met_select _ _ _ _ f B _ _ _ _ beam_middle_node middle_checked N1 S1) as P1. pose proof (met_select _ _ _ _ f B _ _ _ _ beam_right_node right_checked N2 S2) as P2.
  split; [exact B|]. split; [exact (bare_init _ _ _ _ _ _ _ _ _ _ _ B)|]. split; [exact BE|]. split; [exact (met_cells _ _ _ _ f B)|]. split; [exact (quad_facet_normals _ _ _ f B)|]. split; [exact (grad_plane _ neo_plane)|]. split; [exact (proj1 (clamped_spec _ _ _ _ _ _ _ _ _ f B))|].
  split; [reflexivity|]. split; [reflexivity|]. split; [reflexivity|]. split; [exact (Permutation_length P1)|exact (Permutation_length P2)].
Qed.
Lemma disp_met : forall quad fquad, exists f p b1, let grad (_ : tensor -> R) := neo_stress 2 (10 ^ 3) (3 / 10) in
  fe_init (K := Rops) sqrt "QUAD4" quad fquad quad_normals (m_points beam_mesh) (m_cells beam_mesh) 2 2 (Some compression_dirichlet_bc_info) = Ok f /\
  built_element "QUAD4" 2 f /\ vec f = 2%nat /\ num_cells f = 100%nat /\ plane_map (beam_stress grad) /\ bc_ok f /\ displacement_problem grad f = Ok p /\ boundary_inds_list p = [b1] /\ length b1 = 2%nat.
Proof.
  intros quad fquad. destruct (dirichlet_spec (K := Rops) (m_points beam_mesh) (fst (fst compression_dirichlet_bc_info)) (snd (fst compression_dirichlet_bc_info)) (snd compression_dirichlet_bc_info)) as (_ & _ & D). destruct (D eq_refl eq_refl eq_refl) as (ns & vs & ws & ED & _).
  destruct (beam_built quad fquad quad_normals (Some compression_dirichlet_bc_info) _ ED) as (f & B). pose proof (met_element _ _ _ _ f B) as BE.
  exists f, (const_problem f (beam_stress (fun _ => neo_stress 2 (10 ^ 3) (3 / 10))) [faces_at f location_midspan_bottom] [imp]), (faces_at f location_midspan_bottom). intros grad.
  pose proof (selects_of f _ _ _ middle_iff (faces_at_spec _ 2 f _ BE)) as S1. assert (N1 : NoDup middle_faces) by (repeat constructor; cbn; intuition congruence).
  pose proof (met_select _ _ _ _ f B _ _ _ _ beam_middle_node middle_checked N1 S1) as P1.
  split; [exact B|]. split; [exact BE|]. split; [exact (built_vec _ _ _ _ _ _ _ _ _ _ _ B)|]. split; [exact (met_cells _ _ _ _ f B)|]. split; [exact (grad_plane _ neo_plane)|]. split; [exact (proj1 (compression_spec _ _ _ _ _ _ _ _ _ f B))|].
  split; [reflexivity|]. split; [reflexivity|exact (Permutation_length P1)].
Qed.
