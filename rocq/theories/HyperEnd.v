(** Lemmas for C102: rigid motions, the traction of a homogeneous deformation, and a problem to which the theorems apply. *)
From Coq Require Import String Reals List Arith Lia Lra Psatz Bool.
From Verif Require Import Num Arr ArrFacts Fe SpecFe FeFacts GeomFacts Problem SpecAssembly BatchFacts ProblemFacts AssemblyFacts DerivFacts Basis SpecBasis SpecSelect SpecWeak KernelFacts SpecEnergy EnergyFacts Init SpecInit InitFacts Mesh MeshMain MeshFe
  SpecPatch PatchFacts Elastic ElasticFacts ElasticMain Plasticity HyperElastic SpecHyper HyperFacts HyperMain HyperUse.
Import ListNotations.
Local Open Scope R_scope.

Lemma deform_affine el (f : fe Rops) P u A b c q : built_element el (dim f) f -> vec f = dim f -> length P = length (points f) -> samples (K := Rops) (dim f) (dim f) A b P u ->
  (c < num_cells f)%nat -> get_JxW P f c q <> 0 -> same (dim f) (deform P f u c q) (fun i j => A i j + identity i j).
Proof.
  intros (LAG & DIM & MESH & sq & qd & fq & nm & p0 & cl & v & dr & B) VE PL SA Hc NZ i j Hi Hj. unfold deform. f_equal.
  apply (grad_affine Rops_field _ _ _ _ _ _ _ _ _ _ _ B LAG MESH DIM P PL A b u c q i j); [now rewrite VE|exact Hc|now rewrite VE|exact Hj|exact NZ].
Qed.
Lemma rigid {V} grad energy St sqrtK (p : problem Rops V) f P el Q b sol v res : wf_problem p -> (0 < p_num_cells p)%nat -> hyper_problem grad energy p f -> lawful (dim f) energy St -> grad_correct (dim f) grad energy ->
  ivs_ok p -> maps_ok (vec f) (dim f) (maps p) -> sol_ok p [sol] -> length P = length (points f) -> built_element el (dim f) f -> p_num_cells p = num_cells f ->
  (forall c q, (c < num_cells f)%nat -> (q < num_quads f)%nat -> get_JxW P f c q <> 0) ->
  is_rotation (dim f) Q -> samples (K := Rops) (dim f) (dim f) (fun i j => Q i j - identity i j) b P sol -> sol_ok p [v] -> compute_residual sqrtK p [P] [sol] = Ok [res] ->
  work (K := Rops) (length (points f)) (vec f) v res = load_work sqrtK p f P sol v.
Proof.
  intros WF NC HY LAW GC IVS MAPS SOL PL BE EC NZ RQ SA SV CR. pose proof (proj1 (proj2 HY)) as VE.
  assert (RD : forall c q, (c < p_num_cells p)%nat -> (q < num_quads f)%nat -> is_rotation (dim f) (deform P f sol c q)).
  { intros c q Hc Hq. apply (rotation_same _ _ Q (law_dim _ _ _ LAW)); [|exact RQ]. intros i j Hi Hj.
    rewrite (deform_affine el f P sol _ b c q BE VE PL SA ltac:(rewrite <- EC; exact Hc) (NZ c q ltac:(rewrite <- EC; exact Hc) Hq) i j Hi Hj). req; ring. }
  apply (hy_free grad energy St sqrtK p f P WF NC HY LAW GC IVS MAPS sol SOL); auto.
  - intros c q Hc Hq. destruct (RD c q Hc Hq) as [-> _]. exact Rlt_0_1.
  - intros c q Hc Hq. unfold ten_dot. apply (sum_n_zero_ext Rops_ring). intros i Hi. apply (sum_n_zero_ext Rops_ring). intros j Hj. rewrite (law_rot _ _ _ LAW _ (RD c q Hc Hq) i j Hi Hj). exact (Rmult_0_l _).
Qed.

Lemma sum_over_mul {A} (l : list A) x (g : A -> R) : sum_over (K := Rops) l (fun a => x * g a) = x * sum_over (K := Rops) l g.
Proof. exact (sum_over_mul_l Rops_ring x l g). Qed.
Lemma sum_over_in {A} (l : list A) (g h : A -> R) : (forall a, In a l -> g a = h a) -> sum_over (K := Rops) l g = sum_over (K := Rops) l h.
Proof. exact (sum_over_ext_in (K := Rops) l g h). Qed.
Lemma pick_2 (h : nat -> R) : sum_n (K := Rops) 3 (fun j => h j * (if (j =? 2)%nat then 1 else 0)) = h 2%nat.
Proof. rewrite rsum3. cbn [Nat.eqb]. req; ring. Qed.
Lemma traction_homogeneous el (f : fe Rops) P A b sol grad energy S loc inds sqrtK k :
  built_element el 3 f -> dim f = 3%nat -> vec f = 3%nat -> length P = length (points f) -> samples (K := Rops) 3 3 A b P sol -> lawful 3 energy S -> grad_correct 3 grad energy ->
  0 < det (K := Rops) 3 (fun i j => A i j + identity i j) -> (k < 3)%nat -> get_boundary_conditions_inds f (Some [loc]) = Ok [inds] ->
  (forall c fc q, In (c, fc) inds -> (q < num_face_quads f)%nat -> nanson_scale (K := Rops) sqrtK P f c fc q <> 0) ->
  exists t, compute_traction sqrtK P f (first_PK_stress grad energy) loc sol = Ok t /\
    t k = S (fun i j => A i j + identity i j) k 2%nat * sum_over (K := Rops) inds (fun cf => sum_n (K := Rops) (num_face_quads f) (fun q => nanson_scale sqrtK P f (fst cf) (snd cf) q)).
Proof.
  intros (LAG & DIM & MESH & sq & qd & fq & nm & p0 & cl & v & dr & B) DE VE PL SA LAW GC POS Hk BC NZ. unfold compute_traction. rewrite BC. cbn [bind]. eexists. split; [reflexivity|]. unfold surface_integral. cbn [nth].
  rewrite <- sum_over_mul. apply sum_over_in. intros [c fc] I. cbn [fst snd]. rewrite <- Rsum_mul. apply Rsum_ext. intros q Hq. apply (f_equal2 Rmult); [|reflexivity].
  assert (Hc : (c < num_cells f)%nat) by (apply (boundary_cells f (Some [loc]) [inds] inds c fc BC); [now left|exact I]).
  rewrite pick_2. assert (SM : same 3 (fun i j => u_grads_face P f sol c fc q i j + identity i j) (fun i j => A i j + identity i j)).
  { intros i j Hi Hj. f_equal. unfold u_grads_face. apply (face_grad_affine Rops_field _ _ _ _ _ _ _ _ _ _ _ B LAG MESH DIM P PL sqrtK A b sol c fc q i j); [now rewrite VE|exact Hc|now rewrite VE|exact Hj|now apply NZ]. }
  unfold first_PK_stress. destruct GC as [G1 G2]. pose proof (grad_is 3 energy S grad _ LAW (conj G1 G2) POS k 2%nat Hk ltac:(lia)) as E. rewrite <- E. exact (G2 _ _ SM k 2%nat Hk ltac:(lia)).
Qed.

Lemma code_lawful d energy S : code_energy d energy S -> lawful d energy S.
Proof. intros [d' E nu D|E nu]; [now apply lawful_psi|apply lawful_plane]. Qed.
Lemma rotation_embed Q : is_rotation 3 (embed Q) -> is_rotation 2 Q.
Proof.
  intros [H1 H2]. rewrite embed_det in H1. split; [exact H1|]. intros i j Hi Hj. rewrite <- (H2 i j ltac:(lia) ltac:(lia)).
  unfold product, transposed. rewrite rsum2, rsum3. unfold embed. destruct i as [|[|i]]; [| |lia]; (destruct j as [|[|j]]; [| |lia]); cbn [Nat.ltb Nat.leb Nat.eqb andb]; req; ring.
Qed.
Lemma lame_bulk E nu : 1 + nu <> 0 -> 1 - 2 * nu <> 0 -> bulk_modulus E nu - 2 * shear_modulus E nu / 3 = lame E nu.
Proof. intros A B. unfold bulk_modulus, shear_modulus, lame. field. auto. Qed.
Lemma lame_beam E nu : 1 + nu <> 0 -> 1 - 2 * nu <> 0 -> bulk_modulus E nu - 2 * shear_modulus E nu / 2 = lame E nu - shear_modulus E nu / 3.
Proof. intros A B. unfold bulk_modulus, shear_modulus, lame. field. auto. Qed.

(** ** jax.grad as a function *)
Lemma grad_psi d E nu : ok_dim d -> grad_correct d (fun _ => neo_stress d E nu) (psi d E nu).
Proof. intros D. split; [intros; now apply psi_gradient|intros F F' H i j Hi Hj; now apply neo_ext]. Qed.
Lemma grad_plane E nu : grad_correct 2 (fun _ F => neo_stress 3 E nu (embed F)) (psi_plane E nu).
Proof. split; [intros; now apply plane_gradient|]. intros F F' H i j Hi Hj. apply neo_ext; [|lia|lia]. intros a b Ha Hb. unfold embed. destruct (Nat.ltb_spec a 2), (Nat.ltb_spec b 2); cbn [andb]; auto. Qed.

(** ** A problem of this kind on a box, rotated about the third axis *)
Definition turn (a : R) : tensor := fun i j => match i, j with 0%nat, 0%nat => cos a | 0%nat, 1%nat => - sin a | 1%nat, 0%nat => sin a | 1%nat, 1%nat => cos a | 2%nat, 2%nat => 1 | _, _ => 0 end.
Lemma turn_rotation a : is_rotation 3 (turn a).
Proof.
  pose proof (sin2_cos2 a) as H. unfold Rsqr in H. split; [rewrite (det_det3 Rops_ring); unfold det3, turn; change (@eq R (cos a * (cos a * 1 - 0 * 0) - - sin a * (sin a * 1 - 0 * 0) + 0 * (sin a * 0 - cos a * 0)) 1); nra|]. intros i j Hi Hj. unfold product, transposed, identity. rewrite rsum3.
  destruct i as [|[|[|i]]]; [| | |lia]; (destruct j as [|[|[|j]]]; [| | |lia]); cbn; req; nra.
Qed.
Section Witness.
  Variables (Nx Ny Nz : nat) (X Y Z E nu a : R) (HX : (0 < Nx)%nat) (HYY : (0 < Ny)%nat) (HZ : (0 < Nz)%nat) (PX : 0 < X) (PY : 0 < Y) (PZ : 0 < Z).
  Let M := box_mesh Nx Ny Nz X Y Z.
  Variables (sqrtK : Rops -> Rops) (quad fquad : list (list Rops) * list Rops) (normals : nat -> nat -> Rops) (g : list Rops -> bool).
  Hypothesis W : forall q, (q < length (fst quad))%nat -> nth q (snd quad) 0 <> 0.
  Let A : tensor := fun i j => turn a i j - identity i j.
  Let b : nat -> R := fun _ => 0.
  Let tm : (nat -> nat -> Rops) -> list unit -> nat -> nat -> Rops := fun G _ => first_PK_stress (fun _ => neo_stress 3 E nu) (psi 3 E nu) G.
  Lemma hyper_exists : exists (p : problem Rops unit) f u res,
    problem_init sqrtK 3 [mkVar (m_points M) (m_cells M) 3 "HEX8" quad fquad normals (hold_affine 3 3 A b g)] None (only_tensor_map tm) (fun x y => (x, y)) = Ok p /\
    wf_problem p /\ (0 < p_num_cells p)%nat /\ hyper_problem (fun _ => neo_stress 3 E nu) (psi 3 E nu) p f /\ ivs_ok p /\ maps_ok (vec f) (dim f) (maps p) /\ sol_ok p [u] /\ dim f = 3%nat /\
    length (m_points M) = length (points f) /\ built_element "HEX8" (dim f) f /\ p_num_cells p = num_cells f /\
    (forall c q, (c < num_cells f)%nat -> (q < num_quads f)%nat -> get_JxW (m_points M) f c q <> 0) /\
    samples (K := Rops) (dim f) (dim f) A b (m_points M) u /\ compute_residual sqrtK p [m_points M] [u] = Ok [res].
  Proof.
    set (v := mkVar (K := Rops) (m_points M) (m_cells M) 3 "HEX8" quad fquad normals (hold_affine 3 3 A b g)).
    assert (AO : mesh_arg_ok v).
    { unfold mesh_arg_ok, v. cbn [va_ele_type va_points va_cells va_vec va_bc]. split; [cbn; tauto|]. split.
      - intros cell I. split; [apply box_in in I as (i & j & k & Hi & Hj & Hk & ->); [reflexivity|assumption|assumption|lia]|].
        intros n Hn. exact (box_valid Nx Ny Nz X Y Z HX HYY HZ cell n I Hn).
      - cbn. split; [reflexivity|]. split; [reflexivity|]. intros h [<-|[<-|[<-|[]]]]; reflexivity. }
    destruct (init_wf sqrtK 3 [v] None (only_tensor_map tm) (fun x y => (x, y))) as (p & IP & _).
    { split; [discriminate|]. split; [intros x [<-|[]]; exact AO|]. intros x y [<-|[]] [<-|[]]; reflexivity. }
    { exact I. }
    { reflexivity. }
    destruct (constructed sqrtK "HEX8" quad fquad normals (m_points M) (m_cells M) 3 3 A b g tm p IP) as (f & BU & PE).
    pose proof (box_mesh_ok Nx Ny Nz X Y Z HX HYY HZ _ _ _ _ _ _ f BU) as MO. pose proof (built_dim _ _ _ _ _ _ _ _ _ _ _ BU) as DE. pose proof (built_vec _ _ _ _ _ _ _ _ _ _ _ BU) as VE.
    assert (NCE : p_num_cells p = num_cells f) by (subst p; reflexivity). assert (CN : num_cells f = (Nx * Ny * Nz)%nat) by exact (box_num_cells Nx Ny Nz X Y Z HX HYY HZ _ _ _ _ _ _ f BU).
    assert (NC : (0 < p_num_cells p)%nat) by (rewrite NCE, CN; lia).
    assert (WF : wf_problem p) by (eapply constructed_wf; eauto). assert (SD : standard_problem p f) by (eapply constructed_std; eauto). assert (IV : ivs_ok p) by (eapply constructed_ivs; eauto).
    assert (MP : maps_ok (vec f) (dim f) (maps p)).
    { rewrite DE. apply (constructed_maps sqrtK "HEX8" quad fquad normals (m_points M) (m_cells M) 3 3 A b g tm p f BU PE). intros G G' iv H k j Hk Hj. unfold tm, first_PK_stress. apply neo_ext; auto. intros i l Hi Hl. now rewrite (H i l Hi Hl). }
    assert (SO : sol_ok p [affine_values 3 3 A b (m_points M)]) by (eapply constructed_sol; eauto).
    destruct (std_residual sqrtK p f (m_points M) WF NC SD IV MP _ SO) as (r & CR & _).
    exists p, f, (affine_values 3 3 A b (m_points M)), r. repeat match goal with |- _ /\ _ => split end; auto; try assumption.
    - split; [exact SD|]. split; [now rewrite DE|]. subst p. cbn. split; [reflexivity|]. split; discriminate.
    - now rewrite (built_points _ _ _ _ _ _ _ _ _ _ _ BU).
    - rewrite DE. exact (box_element Nx Ny Nz X Y Z HX HYY HZ _ _ _ _ _ _ f BU).
    - intros c q Hc Hq. rewrite (box_JxW Nx Ny Nz X Y Z HX HYY HZ _ _ _ _ _ _ f BU) by (rewrite <- CN; exact Hc).
      assert (forall n, (0 < n)%nat -> 0 < INR n) as IP0 by (intros; now apply lt_0_INR). pose proof (IP0 Nx HX). pose proof (IP0 Ny HYY). pose proof (IP0 Nz HZ).
      assert (0 < X / INR Nx * (Y / INR Ny) * (Z / INR Nz)) by (repeat apply Rmult_lt_0_compat; auto; now apply Rinv_0_lt_compat).
      apply Rmult_integral_contrapositive_currified; [lra|]. rewrite (built_weights _ _ _ _ _ _ _ _ _ _ _ BU). apply W. rewrite <- (built_quads _ _ _ _ _ _ _ _ _ _ _ BU). exact Hq.
    - rewrite DE. apply affine_values_sol.
  Qed.
End Witness.
