(** Proofs for C69: the patch test on the structured meshes. *)
From Coq Require Import String List Arith Lia Bool Reals Lra Setoid Ring.
From Verif Require Import Num Arr ArrFacts Fe Problem BatchFacts SpecAssembly AssemblyFacts ProblemFacts ResidualFacts SolverBc SpecBc BcFacts BcMain
  Basis SpecBasis BasisFacts SpecFe FeFacts GeomFacts SpecWeak KernelFacts SpecSelect SelectFacts Init SpecPatch Mesh SpecMesh MeshFacts MeshMain MeshFe.
Import ListNotations.

Section Uniform.
  Context {K : ops} (KF : field_laws K) {V : Type}.
  Open Scope num_scope.
  Let KR : ring_laws K := field_ring K KF.
  Let Kth : ring_theory (@zero K) one add mul sub opp eq := KR.
  Add Ring KringP : Kth.
  Variables (sqrtK : K -> K) (s : string) (quad fquad : list (list K) * list K) (normals : nat -> nat -> K)
    (pts : list (list K)) (cls : list (list nat)) (v d : nat)
    (dir : option (list (location_fn K) * list nat * list (list K -> K))) (f : fe K).
  Hypothesis BUILT : fe_init sqrtK s quad fquad normals pts cls v d dir = Ok f.
  Hypothesis LAG : In s nine_names.
  Hypothesis MESH : mesh_ok f.
  Hypothesis DIM : d = element_dim s.
  Variables (half : K) (M : nat -> nat -> K) (shift : nat -> nat -> K).
  Hypothesis HALF : half + half = 1.
  Hypothesis AFF : forall c, (c < List.length (cells f))%nat -> affine_cell half s pts f d c M (shift c).

  Variables (p : problem K V) (sol : list (list K)).
  Hypothesis WF : wf_problem p.
  Hypothesis NC : (0 < p_num_cells p)%nat.
  Hypothesis STD : standard_problem p f.
  Hypothesis NOSURF : boundary_inds_list p = [].
  Hypothesis SOL : sol_ok p [sol].
  Hypothesis IVS : ivs_ok p.
  Hypothesis MAPS : maps_ok (vec f) (dim f) (maps p).

  Let PTS : List.length pts = List.length (points f).
  Proof. now rewrite (built_points _ _ _ _ _ _ _ _ _ _ _ BUILT). Qed.
  Lemma cells_p : List.length (cells f) = p_num_cells p.
  Proof. apply (wf_cells _ WF). rewrite (fes_f p f STD). now left. Qed.

  Lemma grads_uniform c c' q a j : (c < p_num_cells p)%nat -> (c' < p_num_cells p)%nat -> (j < d)%nat ->
    get_shape_grads pts f c q a j = get_shape_grads pts f c' q a j.
  Proof.
    intros Hc Hc' Hj. rewrite <- cells_p in Hc, Hc'. unfold get_shape_grads. rewrite (built_dim _ _ _ _ _ _ _ _ _ _ _ BUILT).
    apply sum_n_ext. intros i Hi. f_equal. apply inv_mat_ext; auto. intros i' j' Hi' Hj'.
    rewrite (jac_aff KR _ _ _ _ _ _ _ _ _ _ _ BUILT LAG MESH DIM pts PTS half M _ c HALF Hc (AFF c Hc)) by auto.
    rewrite (jac_aff KR _ _ _ _ _ _ _ _ _ _ _ BUILT LAG MESH DIM pts PTS half M _ c' HALF Hc' (AFF c' Hc')) by auto. reflexivity.
  Qed.
  Lemma jxw_uniform c q : (c < p_num_cells p)%nat -> get_JxW pts f c q = det_dim d M * quad_weights f q.
  Proof.
    intros Hc. rewrite <- cells_p in Hc. exact (jxw_aff KR _ _ _ _ _ _ _ _ _ _ _ BUILT LAG MESH DIM pts PTS half M _ c HALF Hc (AFF c Hc) q).
  Qed.

  Variables (S : nat -> nat -> nat -> K) (load : nat -> K) (k : nat).
  Hypothesis Hk : (k < vec f)%nat.
  Hypothesis STRESS : forall c q j, (c < p_num_cells p)%nat -> (q < num_quads f)%nat -> (j < d)%nat -> stress p f pts sol c q k j = S q k j.
  Hypothesis LOAD : forall c q, (c < p_num_cells p)%nat -> (q < num_quads f)%nat -> source p f pts sol c q k = load k.

  Lemma term_uniform c a : (c < p_num_cells p)%nat -> volume_term p f pts sol c a k = volume_term p f pts sol 0 a k.
  Proof.
    intros Hc. unfold volume_term. apply sum_n_ext. intros q Hq. rewrite !jxw_uniform by auto. rewrite !LOAD by auto. f_equal. f_equal.
    rewrite (built_dim _ _ _ _ _ _ _ _ _ _ _ BUILT). apply sum_n_ext. intros j Hj. rewrite !STRESS by auto. f_equal. now apply grads_uniform.
  Qed.
  (** the nodal terms of one cell sum up to the load on the cell *)
  Lemma terms_sum : sum_n (num_nodes f) (fun a => volume_term p f pts sol 0 a k)
    = load k * (det_dim d M * sum_n (num_quads f) (quad_weights f)).
  Proof.
    unfold volume_term. rewrite (ProblemFacts.sum_n_swap KR).
    rewrite (sum_n_ext _ _ (fun q => load k * det_dim d M * quad_weights f q)).
    - rewrite (ProblemFacts.sum_n_mul_l KR). ring.
    - intros q Hq. rewrite (ProblemFacts.sum_n_mul_r KR), (ProblemFacts.sum_n_plus KR). rewrite jxw_uniform by auto.
      rewrite (ProblemFacts.sum_n_swap KR). rewrite (built_dim _ _ _ _ _ _ _ _ _ _ _ BUILT).
      rewrite (ProblemFacts.sum_n_zero_ext KR).
      + rewrite (sum_n_ext (num_nodes f) _ (fun a => load k * shape_vals f q a)) by (intros; now rewrite LOAD).
        rewrite (ProblemFacts.sum_n_mul_l KR), (vals_sum KR _ _ _ _ _ _ _ _ _ _ _ BUILT LAG). ring.
      + intros j Hj. rewrite (sum_n_ext _ _ (fun a => S q k j * get_shape_grads pts f 0 q a j)) by (intros; now rewrite STRESS).
        rewrite (ProblemFacts.sum_n_mul_l KR), (phys_grads_sum KF _ _ _ _ _ _ _ _ _ _ _ BUILT LAG DIM) by auto. ring.
  Qed.

  Variable n : nat.
  Hypothesis Hn : (n < List.length (points f))%nat.
  Hypothesis FULL : forall a, (a < num_nodes f)%nat -> exists c0, (c0 < p_num_cells p)%nat /\ cell_node f c0 a = n /\
    forall c, (c < p_num_cells p)%nat -> cell_node f c a = n -> c = c0.

  Lemma patch_entry : exists res, compute_residual sqrtK p [pts] [sol] = Ok [res] /\ shaped (List.length (points f)) (vec f) res /\
    get2 0 res n k = load k * (det_dim d M * sum_n (num_quads f) (quad_weights f)).
  Proof.
    destruct (residual_weak KR sqrtK p f pts sol WF NC STD SOL IVS MAPS) as (res & E & SH & G).
    exists res. split; [exact E|]. split; [exact SH|]. rewrite G by auto. rewrite NOSURF. cbn [List.length]. rewrite (ProblemFacts.sum_n_O).
    rewrite (ProblemFacts.sum_n_swap KR). rewrite (sum_n_ext _ _ (fun a => volume_term p f pts sol 0 a k)).
    - rewrite terms_sum. ring.
    - intros a Ha. destruct (FULL a Ha) as (c0 & H0 & H1 & H2). rewrite (sum_n_single KR _ c0) by (auto; intros c Hc Hne;
        replace (cell_node f c a =? n)%nat with false by (symmetry; apply Nat.eqb_neq; intros X; now apply Hne, H2); reflexivity).
      replace (cell_node f c0 a =? n)%nat with true by (symmetry; now apply Nat.eqb_eq). now apply term_uniform.
  Qed.
End Uniform.

(** ** Rectangle *)
Lemma axis_strict (h : R) i N : (0 < N)%nat -> (i <= N)%nat -> (0 < INR i * h / INR N < h)%R -> (0 < i < N)%nat.
Proof.
  intros HN Hi [A B]. assert (PN : (0 < INR N)%R) by now apply lt_0_INR. split.
  - destruct i; [|lia]. cbn in A. unfold Rdiv in A. rewrite !Rmult_0_l in A. lra.
  - destruct (Nat.eq_dec i N) as [->|]; [|lia]. exfalso. replace (INR N * h / INR N)%R with h in B; [lra|]. field. lra.
Qed.
Lemma axis_strict_inv (h : R) i N : (0 < h)%R -> (0 < i < N)%nat -> (0 < INR i * h / INR N < h)%R.
Proof.
  intros Hh [A B]. assert (PN : (0 < INR N)%R) by (apply lt_0_INR; lia). assert (Pi : (0 < INR i)%R) by (apply lt_0_INR; lia).
  assert (IN : (INR i < INR N)%R) by now apply lt_INR. split.
  - apply Rdiv_lt_0_compat; auto. now apply Rmult_lt_0_compat.
  - apply (Rmult_lt_reg_r (INR N)); auto. unfold Rdiv. rewrite Rmult_assoc, Rinv_l by lra. rewrite Rmult_1_r, Rmult_comm. apply Rmult_lt_compat_l; auto.
Qed.

(** with Dirichlet data on the boundary, zero residual at the interior nodes means zero residual everywhere *)
Lemma patch_solved {V : Type} (d : nat) (sides : nat -> R) (P sol res : list (list Rops)) (f : fe Rops) (p : problem Rops V) :
  points f = P -> wf_problem p -> standard_problem p f -> sol_ok p [sol] -> bcs_ok p -> boundary_held d sides P sol f -> shaped (List.length P) (vec f) res ->
  (forall n k, (n < List.length P)%nat -> (k < vec f)%nat -> interior_node d sides P n -> get2 (@zero Rops) res n k = 0%R) ->
  apply_bc_vec (ravel [res]) (ravel [sol]) p (@one Rops) = repeat (@zero Rops) (List.length P * vec f).
Proof.
  intros PE WF STD SOL BC HELD SH G.
  assert (GS : global_shapes p = [(List.length P, vec f)]) by (unfold global_shapes; rewrite (fes_f p f STD); cbn; now rewrite PE).
    assert (S1 : has_shapes (global_shapes p) [res]).
    { rewrite GS. constructor; [|constructor]. cbn. split; [apply SH|]. apply Forall_forall. exact (proj2 SH). }
    assert (S2 : has_shapes (global_shapes p) [sol]) by (apply sol_shapes_ok; auto).
    pose proof (ravel_length _ _ S1) as L1. pose proof (ravel_length _ _ S2) as L2. rewrite <- all_dofs_total in L1, L2.
    destruct (apply_bc_vec_ring Rops_ring p BC (ravel [res]) (ravel [sol]) (@one Rops) L1 L2) as [L3 AP].
    assert (AD : all_dofs (global_shapes p) = (List.length P * vec f)%nat) by (rewrite GS; unfold all_dofs; cbn; lia).
    apply (list_ext (@zero Rops)); [rewrite L3, repeat_length; exact AD|].
    intros g Hg. rewrite L3 in Hg. destruct (dof_number_surj _ _ Hg) as (w & n & k & Hv & <-).
    rewrite AP by auto. rewrite !(nth_ravel_dof (@zero Rops) (global_shapes p)) by auto.
    assert (w = 0%nat /\ (n < List.length P)%nat /\ (k < vec f)%nat) as (-> & Hn & Hk).
    { destruct Hv as (H1 & H2 & H3). rewrite GS in H1, H2, H3. cbn in H1. assert (w = 0%nat) by lia. subst w. cbn in H2, H3. auto. }
    rewrite (fe_of_f p f STD). cbn [nth]. rewrite nth_repeat.
    destruct (prescribed f n k) as [bv|] eqn:EP.
    - rewrite (proj2 HELD n k bv Hn Hk EP). unfold get2. cbn. ring.
    - destruct (prescribed_constrained f n k) as [PC _].
      assert (NB : ~ ~ interior_node d sides P n).
      { intros NI. destruct (PC (proj1 HELD n k Hn Hk NI)) as [bv' EB]. congruence. }
      assert (INT : interior_node d sides P n).
      { intros i Hi. unfold strictly_between. split.
        - destruct (Rlt_dec 0 (nth i (nth n P []) (@zero Rops))) as [|N1]; auto. exfalso. apply NB. intros X. apply N1, X; auto.
        - destruct (Rlt_dec (nth i (nth n P []) (@zero Rops)) (sides i)) as [|N1]; auto. exfalso. apply NB. intros X. apply N1, X; auto. }
      exact (G n k Hn Hk INT).
Qed.

Section RectPatch.
  Context {V : Type} (Nx Ny : nat) (Lx Ly : R) (HX : (0 < Nx)%nat) (HY : (0 < Ny)%nat).
  Let M := rectangle_mesh Nx Ny Lx Ly.
  Context (sqrtK : R -> R) (quad fquad : list (list Rops) * list Rops) (normals : nat -> nat -> Rops) (v : nat)
    (dir : option (list (location_fn Rops) * list nat * list (list Rops -> Rops))) (f : fe Rops).
  Hypothesis BUILT : fe_init (K := Rops) sqrtK "QUAD4" quad fquad normals (m_points M) (m_cells M) v 2 dir = Ok f.

  Lemma rect_full i j a : (0 < i < Nx)%nat -> (0 < j < Ny)%nat -> (a < 4)%nat -> exists c0, (c0 < Nx * Ny)%nat /\ cell_node f c0 a = (i * (Ny + 1) + j)%nat /\
    forall c, (c < Nx * Ny)%nat -> cell_node f c a = (i * (Ny + 1) + j)%nat -> c = c0.
  Proof.
    intros Hi Hj Ha.
    assert (CN : forall i' j', (i' < Nx)%nat -> (j' < Ny)%nat -> cell_node f (i' * Ny + j') a = nth a (quad_of Ny i' j') 0%nat).
    { intros i' j' Hi' Hj'. unfold cell_node. rewrite (built_cells _ _ _ _ _ _ _ _ _ _ _ BUILT). unfold M. now rewrite rect_cell. }
    assert (Q : forall i' j', nth a (quad_of Ny i' j') 0%nat = ((match a with 1 | 2 => i' + 1 | _ => i' end) * (Ny + 1) + (match a with 2 | 3 => j' + 1 | _ => j' end))%nat).
    { intros. unfold quad_of. destruct a as [|[|[|[|a]]]]; cbn; lia. }
    set (i0 := match a with 1 | 2 => (i - 1)%nat | _ => i end). set (j0 := match a with 2 | 3 => (j - 1)%nat | _ => j end).
    assert (B0 : (i0 < Nx)%nat) by (subst i0; destruct a as [|[|[|[|a]]]]; lia). assert (B1 : (j0 < Ny)%nat) by (subst j0; destruct a as [|[|[|[|a]]]]; lia).
    exists (i0 * Ny + j0)%nat. split; [now apply add_lt|]. split.
    - rewrite CN, Q by auto. subst i0 j0. destruct a as [|[|[|[|a]]]]; nia.
    - intros c Hc E. destruct (div_mod_lt _ _ _ Hc) as (C1 & C2 & C3). rewrite C3 in E |- *. rewrite CN, Q in E by auto.
      apply index_inj in E; [|destruct a as [|[|[|[|a]]]]; lia|lia]. destruct E as [E1 E2].
      replace (c / Ny)%nat with i0 by (subst i0; destruct a as [|[|[|[|a]]]]; lia). replace (c mod Ny)%nat with j0 by (subst j0; destruct a as [|[|[|[|a]]]]; lia). reflexivity.
  Qed.
  Definition rect_sides (i : nat) : R := match i with 0%nat => Lx | _ => Ly end.
  Lemma rect_interior n : (n < List.length (m_points M))%nat -> interior_node 2 rect_sides (m_points M) n ->
    exists i j, (0 < i < Nx)%nat /\ (0 < j < Ny)%nat /\ n = (i * (Ny + 1) + j)%nat.
  Proof.
    intros Hn H. destruct (rect_point_inv Nx Ny Lx Ly HX HY n Hn) as (i & j & Hi & Hj & ->).
    exists i, j. pose proof (H 0%nat ltac:(lia)) as H0. pose proof (H 1%nat ltac:(lia)) as H1. unfold strictly_between, M in H0, H1.
    rewrite rect_point in H0, H1 by auto. cbn in H0, H1. split; [|split]; auto.
    - eapply axis_strict; [exact HX|exact Hi|exact H0].
    - eapply axis_strict; [exact HY|exact Hj|exact H1].
  Qed.

  Variables (p : problem Rops V) (sol : list (list Rops)).
  Hypothesis WF : wf_problem p.
  Hypothesis STD : standard_problem p f.
  Hypothesis NOSURF : boundary_inds_list p = [].
  Hypothesis SOL : sol_ok p [sol].
  Hypothesis IVS : ivs_ok p.
  Hypothesis MAPS : maps_ok (vec f) 2 (maps p).
  Hypothesis HOM : homogeneous p.
  Variables (A : nat -> nat -> Rops) (b : nat -> Rops).
  Hypothesis AFFINE : samples 2 (vec f) A b (m_points M) sol.
  Hypothesis WEIGHTS : forall q, (q < num_quads f)%nat -> quad_weights f q <> 0%R.
  Hypothesis LX : Lx <> 0%R.
  Hypothesis LY : Ly <> 0%R.
  Variable load : nat -> Rops.
  Hypothesis LOAD : uniform_load p f (m_points M) sol load.

  Lemma rect_p_cells : p_num_cells p = (Nx * Ny)%nat.
  Proof. rewrite <- (cells_p f p WF STD). exact (rect_num_cells Nx Ny Lx Ly HX HY _ _ _ _ _ _ f BUILT). Qed.
  Lemma rect_patch : exists res, compute_residual sqrtK p [m_points M] [sol] = Ok [res] /\ shaped (List.length (m_points M)) (vec f) res /\
    forall n k, (n < List.length (m_points M))%nat -> (k < vec f)%nat -> interior_node 2 rect_sides (m_points M) n ->
    get2 (@zero Rops) res n k = (load k * (Lx / INR Nx * (Ly / INR Ny)) * sum_n (K := Rops) (num_quads f) (quad_weights f))%R.
  Proof.
    assert (NC : (0 < p_num_cells p)%nat) by (rewrite rect_p_cells; nia).
    assert (DIM : dim f = 2%nat) by exact (built_dim _ _ _ _ _ _ _ _ _ _ _ BUILT).
    assert (MAPS' : maps_ok (vec f) (dim f) (maps p)) by now rewrite DIM.
    assert (PE : points f = m_points M) by exact (built_points _ _ _ _ _ _ _ _ _ _ _ BUILT).
    destruct (residual_weak Rops_ring sqrtK p f (m_points M) sol WF NC STD SOL IVS MAPS') as (res & E & SH & _).
    rewrite PE in SH. exists res. split; [exact E|]. split; [exact SH|]. intros n k Hn Hk INT.
    destruct (rect_interior n Hn INT) as (i & j & Hi & Hj & Hnn).
    assert (H2 : (@add Rops (/ 2) (/ 2))%R = 1%R) by (cbn; lra).
    assert (LEN : List.length (cells f) = (Nx * Ny)%nat) by exact (rect_num_cells Nx Ny Lx Ly HX HY _ _ _ _ _ _ f BUILT).
    assert (AFF : forall c, (c < List.length (cells f))%nat -> affine_cell (K := Rops) (/ 2)%R "QUAD4" (m_points M) f 2 c
       (fun i j => if (i =? j)%nat then (if (i =? 0)%nat then Lx / INR Nx else Ly / INR Ny)%R else 0%R)
       (fun i => if (i =? 0)%nat then INR (c / Ny) * (Lx / INR Nx) else INR (c mod Ny) * (Ly / INR Ny))%R).
    { intros c Hc. rewrite LEN in Hc. exact (rect_affine Nx Ny Lx Ly HX HY _ _ _ _ _ _ f BUILT c Hc). }
    assert (GR : forall c q k j, (c < Nx * Ny)%nat -> (q < num_quads f)%nat -> (k < vec f)%nat -> (j < 2)%nat -> sol_to_grad (m_points M) f sol c q k j = A k j).
    { intros c q k' j' Hc Hq Hk' Hj'.
      apply (grad_affine Rops_field _ _ _ _ _ _ _ _ _ _ _ BUILT (or_introl eq_refl) (rect_mesh_ok Nx Ny Lx Ly HX HY _ _ _ _ _ _ f BUILT) eq_refl (m_points M)
        ltac:(now rewrite PE) A b); auto; [now rewrite LEN|].
      intros Z. apply (eq_trans (eq_sym (rect_JxW Nx Ny Lx Ly HX HY _ _ _ _ _ _ f BUILT c q Hc))) in Z. revert Z. change (@zero Rops) with 0%R.
      repeat apply Rmult_integral_contrapositive_currified; auto; apply Rinv_neq_0_compat, not_0_INR; lia. }
    set (S q k j := match tensor_map (maps p) with Some tm => tm A (iv_at p 0 q) k j | None => @zero Rops end).
    destruct (patch_entry Rops_field (V := V) sqrtK "QUAD4" quad fquad normals (m_points M) (m_cells M) v 2 dir f BUILT (or_introl eq_refl)
      (rect_mesh_ok Nx Ny Lx Ly HX HY _ _ _ _ _ _ f BUILT) eq_refl (/ 2)%R _ _ H2 AFF p sol WF NC STD NOSURF SOL IVS MAPS' S load k Hk) with (n := n) as (res' & E' & _ & G).
    - intros c q j' Hc Hq Hj'. rewrite rect_p_cells in Hc. unfold stress, S. destruct (tensor_map (maps p)) as [tm|] eqn:ET; auto.
      rewrite (HOM c 0%nat q) by (rewrite rect_p_cells; nia).
      apply (proj1 MAPS tm ET); auto.
    - intros c q Hc Hq. now apply LOAD.
    - now rewrite PE.
    - intros a Ha. rewrite (built_nodes _ _ _ _ _ _ _ _ _ _ _ BUILT) in Ha. subst n. rewrite rect_p_cells. now apply rect_full.
    - rewrite E in E'. injection E' as <-. eapply eq_trans; [exact G|]. unfold det_dim, det2. cbn. ring.
  Qed.

  (** ... with Dirichlet data on the boundary: the affine field solves the discrete problem *)
  Hypothesis BC : bcs_ok p.
  Hypothesis HELD : boundary_held 2 rect_sides (m_points M) sol f.
  Hypothesis FREE : forall k, (k < vec f)%nat -> load k = 0%R.
  Lemma rect_solved : exists res, compute_residual sqrtK p [m_points M] [sol] = Ok [res] /\
    apply_bc_vec (ravel [res]) (ravel [sol]) p (@one Rops) = repeat (@zero Rops) (List.length (m_points M) * vec f).
  Proof.
    destruct rect_patch as (res & E & SH & G). exists res. split; [exact E|].
    assert (PE : points f = m_points M) by exact (built_points _ _ _ _ _ _ _ _ _ _ _ BUILT).
    eapply patch_solved; eauto. intros n k Hn Hk INT. rewrite (G n k Hn Hk INT), FREE by auto. cbn. ring.
  Qed.
End RectPatch.

Section BoxPatch.
  Context {V : Type} (Nx Ny Nz : nat) (Lx Ly Lz : R) (HX : (0 < Nx)%nat) (HY : (0 < Ny)%nat) (HZ : (0 < Nz)%nat).
  Let M := box_mesh Nx Ny Nz Lx Ly Lz.
  Context (sqrtK : R -> R) (quad fquad : list (list Rops) * list Rops) (normals : nat -> nat -> Rops) (v : nat)
    (dir : option (list (location_fn Rops) * list nat * list (list Rops -> Rops))) (f : fe Rops).
  Hypothesis BUILT : fe_init (K := Rops) sqrtK "HEX8" quad fquad normals (m_points M) (m_cells M) v 3 dir = Ok f.

  Lemma box_full i j l a : (0 < i < Nx)%nat -> (0 < j < Ny)%nat -> (0 < l < Nz)%nat -> (a < 8)%nat -> exists c0, (c0 < Nx * Ny * Nz)%nat /\
    cell_node f c0 a = ((i * (Ny + 1) + j) * (Nz + 1) + l)%nat /\
    forall c, (c < Nx * Ny * Nz)%nat -> cell_node f c a = ((i * (Ny + 1) + j) * (Nz + 1) + l)%nat -> c = c0.
  Proof.
    intros Hi Hj Hl Ha.
    assert (CN : forall i' j' l', (i' < Nx)%nat -> (j' < Ny)%nat -> (l' < Nz)%nat -> cell_node f ((i' * Ny + j') * Nz + l') a = nth a (hex_of Ny Nz i' j' l') 0%nat).
    { intros i' j' l' Hi' Hj' Hl'. unfold cell_node. rewrite (built_cells _ _ _ _ _ _ _ _ _ _ _ BUILT). unfold M. now rewrite box_cell. }
    assert (Q : forall i' j' l', nth a (hex_of Ny Nz i' j' l') 0%nat = (((match a with 1 | 2 | 5 | 6 => i' + 1 | _ => i' end) * (Ny + 1)
      + (match a with 2 | 3 | 6 | 7 => j' + 1 | _ => j' end)) * (Nz + 1) + (match a with 4 | 5 | 6 | 7 => l' + 1 | _ => l' end))%nat).
    { intros. unfold hex_of. destruct a as [|[|[|[|[|[|[|[|a]]]]]]]]; try lia; cbn [nth]; ring. }
    set (i0 := match a with 1 | 2 | 5 | 6 => (i - 1)%nat | _ => i end). set (j0 := match a with 2 | 3 | 6 | 7 => (j - 1)%nat | _ => j end).
    set (l0 := match a with 4 | 5 | 6 | 7 => (l - 1)%nat | _ => l end).
    assert (B0 : (i0 < Nx)%nat) by (subst i0; destruct a as [|[|[|[|[|[|[|[|a]]]]]]]]; lia).
    assert (B1 : (j0 < Ny)%nat) by (subst j0; destruct a as [|[|[|[|[|[|[|[|a]]]]]]]]; lia).
    assert (B2 : (l0 < Nz)%nat) by (subst l0; destruct a as [|[|[|[|[|[|[|[|a]]]]]]]]; lia).
    exists ((i0 * Ny + j0) * Nz + l0)%nat. split; [apply add_lt; [now apply add_lt|auto]|]. split.
    - rewrite CN, Q by auto.
      f_equal; [f_equal; f_equal; [f_equal|]|]; [subst i0|subst j0|subst l0]; destruct a as [|[|[|[|[|[|[|[|a]]]]]]]]; lia.
    - intros c Hc E. destruct (div_mod_lt _ _ _ Hc) as (C1 & C2 & C3). destruct (div_mod_lt _ _ _ C1) as (D1 & D2 & D3).
      rewrite C3, D3 in E. rewrite C3 at 1. rewrite D3 at 1. rewrite CN, Q in E by auto.
      apply index_inj in E; [|destruct a as [|[|[|[|[|[|[|[|a]]]]]]]]; lia|lia]. destruct E as [E E3].
      apply index_inj in E; [|destruct a as [|[|[|[|[|[|[|[|a]]]]]]]]; lia|lia]. destruct E as [E1 E2].
      replace (c / Nz / Ny)%nat with i0 by (subst i0; destruct a as [|[|[|[|[|[|[|[|a]]]]]]]]; lia).
      replace ((c / Nz) mod Ny)%nat with j0 by (subst j0; destruct a as [|[|[|[|[|[|[|[|a]]]]]]]]; lia).
      replace (c mod Nz)%nat with l0 by (subst l0; destruct a as [|[|[|[|[|[|[|[|a]]]]]]]]; lia). reflexivity.
  Qed.
  Definition box_sides (i : nat) : R := match i with 0%nat => Lx | 1%nat => Ly | _ => Lz end.
  Lemma box_interior n : (n < List.length (m_points M))%nat -> interior_node 3 box_sides (m_points M) n ->
    exists i j l, (0 < i < Nx)%nat /\ (0 < j < Ny)%nat /\ (0 < l < Nz)%nat /\ n = ((i * (Ny + 1) + j) * (Nz + 1) + l)%nat.
  Proof.
    intros Hn H. destruct (box_point_inv Nx Ny Nz Lx Ly Lz HX HY HZ n Hn) as (i & j & l & Hi & Hj & Hl & ->).
    exists i, j, l. pose proof (H 0%nat ltac:(lia)) as H0. pose proof (H 1%nat ltac:(lia)) as H1. pose proof (H 2%nat ltac:(lia)) as H2.
    unfold strictly_between, M in H0, H1, H2. rewrite box_point in H0, H1, H2 by auto. cbn in H0, H1, H2. split; [|split; [|split]]; auto.
    - eapply axis_strict; [exact HX|exact Hi|exact H0].
    - eapply axis_strict; [exact HY|exact Hj|exact H1].
    - eapply axis_strict; [exact HZ|exact Hl|exact H2].
  Qed.

  Variables (p : problem Rops V) (sol : list (list Rops)).
  Hypothesis WF : wf_problem p.
  Hypothesis STD : standard_problem p f.
  Hypothesis NOSURF : boundary_inds_list p = [].
  Hypothesis SOL : sol_ok p [sol].
  Hypothesis IVS : ivs_ok p.
  Hypothesis MAPS : maps_ok (vec f) 3 (maps p).
  Hypothesis HOM : homogeneous p.
  Variables (A : nat -> nat -> Rops) (b : nat -> Rops).
  Hypothesis AFFINE : samples 3 (vec f) A b (m_points M) sol.
  Hypothesis WEIGHTS : forall q, (q < num_quads f)%nat -> quad_weights f q <> 0%R.
  Hypothesis LX : Lx <> 0%R.
  Hypothesis LY : Ly <> 0%R.
  Hypothesis LZ : Lz <> 0%R.
  Variable load : nat -> Rops.
  Hypothesis LOAD : uniform_load p f (m_points M) sol load.

  Lemma box_p_cells : p_num_cells p = (Nx * Ny * Nz)%nat.
  Proof. rewrite <- (cells_p f p WF STD). exact (box_num_cells Nx Ny Nz Lx Ly Lz HX HY HZ _ _ _ _ _ _ f BUILT). Qed.
  Lemma box_patch : exists res, compute_residual sqrtK p [m_points M] [sol] = Ok [res] /\ shaped (List.length (m_points M)) (vec f) res /\
    forall n k, (n < List.length (m_points M))%nat -> (k < vec f)%nat -> interior_node 3 box_sides (m_points M) n ->
    get2 (@zero Rops) res n k = (load k * (Lx / INR Nx * (Ly / INR Ny) * (Lz / INR Nz)) * sum_n (K := Rops) (num_quads f) (quad_weights f))%R.
  Proof.
    assert (NC : (0 < p_num_cells p)%nat) by (rewrite box_p_cells; nia).
    assert (DIM : dim f = 3%nat) by exact (built_dim _ _ _ _ _ _ _ _ _ _ _ BUILT).
    assert (MAPS' : maps_ok (vec f) (dim f) (maps p)) by now rewrite DIM.
    assert (PE : points f = m_points M) by exact (built_points _ _ _ _ _ _ _ _ _ _ _ BUILT).
    destruct (residual_weak Rops_ring sqrtK p f (m_points M) sol WF NC STD SOL IVS MAPS') as (res & E & SH & _).
    rewrite PE in SH. exists res. split; [exact E|]. split; [exact SH|]. intros n k Hn Hk INT.
    destruct (box_interior n Hn INT) as (i & j & l & Hi & Hj & Hl & Hnn).
    assert (LAG : In "HEX8"%string nine_names) by (cbn; tauto).
    assert (H2 : (@add Rops (/ 2) (/ 2))%R = 1%R) by (cbn; lra).
    assert (LEN : List.length (cells f) = (Nx * Ny * Nz)%nat) by exact (box_num_cells Nx Ny Nz Lx Ly Lz HX HY HZ _ _ _ _ _ _ f BUILT).
    assert (AFF : forall c, (c < List.length (cells f))%nat -> affine_cell (K := Rops) (/ 2)%R "HEX8" (m_points M) f 3 c
      (fun i j => if (i =? j)%nat then match i with 0%nat => Lx / INR Nx | 1%nat => Ly / INR Ny | _ => Lz / INR Nz end else 0)%R
      (fun i => match i with 0%nat => INR (c / Nz / Ny) * (Lx / INR Nx) | 1%nat => INR ((c / Nz) mod Ny) * (Ly / INR Ny) | _ => INR (c mod Nz) * (Lz / INR Nz) end)%R).
    { intros c Hc. rewrite LEN in Hc. exact (box_affine Nx Ny Nz Lx Ly Lz HX HY HZ _ _ _ _ _ _ f BUILT c Hc). }
    assert (GR : forall c q k j, (c < Nx * Ny * Nz)%nat -> (q < num_quads f)%nat -> (k < vec f)%nat -> (j < 3)%nat -> sol_to_grad (m_points M) f sol c q k j = A k j).
    { intros c q k' j' Hc Hq Hk' Hj'.
      apply (grad_affine Rops_field _ _ _ _ _ _ _ _ _ _ _ BUILT LAG (box_mesh_ok Nx Ny Nz Lx Ly Lz HX HY HZ _ _ _ _ _ _ f BUILT) eq_refl (m_points M)
        ltac:(now rewrite PE) A b); auto; [now rewrite LEN|].
      intros Z. apply (eq_trans (eq_sym (box_JxW Nx Ny Nz Lx Ly Lz HX HY HZ _ _ _ _ _ _ f BUILT c q Hc))) in Z. revert Z. change (@zero Rops) with 0%R.
      repeat apply Rmult_integral_contrapositive_currified; auto; apply Rinv_neq_0_compat, not_0_INR; lia. }
    set (S q k j := match tensor_map (maps p) with Some tm => tm A (iv_at p 0 q) k j | None => @zero Rops end).
    destruct (patch_entry Rops_field (V := V) sqrtK "HEX8" quad fquad normals (m_points M) (m_cells M) v 3 dir f BUILT LAG
      (box_mesh_ok Nx Ny Nz Lx Ly Lz HX HY HZ _ _ _ _ _ _ f BUILT) eq_refl (/ 2)%R _ _ H2 AFF p sol WF NC STD NOSURF SOL IVS MAPS' S load k Hk) with (n := n) as (res' & E' & _ & G).
    - intros c q j' Hc Hq Hj'. rewrite box_p_cells in Hc. unfold stress, S. destruct (tensor_map (maps p)) as [tm|] eqn:ET; auto.
      rewrite (HOM c 0%nat q) by (rewrite box_p_cells; nia).
      apply (proj1 MAPS tm ET); auto.
    - intros c q Hc Hq. now apply LOAD.
    - now rewrite PE.
    - intros a Ha. rewrite (built_nodes _ _ _ _ _ _ _ _ _ _ _ BUILT) in Ha. subst n. rewrite box_p_cells. now apply box_full.
    - rewrite E in E'. injection E' as <-. eapply eq_trans; [exact G|]. unfold det_dim, det3. cbn. ring.
  Qed.

  (** ... with Dirichlet data on the boundary: the affine field solves the discrete problem *)
  Hypothesis BC : bcs_ok p.
  Hypothesis HELD : boundary_held 3 box_sides (m_points M) sol f.
  Hypothesis FREE : forall k, (k < vec f)%nat -> load k = 0%R.
  Lemma box_solved : exists res, compute_residual sqrtK p [m_points M] [sol] = Ok [res] /\
    apply_bc_vec (ravel [res]) (ravel [sol]) p (@one Rops) = repeat (@zero Rops) (List.length (m_points M) * vec f).
  Proof.
    destruct box_patch as (res & E & SH & G). exists res. split; [exact E|].
    assert (PE : points f = m_points M) by exact (built_points _ _ _ _ _ _ _ _ _ _ _ BUILT).
    eapply patch_solved; eauto. intros n k Hn Hk INT. rewrite (G n k Hn Hk INT), FREE by auto. cbn. ring.
  Qed.
End BoxPatch.

(** ** From the constructor *)
Lemma dirichlet_value_hold (pts : list (list Rops)) d nvec A b g n j : (n < List.length pts)%nat -> (j < nvec)%nat ->
  dirichlet_value pts (repeat (Loc1 g) nvec) (seq 0 nvec) (map (fun k pt => affine (K := Rops) d A b (fun i => nth i pt (@zero Rops)) k) (seq 0 nvec)) n j
  = if g (nth n pts []) then Some (affine (K := Rops) d A b (fun i => nth i (nth n pts []) (@zero Rops)) j) else None.
Proof.
  intros Hn Hj. unfold dirichlet_value. rewrite repeat_length. replace (n <? List.length pts)%nat with true by (symmetry; now apply Nat.ltb_lt). cbn [andb].
  rewrite (fold_left_ext_in _ (fun acc i => if ((i =? j) && g (nth n pts []))%bool then Some (affine (K := Rops) d A b (fun i => nth i (nth n pts []) (@zero Rops)) j) else acc)).
  2:{ intros i acc Hi. apply in_seq in Hi. rewrite seq_nth by lia. cbn [Nat.add].
      rewrite (nth_indep (repeat (Loc1 g) nvec) _ (Loc1 g)) by (rewrite repeat_length; lia). rewrite nth_repeat. cbn [loc_holds].
      destruct (i =? j)%nat eqn:E; [|reflexivity]. apply Nat.eqb_eq in E as ->. cbn [andb].
      rewrite (nth_map_in _ _ _ 0%nat) by (rewrite seq_length; lia). rewrite seq_nth by lia. reflexivity. }
  destruct (g (nth n pts [])).
  - replace nvec with (j + S (nvec - S j))%nat by lia. rewrite seq_app, fold_left_app. cbn [seq fold_left]. rewrite Nat.eqb_refl. cbn [andb Nat.add].
    assert (G : forall l acc, (forall i, In i l -> i <> j) -> fold_left (fun (acc : option Rops) i => if ((i =? j) && true)%bool
      then Some (affine (K := Rops) d A b (fun i => nth i (nth n pts []) (@zero Rops)) j) else acc) l acc = acc).
    { induction l as [|i l IH]; intros acc H; [reflexivity|]. cbn [fold_left].
      replace (i =? j)%nat with false by (symmetry; apply Nat.eqb_neq, H; now left). cbn [andb]. apply IH. intros; apply H; now right. }
    rewrite !G; [reflexivity|]. intros i Hi. apply in_seq in Hi. lia.
  - assert (G : forall l, fold_left (fun (acc : option Rops) i => if ((i =? j) && false)%bool
      then Some (affine (K := Rops) d A b (fun i => nth i (nth n pts []) (@zero Rops)) j) else acc) l None = None).
    { induction l as [|i l IH]; [reflexivity|]. cbn [fold_left]. rewrite andb_false_r. exact IH. }
    apply G.
Qed.

Lemma affine_values_sol d nvec A b pts : samples (K := Rops) d nvec A b pts (affine_values d nvec A b pts).
Proof.
  split; [apply map_length|]. intros n k Hn Hk. unfold affine_values. rewrite (nth_map_in _ _ _ []) by auto.
  rewrite (nth_map_in _ _ _ 0%nat) by (rewrite seq_length; auto). now rewrite seq_nth by auto.
Qed.

Section Constructed.
  Context {V : Type} (sqrtK : Rops -> Rops) (s : string) (quad fquad : list (list Rops) * list Rops) (normals : nat -> nat -> Rops)
    (pts : list (list Rops)) (cls : list (list nat)) (nvec d : nat) (A : nat -> nat -> Rops) (b : nat -> Rops) (g : list Rops -> bool)
    (tm : (nat -> nat -> Rops) -> list V -> nat -> nat -> Rops) (p : problem Rops V).
  Lemma constructed : problem_init sqrtK d [mkVar pts cls nvec s quad fquad normals (hold_affine d nvec A b g)] None (only_tensor_map tm) (fun x y => (x, y)) = Ok p ->
    exists f, fe_init sqrtK s quad fquad normals pts cls nvec d (hold_affine d nvec A b g) = Ok f /\ p = mkProblem [f] [] (only_tensor_map tm) [] [].
  Proof.
    intros INIT. unfold problem_init, make_fes in INIT. cbn [mapM va_ele_type va_quad va_fquad va_normals va_points va_cells va_vec va_bc] in INIT.
    destruct (fe_init _ _ _ _ _ _ _ _ _ _) as [f|e]; [|discriminate]. exists f. split; [reflexivity|].
    cbn in INIT. rewrite Nat.eqb_refl in INIT. cbn in INIT. now injection INIT as <-.
  Qed.
  Variable f : fe Rops.
  Hypothesis BUILT : fe_init sqrtK s quad fquad normals pts cls nvec d (hold_affine d nvec A b g) = Ok f.
  Lemma built_bc : dirichlet_ok (points f) (repeat (Loc1 g) nvec) (seq 0 nvec) (map (fun k pt => affine (K := Rops) d A b (fun i => nth i pt (@zero Rops)) k) (seq 0 nvec))
     (node_inds_list f) (vec_inds_list f) (vals_list f).
  Proof.
    unfold fe_init in BUILT. destruct (get_elements s) as [info|]; [|discriminate]. destruct (reorder_inds _ _) as [fi|]; [|discriminate].
    destruct (dirichlet_spec (K := Rops) pts (repeat (Loc1 g) nvec) (seq 0 nvec) (map (fun k pt => affine (K := Rops) d A b (fun i => nth i pt (@zero Rops)) k) (seq 0 nvec))) as (_ & _ & D).
    destruct D as (ns & vs & ws & E & D); [now rewrite seq_length, repeat_length|now rewrite map_length, seq_length, repeat_length| |].
    { clear. induction nvec as [|n IH]; [reflexivity|exact IH]. }
    unfold hold_affine in BUILT. rewrite E in BUILT. injection BUILT as <-. exact D.
  Qed.
  Hypothesis PE : p = mkProblem [f] [] (only_tensor_map tm) [] [].
  Lemma constructed_wf : mesh_ok f -> wf_problem p.
  Proof.
    intros MESH. subst p. constructor; cbn.
    - intros f0 [<-|[]]. reflexivity.
    - intros f0 cell [<-|[]] Hc. apply In_nth with (d := []) in Hc as (c & Hc & <-). now apply MESH.
    - intros f0 cell n [<-|[]] Hc Hn. apply In_nth with (d := []) in Hc as (c & Hc & <-). now apply (MESH c Hc).
    - intros b' c fc [].
  Qed.
  Lemma constructed_std : standard_problem p f.
  Proof. subst p. repeat split. left. discriminate. Qed.
  Lemma constructed_ivs : ivs_ok p.
  Proof. subst p. split; [intros iv []|]. split; [reflexivity|]. intros x iv Hs. cbn in Hs. lia. Qed.
  Lemma constructed_sol : sol_ok p [affine_values d nvec A b pts].
  Proof.
    subst p. split; [reflexivity|]. intros w Hw. cbn in Hw. replace w with 0%nat by lia. unfold fe_of. cbn [nth fes].
    rewrite (built_points _ _ _ _ _ _ _ _ _ _ _ BUILT), (built_vec _ _ _ _ _ _ _ _ _ _ _ BUILT). split; [apply map_length|].
    intros row Hr. apply in_map_iff in Hr as (pt & <- & _). now rewrite map_length, seq_length.
  Qed.
  Lemma constructed_maps dd : tensor_map_ok nvec dd tm -> maps_ok (vec f) dd (maps p).
  Proof.
    intros H. rewrite (built_vec _ _ _ _ _ _ _ _ _ _ _ BUILT). subst p. cbn. split; [|split]; [intros tm' E; now injection E as <-|discriminate|discriminate].
  Qed.
  Lemma constructed_bcs : bcs_ok p.
  Proof. subst p. intros f0 [<-|[]]. exact (proj1 (dirichlet_prescribed f _ _ _ built_bc)). Qed.
  Lemma constructed_held sides : (forall n, (n < List.length pts)%nat -> ~ interior_node d sides pts n -> g (nth n pts []) = true) ->
    boundary_held d sides pts (affine_values d nvec A b pts) f.
  Proof.
    intros HG. pose proof (proj1 (proj2 (dirichlet_prescribed f _ _ _ built_bc))) as PR.
    rewrite (built_points _ _ _ _ _ _ _ _ _ _ _ BUILT) in PR. split.
    - intros n k Hn Hk NI. rewrite (built_vec _ _ _ _ _ _ _ _ _ _ _ BUILT) in Hk. apply prescribed_constrained. rewrite PR, dirichlet_value_hold by auto.
      rewrite HG by auto. eauto.
    - intros n k bv Hn Hk E. rewrite (built_vec _ _ _ _ _ _ _ _ _ _ _ BUILT) in Hk. rewrite PR, dirichlet_value_hold in E by auto.
      rewrite (proj2 (affine_values_sol d nvec A b pts) n k Hn Hk). destruct (g _); now inversion E.
  Qed.
End Constructed.

Lemma rect_constructed {V : Type} Nx Ny Lx Ly (HX : (0 < Nx)%nat) (HY : (0 < Ny)%nat) (LX : Lx <> 0%R) (LY : Ly <> 0%R) :
  let P := m_points (rectangle_mesh Nx Ny Lx Ly) in
  forall sqrtK quad fquad normals v A b g (tm : (nat -> nat -> Rops) -> list V -> nat -> nat -> Rops) (p : problem Rops V),
  problem_init sqrtK 2 [mkVar P (m_cells (rectangle_mesh Nx Ny Lx Ly)) v "QUAD4" quad fquad normals (hold_affine 2 v A b g)] None (only_tensor_map tm) (fun x y => (x, y)) = Ok p ->
  (forall q, (q < List.length (fst quad))%nat -> nth q (snd quad) (@zero Rops) <> 0%R) -> tensor_map_ok v 2 tm ->
  (forall n, (n < List.length P)%nat -> ~ interior_node 2 (rect_sides Lx Ly) P n -> g (nth n P []) = true) ->
  exists res, compute_residual sqrtK p [P] [affine_values 2 v A b P] = Ok [res] /\
    apply_bc_vec (ravel [res]) (ravel [affine_values 2 v A b P]) p (@one Rops) = repeat (@zero Rops) (List.length P * v).
Proof.
  intros P sqrtK quad fquad normals v A b g tm p INIT W TM G.
  destruct (constructed _ _ _ _ _ _ _ _ _ _ _ _ _ _ INIT) as (f & B & PE).
  pose proof (constructed_wf _ _ f PE (rect_mesh_ok Nx Ny Lx Ly HX HY _ _ _ _ _ _ f B)) as WF.
  pose proof (constructed_std _ _ f PE) as STD.
  assert (Ev : vec f = v) by exact (built_vec _ _ _ _ _ _ _ _ _ _ _ B).
  replace (List.length P * v)%nat with (List.length P * vec f)%nat by now rewrite Ev.
  eapply (rect_solved Nx Ny Lx Ly HX HY sqrtK quad fquad normals v (hold_affine 2 v A b g) f B p (affine_values 2 v A b P) WF STD) with (A := A) (b := b) (load := fun _ => 0%R); auto.
  - now subst p.
  - exact (constructed_sol _ _ _ _ _ _ _ _ _ _ _ _ _ _ f B PE).
  - exact (constructed_ivs _ _ f PE).
  - exact (constructed_maps _ _ _ _ _ _ _ _ _ _ _ _ _ _ f B PE 2 TM).
  - subst p. intros c c' q _ _. reflexivity.
  - rewrite Ev. apply affine_values_sol.
  - intros q Hq. rewrite (built_quads _ _ _ _ _ _ _ _ _ _ _ B) in Hq. intros Z. apply (W q Hq). rewrite <- Z. symmetry. exact (built_weights _ _ _ _ _ _ _ _ _ _ _ B q).
  - subst p. intros c q k _ _ _. reflexivity.
  - exact (constructed_bcs _ _ _ _ _ _ _ _ _ _ _ _ _ _ f B PE).
  - exact (constructed_held _ _ _ _ _ _ _ _ _ _ _ _ f B (rect_sides Lx Ly) G).
Qed.

Lemma box_constructed {V : Type} Nx Ny Nz Lx Ly Lz (HX : (0 < Nx)%nat) (HY : (0 < Ny)%nat) (HZ : (0 < Nz)%nat) (LX : Lx <> 0%R) (LY : Ly <> 0%R) (LZ : Lz <> 0%R) :
  let P := m_points (box_mesh Nx Ny Nz Lx Ly Lz) in
  forall sqrtK quad fquad normals v A b g (tm : (nat -> nat -> Rops) -> list V -> nat -> nat -> Rops) (p : problem Rops V),
  problem_init sqrtK 3 [mkVar P (m_cells (box_mesh Nx Ny Nz Lx Ly Lz)) v "HEX8" quad fquad normals (hold_affine 3 v A b g)] None (only_tensor_map tm) (fun x y => (x, y)) = Ok p ->
  (forall q, (q < List.length (fst quad))%nat -> nth q (snd quad) (@zero Rops) <> 0%R) -> tensor_map_ok v 3 tm ->
  (forall n, (n < List.length P)%nat -> ~ interior_node 3 (box_sides Lx Ly Lz) P n -> g (nth n P []) = true) ->
  exists res, compute_residual sqrtK p [P] [affine_values 3 v A b P] = Ok [res] /\
    apply_bc_vec (ravel [res]) (ravel [affine_values 3 v A b P]) p (@one Rops) = repeat (@zero Rops) (List.length P * v).
Proof.
  intros P sqrtK quad fquad normals v A b g tm p INIT W TM G.
  destruct (constructed _ _ _ _ _ _ _ _ _ _ _ _ _ _ INIT) as (f & B & PE).
  pose proof (constructed_wf _ _ f PE (box_mesh_ok Nx Ny Nz Lx Ly Lz HX HY HZ _ _ _ _ _ _ f B)) as WF.
  pose proof (constructed_std _ _ f PE) as STD.
  assert (Ev : vec f = v) by exact (built_vec _ _ _ _ _ _ _ _ _ _ _ B).
  replace (List.length P * v)%nat with (List.length P * vec f)%nat by now rewrite Ev.
  eapply (box_solved Nx Ny Nz Lx Ly Lz HX HY HZ sqrtK quad fquad normals v (hold_affine 3 v A b g) f B p (affine_values 3 v A b P) WF STD) with (A := A) (b := b) (load := fun _ => 0%R); auto.
  - now subst p.
  - exact (constructed_sol _ _ _ _ _ _ _ _ _ _ _ _ _ _ f B PE).
  - exact (constructed_ivs _ _ f PE).
  - exact (constructed_maps _ _ _ _ _ _ _ _ _ _ _ _ _ _ f B PE 3 TM).
  - subst p. intros c c' q _ _. reflexivity.
  - rewrite Ev. apply affine_values_sol.
  - intros q Hq. rewrite (built_quads _ _ _ _ _ _ _ _ _ _ _ B) in Hq. intros Z. apply (W q Hq). rewrite <- Z. symmetry. exact (built_weights _ _ _ _ _ _ _ _ _ _ _ B q).
  - subst p. intros c q k _ _ _. reflexivity.
  - exact (constructed_bcs _ _ _ _ _ _ _ _ _ _ _ _ _ _ f B PE).
  - exact (constructed_held _ _ _ _ _ _ _ _ _ _ _ _ f B (box_sides Lx Ly Lz) G).
Qed.

Lemma hold_ok (pts : list (list Rops)) d v A b g : exists bc, Dirichlet_boundary_conditions pts (hold_affine d v A b g) = Ok bc.
Proof.
  destruct (dirichlet_spec (K := Rops) pts (repeat (Loc1 g) v) (seq 0 v) (map (fun k pt => affine (K := Rops) d A b (fun i => nth i pt (@zero Rops)) k) (seq 0 v))) as (_ & _ & D).
  destruct D as (ns & vs & ws & E & D); [now rewrite seq_length, repeat_length|now rewrite map_length, seq_length, repeat_length| |eexists; exact E].
  induction v as [|n IH]; [reflexivity|exact IH].
Qed.
Lemma patch_constructor (V : Type) Nx Ny Nz Lx Ly Lz sqrtK quad fquad normals v A b g (tm : (nat -> nat -> Rops) -> list V -> nat -> nat -> Rops) :
  (exists p, problem_init sqrtK 2 [mkVar (m_points (rectangle_mesh Nx Ny Lx Ly)) (m_cells (rectangle_mesh Nx Ny Lx Ly)) v "QUAD4" quad fquad normals
     (hold_affine 2 v A b g)] None (only_tensor_map tm) (fun x y => (x, y)) = Ok p) /\
  (exists p, problem_init sqrtK 3 [mkVar (m_points (box_mesh Nx Ny Nz Lx Ly Lz)) (m_cells (box_mesh Nx Ny Nz Lx Ly Lz)) v "HEX8" quad fquad normals
     (hold_affine 3 v A b g)] None (only_tensor_map tm) (fun x y => (x, y)) = Ok p).
Proof.
  assert (G : forall s d pts cls, (exists info fi, get_elements s = Ok info /\ reorder_inds (facets (basix_ele info)) (re_order info) = Ok fi) ->
    exists p, problem_init sqrtK d [mkVar pts cls v s quad fquad normals (hold_affine d v A b g)] None (only_tensor_map tm) (fun x y => (x, y)) = Ok p).
  { intros s d pts cls (info & fi & E1 & E2). destruct (hold_ok pts d v A b g) as (bc & E3). eexists. unfold problem_init, make_fes.
    cbn [mapM va_ele_type va_quad va_fquad va_normals va_points va_cells va_vec va_bc]. unfold fe_init at 1. rewrite E1, E2, E3. cbn. rewrite Nat.eqb_refl. cbn. reflexivity. }
  split; apply G; do 2 eexists; split; reflexivity.
Qed.
