(** The hypotheses of C73, C74 are met: linear elasticity on every box mesh, with finite differences of step one for jax.jvp
    (exact for this kernel). *)
From Coq Require Import String Reals List Arith Lia Lra Bool.
From Verif Require Import Num Arr ArrFacts Fe Problem SpecAssembly BatchFacts ProblemFacts AssemblyFacts DerivFacts Basis SpecBasis SpecFe FeFacts GeomFacts SpecWeak KernelFacts SpecEnergy EnergyFacts
  Elastic ElasticFacts SpecElastic ElasticMain Init Mesh MeshFacts MeshFe PatchFacts SpecPatch Properties_energy.
Import ListNotations.

(** linear functions of a vector *)
Definition lin_in (n : nat) (F : list Rops -> R) : Prop := exists M : nat -> R, forall x, List.length x = n -> F x = sum_n (K := Rops) n (fun l => (M l * nth l x 0)%R).
Lemma lin_nth n i : lin_in n (fun x => nth i x 0%R).
Proof.
  destruct (Nat.lt_ge_cases i n) as [H|H].
  - exists (fun l => if (i =? l)%nat then 1%R else 0%R). intros x L. symmetry. apply (Rsum_delta n i (fun l => nth l x 0%R) H).
  - exists (fun _ => 0%R). intros x L. rewrite nth_overflow by lia. symmetry. apply (sum_n_zero_ext Rops_ring). intros; cbn; ring.
Qed.
Lemma lin_zero n : lin_in n (fun _ => 0%R).
Proof. exists (fun _ => 0%R). intros x L. symmetry. apply (sum_n_zero_ext Rops_ring). intros; cbn; ring. Qed.
Lemma lin_plus n F G : lin_in n F -> lin_in n G -> lin_in n (fun x => (F x + G x)%R).
Proof.
  intros (M & HM) (N & HN). exists (fun l => (M l + N l)%R). intros x L. rewrite (HM x L), (HN x L), <- Rsum_plus. apply Rsum_ext. intros; cbn; ring.
Qed.
Lemma lin_scale n c F : lin_in n F -> lin_in n (fun x => (c * F x)%R).
Proof. intros (M & HM). exists (fun l => (c * M l)%R). intros x L. rewrite (HM x L), <- Rsum_mul. apply Rsum_ext. intros; cbn; ring. Qed.
Lemma lin_ext n F G : (forall x, List.length x = n -> F x = G x) -> lin_in n F -> lin_in n G.
Proof. intros E (M & HM). exists M. intros x L. rewrite <- E by auto. now apply HM. Qed.
Lemma lin_sum n m (F : nat -> list Rops -> R) : (forall i, (i < m)%nat -> lin_in n (F i)) -> lin_in n (fun x => sum_n (K := Rops) m (fun i => F i x)).
Proof.
  induction m as [|m IH]; intros H.
  - apply (lin_ext n (fun _ => 0%R)); [reflexivity|apply lin_zero].
  - apply (lin_ext n (fun x => (sum_n (K := Rops) m (fun i => F i x) + F m x)%R)).
    + intros x L. rewrite (sum_n_S Rops_ring). reflexivity.
    + apply lin_plus; [apply IH; auto|apply H; auto].
Qed.

Definition difference (f : list Rops -> list Rops) (x v : list Rops) : list Rops := map2 (fun a b => (a - b)%R) (f (line1 x v (1%R : Rops))) (f x).
Lemma linear_jvp n (f : list Rops -> list Rops) x : List.length x = n -> (forall y, List.length y = n -> List.length (f y) = n) ->
  (forall k, (k < n)%nat -> lin_in n (fun y => nth k (f y) 0%R)) -> jvp_correct difference f x.
Proof.
  intros L LF LIN v k Lv. rewrite L in Lv.
  assert (LL : forall (y w : list Rops) t, List.length y = n -> List.length w = n -> List.length (line1 y w t) = n) by (intros; unfold line1; rewrite length_map2; lia).
  destruct (Nat.lt_ge_cases k n) as [Hk|Hk].
  - destruct (LIN k Hk) as (M & HM).
    assert (LE : forall w t, List.length w = n -> nth k (f (line1 x w t)) 0%R = (nth k (f x) 0 + t * sum_n (K := Rops) n (fun l => M l * nth l w 0))%R).
    { intros w t Lw. rewrite (HM (line1 x w t)), (HM x) by auto. rewrite <- Rsum_mul, <- Rsum_plus. apply Rsum_ext. intros l Hl.
      assert (E : nth l (line1 (K := Rops) x w t) 0%R = (nth l x 0 + t * nth l w 0)%R) by (apply (nth_line1 Rops_ring); congruence).
      cbn in E |- *. rewrite E. (req; ring). }
    apply (dlim_ext (fun t => (nth k (f x) 0 + (sum_n (K := Rops) n (fun l => M l * nth l v 0) * t + 0 * (t * t)))%R)).
    { intros t. transitivity (nth k (f (line1 x v t)) 0%R); [rewrite LE by auto; (req; ring)|reflexivity]. }
    replace (sum_n (List.length x) (fun l => (nth k (difference f x (unit_vec (List.length x) l)) 0 * nth l v 0)%num))
      with (sum_n (K := Rops) n (fun l => M l * nth l v 0)%R); [apply dlim_quad|].
    rewrite L. apply Rsum_ext. intros l Hl.
    assert (LU : List.length (unit_vec (K := Rops) n l) = n) by (unfold unit_vec; now rewrite map_length, seq_length).
    assert (D : nth k (difference f x (unit_vec (K := Rops) n l)) 0%R = M l).
    { unfold difference.
      transitivity (nth k (f (line1 (K := Rops) x (unit_vec (K := Rops) n l) 1%R)) 0 - nth k (f x) 0)%R; [apply nth_map2; rewrite LF; auto|].
      rewrite LE by auto.
      replace (sum_n (K := Rops) n (fun l0 => (M l0 * nth l0 (unit_vec (K := Rops) n l) 0)%R)) with (M l); [(req; ring)|].
      symmetry. transitivity (sum_n (K := Rops) n (fun l0 => ((if (l =? l0)%nat then 1 else 0) * M l0)%R)); [|now apply Rsum_delta].
      apply Rsum_ext. intros i Hi. unfold unit_vec. pose proof (nth_map_in (fun j => if (j =? l)%nat then 1%R else 0%R) (seq 0 n) i 0%nat 0%R) as E3.
      rewrite seq_length in E3. cbn. rewrite E3 by auto. rewrite seq_nth by auto. cbn. rewrite Nat.eqb_sym. destruct (l =? i)%nat; (req; ring). }
    cbn in D |- *. rewrite D. reflexivity.
  - apply (dlim_ext (fun _ => 0%R)).
    + intros t. symmetry. apply nth_overflow. rewrite LF by (apply LL; auto). lia.
    + replace (sum_n (List.length x) (fun l => (nth k (difference f x (unit_vec (List.length x) l)) 0 * nth l v 0)%num)) with 0%R; [apply derivable_pt_lim_const|].
      symmetry. rewrite L. apply (sum_n_zero_ext Rops_ring). intros l Hl. unfold difference. rewrite nth_overflow; [cbn; (req; ring)|].
      rewrite length_map2, !LF; auto; [lia|]. apply LL; auto. unfold unit_vec. now rewrite map_length, seq_length.
Qed.

(** the elastic kernel without loads is linear in the values at the nodes of the cell *)
Section Kernel.
  Context {V : Type} (lam mu : R) (p : problem Rops V) (f : fe Rops) (P sol : list (list Rops)).
  Hypothesis STD : standard_problem p f.
  Hypothesis TM : tensor_map (maps p) = Some (elastic_stress lam mu (dim f)).
  Hypothesis MM : mass_map (maps p) = None.
  Let n := all_dofs (local_shapes p).
  Lemma ex_n : n = (num_nodes f * vec f)%nat.
  Proof. unfold n. rewrite (shapes1 p f STD). unfold all_dofs. cbn. lia. Qed.
  Lemma elastic_kernel_linear c k : (k < n)%nat -> lin_in n (fun x => nth k (cell_fun p [P] [sol] c x) 0%R).
  Proof.
    intros Hk. assert (0 < vec f)%nat by (pose proof ex_n; nia).
    assert (Ha : (k / vec f < num_nodes f)%nat) by (apply Nat.div_lt_upper_bound; [lia|]; pose proof ex_n; nia).
    assert (Hj : (k mod vec f < vec f)%nat) by (apply Nat.mod_upper_bound; lia).
    assert (Ek : k = (k / vec f * vec f + k mod vec f)%nat) by (rewrite (Nat.div_mod k (vec f)) at 1; lia).
    set (a := (k / vec f)%nat) in *. set (j := (k mod vec f)%nat) in *.
    unfold cell_fun, kernel_cell. destruct STD as (_ & U & _). rewrite U, MM, TM. cbn [option_map badd unscalar].
    unfold laplace_kernel. rewrite (fe0_f p f STD). cbv zeta. cbn [with_sol ci_sol ci_grads ci_vgJxW ci_iv cell_input].
    rewrite Ek.
    apply (lin_ext n (fun x => sum_n (K := Rops) (num_quads f) (fun q => sum_n (K := Rops) (dim f) (fun i =>
      (p_v_grads_JxW p [P] c q a i * elastic_stress (V := V) lam mu (dim f) (fun k' j' => sum_n (K := Rops) (num_nodes f) (fun b =>
          (get2 (@zero Rops) (cell_sol0 p x) b k' * p_shape_grads p [P] c q b j')%R)) [] j i)%R)))).
    { intros x Lx. symmetry.
      etransitivity; [apply (nth_flat_table 0%R (fun a k => sum_n (num_quads f) (fun q => sum_n (dim f) (fun j => _ * _)%num))); auto|].
      apply Rsum_ext. intros q _. apply Rsum_ext. intros i _. cbn. rewrite Rmult_comm. reflexivity. }
    apply lin_sum. intros q _. apply lin_sum. intros i _. apply lin_scale.
    assert (G : forall k' j', lin_in n (fun x => sum_n (K := Rops) (num_nodes f) (fun b => (get2 (@zero Rops) (cell_sol0 p x) b k' * p_shape_grads p [P] c q b j')%R))).
    { intros k' j'. apply lin_sum. intros b Hb. apply (lin_ext n (fun x => (p_shape_grads p [P] c q b j' * get2 (@zero Rops) (cell_sol0 p x) b k')%R)).
      { intros; req; ring. }
      apply lin_scale. destruct (Nat.lt_ge_cases k' (vec f)) as [Hk'|Hk'].
      - apply (lin_ext n (fun x => nth (b * vec f + k') x 0%R)); [|apply lin_nth]. intros x Lx. symmetry. unfold cell_sol0.
        change (dof_shapes p) with (local_shapes p). transitivity (nth (dof_number (local_shapes p) 0 b k') x 0%R); [|f_equal; rewrite (shapes1 p f STD); unfold dof_number; cbn; lia]. apply (get2_unravel (@zero Rops)).
        + rewrite Lx. unfold n. apply all_dofs_total.
        + rewrite (shapes1 p f STD). repeat split; cbn; auto.
      - apply (lin_ext n (fun _ => 0%R)); [|apply lin_zero]. intros x Lx. symmetry. unfold get2. apply nth_overflow.
        assert (S : has_shapes (local_shapes p) (unravel (local_shapes p) x)) by (apply unravel_shapes; rewrite Lx; apply all_dofs_total).
        unfold cell_sol0. change (dof_shapes p) with (local_shapes p).
        destruct (unravel (local_shapes p) x) as [|u l']; rewrite (shapes1 p f STD) in S; [inversion S|].
        assert (S' : has_shape2 (num_nodes f) (vec f) u) by (now inversion S). destruct S' as (Ln & Fr). cbn [nth]. rewrite Forall_forall in Fr.
        rewrite (Fr (nth b u [])); [exact Hk'|]. apply nth_In. lia. }
    assert (S : forall k' j', lin_in n (fun x => strain (fun k' j' => sum_n (K := Rops) (num_nodes f) (fun b => (get2 (@zero Rops) (cell_sol0 p x) b k' * p_shape_grads p [P] c q b j')%R)) k' j')).
    { intros k' j'. unfold strain. apply lin_scale, lin_plus; apply G. }
    unfold elastic_stress. apply lin_plus.
    - apply (lin_ext n (fun x => ((lam * if (j =? i)%nat then 1 else 0) * trace (dim f) (strain (fun k' j' => sum_n (K := Rops) (num_nodes f) (fun b => (get2 (@zero Rops) (cell_sol0 p x) b k' * p_shape_grads p [P] c q b j')%R))))%R)).
      { intros; req; ring. }
      apply lin_scale. unfold trace. apply lin_sum. intros. apply S.
    - apply lin_scale, S.
  Qed.
  Lemma elastic_difference c : List.length (cell_values p [sol] c) = n -> jvp_correct difference (cell_fun p [P] [sol] c) (cell_values p [sol] c).
  Proof.
    intros L. apply (linear_jvp n); auto.
    - intros y Ly. exact (proj1 (std_kernels p f STD) (with_sol (cell_input p [P] [sol] c) y) Ly).
    - intros k Hk. now apply elastic_kernel_linear.
  Qed.
End Kernel.

(** On every box mesh: the constructed elastic problem meets every hypothesis of C73 and C74. *)
Example C73_C74_nonvacuous : forall (V : Type) Nx Ny Nz Lx Ly Lz, (0 < Nx)%nat -> (0 < Ny)%nat -> (0 < Nz)%nat -> (0 < Lx)%R -> (0 < Ly)%R -> (0 < Lz)%R ->
  let P := m_points (box_mesh Nx Ny Nz Lx Ly Lz) in
  forall sqrtK quad fquad normals A b g lam mu, (forall q, 0 <= nth q (snd quad) (@zero Rops))%R ->
  exists (p : problem Rops V) f,
  problem_init sqrtK 3 [mkVar P (m_cells (box_mesh Nx Ny Nz Lx Ly Lz)) 3 "HEX8" quad fquad normals (hold_affine 3 3 A b g)] None
    (only_tensor_map (elastic_stress lam mu 3)) (fun x y => (x, y)) = Ok p /\
  wf_problem p /\ (0 < p_num_cells p)%nat /\ elastic_problem lam mu p f /\ ivs_ok p /\ maps_ok (vec f) (dim f) (maps p) /\ sol_ok p [affine_values 3 3 A b P] /\
  (forall c q, (c < p_num_cells p)%nat -> (q < num_quads f)%nat -> 0 <= get_JxW P f c q)%R /\
  (exists kf, kernels_ok p kf) /\ boundary_inds_list p = [] /\
  (forall sol c, sol_ok p [sol] -> (c < p_num_cells p)%nat -> jvp_correct difference (cell_fun p [P] [sol] c) (cell_values p [sol] c)).
Proof.
  intros V Nx Ny Nz Lx Ly Lz HX HY HZ LX LY LZ P sqrtK quad fquad normals A b g lam mu W.
  destruct (proj2 (patch_constructor V Nx Ny Nz Lx Ly Lz sqrtK quad fquad normals 3 A b g (elastic_stress lam mu 3))) as (p & INIT).
  exists p. destruct (constructed _ _ _ _ _ _ _ _ _ _ _ _ _ _ INIT) as (f & B & PE). exists f. split; [exact INIT|].
  pose proof (constructed_wf _ _ f PE (box_mesh_ok Nx Ny Nz Lx Ly Lz HX HY HZ _ _ _ _ _ _ f B)) as WF.
  pose proof (constructed_std _ _ f PE) as STD.
  assert (Ev : vec f = 3%nat) by exact (built_vec _ _ _ _ _ _ _ _ _ _ _ B).
  assert (Ed : dim f = 3%nat) by exact (built_dim _ _ _ _ _ _ _ _ _ _ _ B).
  assert (En : p_num_cells p = (Nx * Ny * Nz)%nat) by (rewrite PE; exact (box_num_cells Nx Ny Nz Lx Ly Lz HX HY HZ _ _ _ _ _ _ f B)).
  assert (TM : tensor_map (maps p) = Some (elastic_stress lam mu (dim f))) by (rewrite Ed, PE; reflexivity).
  split; [exact WF|]. split; [rewrite En; nia|]. split; [|split; [|split; [|split; [|split; [|split; [|split]]]]]].
  - split; [exact STD|]. split; [congruence|]. split; [exact TM|]. rewrite PE. split; discriminate.
  - exact (constructed_ivs _ _ f PE).
  - rewrite Ed. apply (constructed_maps _ _ _ _ _ _ _ _ _ _ _ _ _ _ f B PE 3). intros G G' iv E k j Hk Hj. unfold elastic_stress, trace, strain.
    rewrite (E k j), (E j k) by auto. rewrite (Rsum_ext 3 (fun m => (/ 2 * (G m m + G m m))%R) (fun m => (/ 2 * (G' m m + G' m m))%R)); [reflexivity|].
    intros m Hm. now rewrite E by auto.
  - exact (constructed_sol _ _ _ _ _ _ _ _ _ _ _ _ _ _ f B PE).
  - intros c q Hc Hq. rewrite En in Hc. refine (eq_ind_r (fun t : R => 0 <= t)%R _ (box_JxW Nx Ny Nz Lx Ly Lz HX HY HZ _ _ _ _ _ _ f B c q Hc)).
    refine (eq_ind_r (fun t : R => 0 <= Lx / INR Nx * (Ly / INR Ny) * (Lz / INR Nz) * t)%R _ (built_weights _ _ _ _ _ _ _ _ _ _ _ B q)).
    assert (0 < INR Nx /\ 0 < INR Ny /\ 0 < INR Nz)%R as (X & Y & Z) by (repeat split; apply lt_0_INR; auto).
    repeat apply Rmult_le_pos; try (apply Rlt_le, Rinv_0_lt_compat; assumption); auto using Rlt_le.
  - eexists. exact (std_kernels p f STD).
  - now rewrite PE.
  - intros sol c S Hc. apply (elastic_difference lam mu p f P sol STD TM); [now rewrite PE|]. now apply cell_values_length.
Qed.
Print Assumptions C73_C74_nonvacuous.
