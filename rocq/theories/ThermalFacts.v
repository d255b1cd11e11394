(** Lemmas for C72. *)
From Coq Require Import String Reals List Arith Lia Bool Permutation.
From Verif Require Import Num Arr ArrFacts Fe Problem SpecAssembly BatchFacts ProblemFacts AssemblyFacts Basis SpecBasis SpecFe FeFacts GeomFacts SpecBc BcFacts
  SpecSelect SelectFacts SpecWeak KernelFacts BalanceFacts Init SpecInit InitFacts Quiet SpecQuiet QuietFacts QuietMain Thermal SpecThermal.
Import ListNotations.

Lemma fe_init_update {K : ops} sqrtK s quad fquad normals (pts : list (list K)) cls v d dir f info f' :
  fe_init sqrtK s quad fquad normals pts cls v d dir = Ok f -> update_Dirichlet_boundary_conditions f info = Ok f' ->
  fe_init sqrtK s quad fquad normals pts cls v d info = Ok f'.
Proof.
  unfold fe_init. destruct (get_elements s) as [i|]; [|discriminate]. destruct (reorder_inds _ _) as [fi|]; [|discriminate].
  destruct (Dirichlet_boundary_conditions pts dir) as [bc|]; [|discriminate]. intros H U. injection H as <-.
  unfold update_Dirichlet_boundary_conditions in U. destruct bc as [[ns vs] ws]. cbn [points make_fe] in U.
  destruct (Dirichlet_boundary_conditions pts info) as [[[ns' vs'] ws']|]; [|discriminate]. exact U.
Qed.

Section Sums.
  Context {K : ops} (KR : ring_laws K).
  Open Scope num_scope.
  Let Kth : ring_theory (@zero K) one add mul sub opp eq := KR.
  Add Ring KringTh : Kth.
  Lemma sum_over_perm {A} (l l' : list A) (g : A -> K) : Permutation l l' -> sum_over l g = sum_over l' g.
  Proof.
    induction 1; rewrite ?sum_over_nil, ?sum_over_cons; auto; [now rewrite IHPermutation|ring|congruence].
  Qed.
  Lemma sum_over_filter {A} (m : A -> bool) (l : list A) (g : A -> K) : sum_over l (fun x => if m x then g x else 0) = sum_over (filter m l) g.
  Proof.
    induction l as [|x l IH]; [reflexivity|]. cbn [filter]. rewrite sum_over_cons. destruct (m x); [rewrite sum_over_cons; now rewrite IH|rewrite IH; ring].
  Qed.
  (** sum over a list restricted to a part of it *)
  Lemma sum_part {A} (m : A -> bool) (l part : list A) (g : A -> K) : NoDup l -> NoDup part ->
    (forall x, In x part <-> In x l /\ m x = true) -> sum_over l (fun x => if m x then g x else 0) = sum_over part g.
  Proof.
    intros N1 N2 H. rewrite sum_over_filter. apply sum_over_perm, NoDup_Permutation; auto; [now apply NoDup_filter|].
    intros x. rewrite filter_In, H. tauto.
  Qed.
End Sums.

Lemma nth_error_map_seq {A} (g : nat -> A) n c : c < n -> nth_error (map g (seq 0 n)) c = Some (g c).
Proof. intros H. rewrite nth_error_map, (nth_error_nth' _ 0) by (now rewrite seq_length). rewrite seq_nth by auto. reflexivity. Qed.

Lemma Ropp_swap (a b c : R) : (- a * b * c)%R = (- (a * b * c))%R.
Proof. ring. Qed.
Lemma Ropp_swap2 (a c : R) : (- a * c)%R = (- (a * c))%R.
Proof. ring. Qed.
Section Step.
  Variables (sqrtK : Rops -> Rops) (s : string) (quad fquad : list (list Rops) * list Rops) (normals : nat -> nat -> Rops)
    (pts : list (list Rops)) (cls : list (list nat)).
  (** the problem that set_params leaves *)
  Variables (dir : option (list (location_fn Rops) * list nat * list (list Rops -> Rops))) (f : fe Rops).
  Hypothesis BUILT : fe_init sqrtK s quad fquad normals pts cls 1 3 dir = Ok f.
  Hypothesis MESH : mesh_ok f.
  Variable b : list (nat * nat).
  Hypothesis NDB : NoDup b.
  Hypothesis INB : forall c fc, In (c, fc) b <-> c < length (cells f) /\ fc < length (face_inds f).
  Variables (Told : list (list Rops)) (dt : R) (center : nat -> R) (switch : R) (tab : list bool) (ft : list (bool * bool)) (top : list (list R) -> bool).
  Definition the_problem : problem Rops tval := mkProblem [f] [b] thermal_maps
    [map (fun c q => TVec (convert_from_dof_to_quad f Told c q)) (seq 0 (length (cells f))); map (fun _ _ => TNum dt) (seq 0 (length (cells f)));
     map (fun a _ => TBool a) tab]
    [[map (fun x q => TVec (convert_from_dof_to_face_quad f Told (fst x) (snd x) q)) b; map (fun _ _ => TVec center) b; map (fun _ _ => TNum switch) b;
      map (fun m _ => TMarks (fst m) (snd m)) ft]].
  Hypothesis LT : length tab = length (cells f).
  Hypothesis LF : length ft = length b.
  Hypothesis MARK : forall i c fc, nth_error b i = Some (c, fc) ->
        (fst (nth i ft (false, false)) = true <-> outer_face (cells f) (face_inds f) tab c fc) /\
        (snd (nth i ft (false, false)) = true <-> outer_face (cells f) (face_inds f) tab c fc /\ at_top top f c fc = true).
  Let p := the_problem.

  Lemma step_wf : wf_problem p.
  Proof.
    constructor; cbn.
    - intros f0 [<-|[]]. reflexivity.
    - intros f0 cell [<-|[]] Hc. apply In_nth with (d := []) in Hc as (c & Hc & <-). now apply MESH.
    - intros f0 cell n [<-|[]] Hc Hn. apply In_nth with (d := []) in Hc as (c & Hc & <-). now apply (MESH c Hc).
    - intros b' c fc [<-|[]] H. now apply INB in H.
  Qed.
  Lemma step_std : standard_problem p f.
  Proof. repeat split. left. discriminate. Qed.
  Lemma step_ivs : ivs_ok p.
  Proof.
    split; [|split; [reflexivity|]].
    - cbn. intros iv [<-|[<-|[<-|[]]]]; rewrite map_length; rewrite ?seq_length; auto.
    - cbn. intros x iv Hx. assert (x = 0) by lia. subst x. unfold num_sel_faces. cbn.
      intros [<-|[<-|[<-|[<-|[]]]]]; now rewrite map_length.
  Qed.
  Lemma step_maps : maps_ok (vec f) (dim f) (maps p).
  Proof.
    rewrite (built_vec _ _ _ _ _ _ _ _ _ _ _ BUILT), (built_dim _ _ _ _ _ _ _ _ _ _ _ BUILT). split; [|split]; cbn.
    - intros tm E. injection E as <-. intros g g' iv H k j Hk Hj. unfold thermal_tensor. rewrite (H k j Hk Hj). reflexivity.
    - intros mm E. injection E as <-. intros u u' x x' iv Hu Hx k Hk. unfold thermal_mass. rewrite (Hu k Hk). reflexivity.
    - intros sms sm E. injection E as <-. intros [<-|[]]. intros u u' x x' iv Hu Hx k Hk. unfold thermal_flux.
      rewrite (Hx 0), (Hx 1) by lia. reflexivity.
  Qed.
  Lemma step_sol T : shaped (length (points f)) 1 T -> sol_ok p [T].
  Proof.
    intros H. split; [reflexivity|]. intros w Hw. cbn in Hw. replace w with 0 by lia. unfold fe_of. cbn [nth fes p the_problem].
    now rewrite (built_vec _ _ _ _ _ _ _ _ _ _ _ BUILT).
  Qed.
  Lemma step_cells : p_num_cells p = length (cells f).
  Proof. reflexivity. Qed.

  Lemma step_iv c q : c < length (cells f) -> iv_at p c q = [TVec (convert_from_dof_to_quad f Told c q); TNum dt; TBool (nth c tab false)].
  Proof.
    intros Hc. unfold iv_at. cbn [p the_problem internal_vars flat_map]. rewrite !nth_error_map_seq by auto. cbn [app].
    rewrite nth_error_map, (nth_error_nth' tab false) by (rewrite LT; auto). reflexivity.
  Qed.
  Lemma step_face_iv e q : e < length b -> iv_face_at p 0 e q =
    [TVec (convert_from_dof_to_face_quad f Told (fst (nth e b (0, 0))) (snd (nth e b (0, 0))) q); TVec center; TNum switch;
     TMarks (fst (nth e ft (false, false))) (snd (nth e ft (false, false)))].
  Proof.
    intros He. unfold iv_face_at. cbn [p the_problem internal_vars_surfaces nth flat_map]. rewrite !nth_error_map.
    rewrite (nth_error_nth' b (0, 0)) by auto. rewrite (nth_error_nth' ft (false, false)) by (rewrite LF; auto). reflexivity.
  Qed.

  Variables (P T : list (list Rops)).
  Lemma step_stress c q j : c < length (cells f) -> stress p f P T c q 0 j = if nth c tab false then (15 * sol_to_grad P f T c q 0 j)%R else 0%R.
  Proof. intros Hc. unfold stress. cbn [p the_problem maps thermal_maps tensor_map]. rewrite step_iv by auto. reflexivity. Qed.
  Lemma step_source c q : c < length (cells f) -> source p f P T c q 0 =
    if nth c tab false then heat_rate (convert_from_dof_to_quad f T c q 0) (convert_from_dof_to_quad f Told c q 0) dt else 0%R.
  Proof. intros Hc. unfold source. cbn [p the_problem maps thermal_maps mass_map]. rewrite step_iv by auto. reflexivity. Qed.
  Lemma step_traction e q : e < length b -> let c := fst (nth e b (0, 0)) in let fc := snd (nth e b (0, 0)) in
    traction p f P T 0 e q 0 = if fst (nth e ft (false, false))
      then (- heat_flux center switch (at_top top f c fc) (convert_from_dof_to_face_quad f Told c fc q 0) (get_physical_surface_quad_points P f c fc q))%R else 0%R.
  Proof.
    intros He c fc. unfold traction. cbn [p the_problem maps thermal_maps surface_maps nth_error boundary_inds_list nth].
    rewrite step_face_iv by auto. fold c fc. unfold thermal_flux.
    assert (Ei : nth_error b e = Some (c, fc)) by (rewrite (nth_error_nth' b (0, 0)) by auto; unfold c, fc; now rewrite <- surjective_pairing).
    destruct (MARK e c fc Ei) as [M1 M2]. destruct (fst (nth e ft (false, false))) eqn:E1.
    - assert (E2 : snd (nth e ft (false, false)) = at_top top f c fc).
      { destruct (at_top top f c fc); [apply M2; split; [now apply M1|reflexivity]|]. apply not_true_is_false. intros X. apply M2 in X as [_ X]. discriminate. }
      rewrite E2. unfold heat_flux, eta, P_laser, rb, h_conv, T0. reflexivity.
    - assert (E2 : snd (nth e ft (false, false)) = false).
      { apply not_true_is_false. intros X. apply M2 in X as [X _]. apply M1 in X. congruence. }
      rewrite E2. cbn. ring.
  Qed.

  Variable ext : list (nat * nat).
  Hypothesis EXT : outer_faces f tab ext.
  (** a sum over the boundary faces that counts the marked ones only *)
  Lemma step_faces (g : nat * nat -> Rops) : sum_n (length b) (fun e => if fst (nth e ft (false, false)) then g (nth e b (0, 0)) else 0%R) = sum_over ext g.
  Proof.
    destruct EXT as [NE IE]. set (m := fun x : nat * nat => existsb (cface_eqb x) ext).
    assert (MI : forall x, m x = true <-> In x ext).
    { intros x. unfold m. rewrite existsb_exists. split.
      - intros (y & Iy & E). unfold cface_eqb in E. apply andb_true_iff in E as [E1 E2]. apply Nat.eqb_eq in E1, E2. destruct x, y; cbn in *; now subst.
      - intros I. exists x. split; auto. unfold cface_eqb. now rewrite !Nat.eqb_refl. }
    rewrite <- (sum_part Rops_ring m b ext g); auto.
    - rewrite (sum_over_nth (0, 0)). apply sum_n_ext. intros e He.
      assert (Ei : nth_error b e = Some (nth e b (0, 0))) by now apply nth_error_nth'. destruct (nth e b (0, 0)) as [c fc] eqn:En.
      destruct (MARK e c fc Ei) as [M1 _]. replace (fst (nth e ft (false, false))) with (m (c, fc)); [reflexivity|].
      apply eq_true_iff_eq. now rewrite MI, IE, M1.
    - intros [c fc]. rewrite MI. split; [|tauto]. intros H. split; auto. apply INB. apply IE in H as [(H1 & H2 & _) _]. auto.
  Qed.

  Hypothesis NC : 0 < length (cells f).
  Hypothesis TS : shaped (length (points f)) 1 T.
  (** the weak form: conduction and storage in the active cells, heat through the outer faces *)
  Lemma step_weak : exists res, compute_residual sqrtK p [P] [T] = Ok [res] /\ shaped (length (points f)) 1 res /\
    forall n, n < length (points f) -> get2 0%R res n 0 =
      (sum_n (K := Rops) (length (cells f)) (fun c => if nth c tab false then sum_n (K := Rops) (num_nodes f) (fun a =>
         if (nth a (nth c (cells f) []) 0 =? n)%nat then sum_n (K := Rops) (num_quads f) (fun q =>
           (sum_n (K := Rops) 3 (fun j => 15 * sol_to_grad P f T c q 0 j * get_shape_grads P f c q a j)
            + heat_rate (convert_from_dof_to_quad f T c q 0) (convert_from_dof_to_quad f Told c q 0) dt * shape_vals f q a) * get_JxW P f c q) else 0) else 0)
       - sum_over (K := Rops) ext (fun x => sum_n (K := Rops) (num_nodes f) (fun a =>
         if (nth a (nth (fst x) (cells f) []) 0 =? n)%nat then sum_n (K := Rops) (num_face_quads f) (fun q =>
           heat_flux center switch (at_top top f (fst x) (snd x)) (convert_from_dof_to_face_quad f Told (fst x) (snd x) q 0)
             (get_physical_surface_quad_points P f (fst x) (snd x) q) * face_shape_vals f (snd x) q a * nanson_scale sqrtK P f (fst x) (snd x) q) else 0)))%R.
  Proof.
    destruct (residual_weak Rops_ring sqrtK p f P T step_wf NC step_std (step_sol T TS) step_ivs step_maps) as (res & E & SH & W).
    rewrite (built_vec _ _ _ _ _ _ _ _ _ _ _ BUILT) in SH, W. exists res. split; [exact E|]. split; [exact SH|].
    intros n Hn. unfold Rminus. etransitivity; [exact (W n 0 Hn ltac:(lia))|]. cbn [add Rops].
    assert (ED : dim f = 3) by exact (built_dim _ _ _ _ _ _ _ _ _ _ _ BUILT).
    f_equal.
    - apply sum_n_ext. intros c Hc. change (c < length (cells f)) in Hc. destruct (nth c tab false) eqn:EA.
      + apply sum_n_ext. intros a Ha. destruct (_ =? _)%nat; [|reflexivity]. unfold volume_term. apply sum_n_ext. intros q Hq.
        rewrite step_source by auto. rewrite EA, ED. rewrite (sum_n_ext 3 _ (fun j => (15 * sol_to_grad P f T c q 0 j * get_shape_grads P f c q a j)%R)); [reflexivity|].
        intros j Hj. rewrite step_stress by auto. rewrite EA. reflexivity.
      + apply (sum_n_zero_ext Rops_ring). intros a Ha. destruct (_ =? _)%nat; [|reflexivity]. unfold volume_term. apply (sum_n_zero_ext Rops_ring). intros q Hq.
        rewrite step_source by auto. rewrite EA. rewrite (sum_n_zero_ext Rops_ring); [cbn; ring|].
        intros j Hj. rewrite step_stress by auto. rewrite EA. cbn. ring.
    - cbn [p the_problem boundary_inds_list length]. rewrite (sum_n_S Rops_ring), (sum_n_O (K := Rops)). cbn [add zero Rops]. rewrite Rplus_0_l.
      unfold num_sel_faces. cbn [boundary_inds_list nth]. unfold face_cell. cbn [boundary_inds_list nth].
      pose proof (sum_over_opp (K := Rops) Rops_ring ext) as SO. cbn [opp Rops] in SO. rewrite <- SO. rewrite <- step_faces.
      apply sum_n_ext. intros e He. destruct (fst (nth e ft (false, false))) eqn:EM.
      + cbn [opp Rops]. pose proof (sum_over_opp (K := Rops) Rops_ring (seq 0 (num_nodes f))) as SO2. cbn [opp Rops] in SO2. unfold sum_n at 2. rewrite <- SO2.
        apply sum_n_ext. intros a Ha. destruct (_ =? _)%nat; [|cbn; ring]. unfold surface_term. cbn [boundary_inds_list nth].
        pose proof (sum_over_opp (K := Rops) Rops_ring (seq 0 (num_face_quads f))) as SO3. cbn [opp Rops] in SO3. unfold sum_n at 2. rewrite <- SO3.
        apply sum_n_ext. intros q Hq. pose proof (step_traction e q He) as TR. cbv zeta in TR. rewrite EM in TR. setoid_rewrite TR. change (nth 0 (boundary_inds_list p) []) with b. cbn [mul Rops]. apply Ropp_swap.
      + apply (sum_n_zero_ext Rops_ring). intros a Ha. destruct (_ =? _)%nat; [|reflexivity]. unfold surface_term. cbn [boundary_inds_list nth].
        apply (sum_n_zero_ext Rops_ring). intros q Hq. pose proof (step_traction e q He) as TR. cbv zeta in TR. rewrite EM in TR. setoid_rewrite TR. cbn. ring.
  Qed.

  (** summed over the nodes: stored heat less the heat that flows in *)
  Lemma step_total : In s nine_names -> element_dim s = 3 -> forall res, compute_residual sqrtK p [P] [T] = Ok [res] ->
    sum_n (K := Rops) (length (points f)) (fun n => get2 0%R res n 0) =
    (sum_n (K := Rops) (length (cells f)) (fun c => if nth c tab false then sum_n (K := Rops) (num_quads f) (fun q =>
       heat_rate (convert_from_dof_to_quad f T c q 0) (convert_from_dof_to_quad f Told c q 0) dt * get_JxW P f c q) else 0)
     - sum_over (K := Rops) ext (fun x => sum_n (K := Rops) (num_face_quads f) (fun q =>
         heat_flux center switch (at_top top f (fst x) (snd x)) (convert_from_dof_to_face_quad f Told (fst x) (snd x) q 0)
           (get_physical_surface_quad_points P f (fst x) (snd x) q) * nanson_scale sqrtK P f (fst x) (snd x) q)))%R.
  Proof.
    intros HS HD res E. assert (ED : dim f = 3) by exact (built_dim _ _ _ _ _ _ _ _ _ _ _ BUILT).
    assert (LAG : built_element s (dim f) f).
    { split; [auto|]. split; [congruence|]. split; [auto|]. rewrite ED. do 8 eexists. exact BUILT. }
    pose proof (total_residual Rops_ring sqrtK p f P T step_wf NC step_std (step_sol T TS) step_ivs step_maps s LAG res 0) as TR.
    rewrite (built_vec _ _ _ _ _ _ _ _ _ _ _ BUILT) in TR. etransitivity; [exact (TR ltac:(lia) E)|]. unfold Rminus. cbn [add Rops]. f_equal.
    - apply sum_n_ext. intros c Hc. change (c < length (cells f)) in Hc. destruct (nth c tab false) eqn:EA.
      + apply sum_n_ext. intros q Hq. rewrite step_source by auto. now rewrite EA.
      + apply (sum_n_zero_ext Rops_ring). intros q Hq. rewrite step_source by auto. rewrite EA. cbn. ring.
    - cbn [p the_problem boundary_inds_list length]. rewrite (sum_n_S Rops_ring), (sum_n_O (K := Rops)). cbn [add zero Rops]. rewrite Rplus_0_l.
      unfold num_sel_faces. cbn [boundary_inds_list nth].
      pose proof (sum_over_opp (K := Rops) Rops_ring ext) as SO. cbn [opp Rops] in SO. rewrite <- SO. rewrite <- step_faces.
      apply sum_n_ext. intros e He. destruct (fst (nth e ft (false, false))) eqn:EM.
      + cbn [opp Rops]. pose proof (sum_over_opp (K := Rops) Rops_ring (seq 0 (num_face_quads f))) as SO3. cbn [opp Rops] in SO3. unfold sum_n at 2. rewrite <- SO3.
        apply sum_n_ext. intros q Hq. pose proof (step_traction e q He) as TR'. cbv zeta in TR'. rewrite EM in TR'. setoid_rewrite TR'. cbn. ring.
      + apply (sum_n_zero_ext Rops_ring). intros q Hq. pose proof (step_traction e q He) as TR'. cbv zeta in TR'. rewrite EM in TR'. setoid_rewrite TR'. cbn. ring.
  Qed.
End Step.
