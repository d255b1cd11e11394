(** Lemmas for C101: the heat problem. *)
From Coq Require Import String Reals List Arith Lia Lra Bool.
From Verif Require Import Num Arr ArrFacts Fe Problem SpecAssembly BatchFacts ProblemFacts AssemblyFacts Basis SpecBasis SpecFe FeFacts GeomFacts SpecBc BcFacts BcMain
  SpecSelect SelectFacts SpecWeak KernelFacts SolverBc BalanceFacts SpecEnergy EnergyFacts ElasticFacts Init SpecInit InitFacts Lagrangian Laser SpecLaser ThermalFacts.
Import ListNotations.
Open Scope nat_scope.

Lemma sum_one (g : nat -> Rops) : sum_n (K := Rops) 1 g = g 0.
Proof. rewrite (sum_n_S Rops_ring), (sum_n_O (K := Rops)). cbn. ring. Qed.

Lemma minus_one (a : R) : (a - 1 * 300 = a - 300)%R.
Proof. ring. Qed.

Section Heat.
  Variables (sqrtK : Rops -> Rops) (quad fquad : list (list Rops) * list Rops) (normals : nat -> nat -> Rops)
    (pts : list (list Rops)) (cls : list (list nat)).
  Lemma heat_built p : problem_init sqrtK 3 [heat_var quad fquad normals pts cls] heat_locations heat_maps (fun a b => (a, b)) = Ok p ->
    exists f b0 b1, fes p = [f] /\ boundary_inds_list p = [b0; b1] /\ maps p = heat_maps /\
      fe_init sqrtK "HEX8" quad fquad normals pts cls 1 3 (Some heat_bc) = Ok f /\
      get_boundary_conditions_inds f heat_locations = Ok [b0; b1].
  Proof.
    unfold problem_init, heat_var, make_fes. cbn [mapM va_ele_type va_quad va_fquad va_normals va_points va_cells va_vec va_bc].
    destruct (fe_init sqrtK "HEX8" quad fquad normals pts cls 1 3 (Some heat_bc)) as [f|] eqn:E; cbn [bind]; [|discriminate].
    destruct (get_boundary_conditions_inds f heat_locations) as [bs|] eqn:EB; cbn [bind]; [|discriminate].
    destruct (forallb _ _); [|discriminate]. intros H. exists f.
    pose proof (boundary_len f _ bs EB) as L. cbn in L. destruct bs as [|b0 [|b1 [|]]]; try discriminate. exists b0, b1.
    destruct (pre_jit_check _); cbn [bind] in H; [|discriminate]. injection H as <-. auto.
  Qed.

  Variable f : fe Rops.
  Hypothesis BUILT : fe_init sqrtK "HEX8" quad fquad normals pts cls 1 3 (Some heat_bc) = Ok f.
  Hypothesis MESH : mesh_ok f.
  Variables (b0 b1 : list (nat * nat)).
  Hypothesis SEL : get_boundary_conditions_inds f heat_locations = Ok [b0; b1].
  Lemma heat_selected : faces_selected f (Loc1 top) b0 /\ faces_selected f (Loc1 walls) b1.
  Proof.
    destruct (boundary_spec f [Loc1 top; Loc1 walls] (built_faces_ok _ _ _ _ _ _ _ _ _ _ _ BUILT MESH)) as [_ B].
    destruct (B eq_refl) as (bs & E & L & S). unfold heat_locations in SEL. rewrite SEL in E. injection E as <-.
    split; [exact (S 0 ltac:(cbn; lia))|exact (S 1 ltac:(cbn; lia))].
  Qed.
  Variables (Told : list (list Rops)) (center : nat -> R) (switch : R).
  Definition heat_problem : problem Rops lval := mkProblem [f] [b0; b1] heat_maps
    [map (fun c q => LVec (convert_from_dof_to_quad f Told c q)) (seq 0 (num_cells f))]
    [[map (fun x q => LVec (convert_from_dof_to_face_quad f Told (fst x) (snd x) q)) b0; map (fun _ _ => LVec center) b0; map (fun _ _ => LNum switch) b0];
     [map (fun x q => LVec (convert_from_dof_to_face_quad f Told (fst x) (snd x) q)) b1]].
  Let p := heat_problem.

  Lemma heat_wf : wf_problem p.
  Proof.
    constructor; cbn.
    - intros f0 [<-|[]]. reflexivity.
    - intros f0 cell [<-|[]] Hc. apply In_nth with (d := []) in Hc as (c & Hc & <-). now apply MESH.
    - intros f0 cell n [<-|[]] Hc Hn. apply In_nth with (d := []) in Hc as (c & Hc & <-). now apply (MESH c Hc).
    - destruct heat_selected as [[_ S0] [_ S1]]. intros b' c fc [<-|[<-|[]]] H; [now apply S0 in H|now apply S1 in H].
  Qed.
  Lemma heat_std : standard_problem p f.
  Proof. repeat split. left. discriminate. Qed.
  Lemma heat_ivs : ivs_ok p.
  Proof.
    split; [|split; [reflexivity|]].
    - cbn. intros iv [<-|[]]. now rewrite map_length, seq_length.
    - cbn. intros x iv Hx. assert (x = 0 \/ x = 1) as [-> | ->] by lia; unfold num_sel_faces; cbn.
      + intros [<-|[<-|[<-|[]]]]; now rewrite map_length.
      + intros [<-|[]]; now rewrite map_length.
  Qed.
  Lemma heat_maps_ok : maps_ok (vec f) (dim f) (maps p).
  Proof.
    rewrite (built_vec _ _ _ _ _ _ _ _ _ _ _ BUILT), (built_dim _ _ _ _ _ _ _ _ _ _ _ BUILT). split; [|split]; cbn.
    - intros tm E. injection E as <-. intros g g' iv H k j Hk Hj. unfold heat_tensor. destruct iv as [|[] []]; try reflexivity. now rewrite (H k j Hk Hj).
    - intros mm E. injection E as <-. intros u u' x x' iv Hu Hx k Hk. unfold heat_mass. destruct iv as [|[] []]; try reflexivity. now rewrite (Hu k Hk).
    - intros sms sm E. injection E as <-. intros [<-|[<-|[]]]; intros u u' x x' iv Hu Hx k Hk; unfold thermal_neumann_top, thermal_neumann_walls.
      + destruct iv as [|[] [|[] [|[] []]]]; try reflexivity. rewrite (Hx 0), (Hx 1) by lia. reflexivity.
      + reflexivity.
  Qed.
  Lemma heat_sol T : shaped (length (points f)) 1 T -> sol_ok p [T].
  Proof.
    intros H. split; [reflexivity|]. intros w Hw. cbn in Hw. replace w with 0 by lia. unfold fe_of. cbn [nth fes p heat_problem].
    now rewrite (built_vec _ _ _ _ _ _ _ _ _ _ _ BUILT).
  Qed.
  Lemma heat_iv c q : c < length (cells f) -> iv_at p c q = [LVec (convert_from_dof_to_quad f Told c q)].
  Proof. intros Hc. unfold iv_at. cbn [p heat_problem internal_vars flat_map]. now rewrite !nth_error_map_seq by auto. Qed.
  Lemma heat_iv0 e q : e < length b0 -> iv_face_at p 0 e q =
    [LVec (convert_from_dof_to_face_quad f Told (fst (nth e b0 (0, 0))) (snd (nth e b0 (0, 0))) q); LVec center; LNum switch].
  Proof.
    intros He. unfold iv_face_at. cbn [p heat_problem internal_vars_surfaces nth flat_map]. rewrite !nth_error_map.
    rewrite (nth_error_nth' b0 (0, 0)) by auto. reflexivity.
  Qed.
  Lemma heat_iv1 e q : e < length b1 -> iv_face_at p 1 e q =
    [LVec (convert_from_dof_to_face_quad f Told (fst (nth e b1 (0, 0))) (snd (nth e b1 (0, 0))) q)].
  Proof.
    intros He. unfold iv_face_at. cbn [p heat_problem internal_vars_surfaces nth flat_map]. rewrite !nth_error_map.
    rewrite (nth_error_nth' b1 (0, 0)) by auto. reflexivity.
  Qed.

  Variables (P T : list (list Rops)).
  Lemma heat_stress c q j : c < length (cells f) -> stress p f P T c q 0 j = (15 * sol_to_grad P f T c q 0 j)%R.
  Proof. intros Hc. unfold stress. cbn [p heat_problem maps heat_maps tensor_map]. rewrite heat_iv by auto. reflexivity. Qed.
  Lemma heat_source c q : c < length (cells f) -> source p f P T c q 0 = heat_rate (convert_from_dof_to_quad f T c q 0) (convert_from_dof_to_quad f Told c q 0).
  Proof. intros Hc. unfold source. cbn [p heat_problem maps heat_maps mass_map]. rewrite heat_iv by auto. unfold heat_mass, heat_rate, rho, Cp, dt, Rdiv. req. ring. Qed.
  Definition in_top c fc q : R := (beam center switch (get_physical_surface_quad_points P f c fc q) + loss (convert_from_dof_to_face_quad f Told c fc q 0))%R.
  Definition in_wall c fc q : R := loss (convert_from_dof_to_face_quad f Told c fc q 0).
  Lemma loss_eq T0' : (h_conv * (T0 - T0') + SB_constant * emissivity * (T0 ^ 4 - T0' ^ 4))%R = loss T0'.
  Proof. unfold loss, h_conv, T0, SB_constant, emissivity. field. Qed.
  Lemma rb_eq : rb = (5 / 10 ^ 5)%R.
  Proof. unfold rb. field. Qed.
  Lemma heat_top e q : e < length b0 -> traction p f P T 0 e q 0 = Ropp (in_top (fst (nth e b0 (0, 0))) (snd (nth e b0 (0, 0))) q).
  Proof.
    intros He. unfold traction. cbn [p heat_problem maps heat_maps surface_maps nth_error boundary_inds_list nth].
    rewrite heat_iv0 by auto. unfold thermal_neumann_top, in_top. cbv zeta. rewrite loss_eq, rb_eq. unfold beam, eta, P_laser.
    replace (25 / 100)%R with (1 / 4)%R by field. req. f_equal. apply Rplus_comm.
  Qed.
  Lemma heat_wall e q : e < length b1 -> traction p f P T 1 e q 0 = Ropp (in_wall (fst (nth e b1 (0, 0))) (snd (nth e b1 (0, 0))) q).
  Proof.
    intros He. unfold traction. cbn [p heat_problem maps heat_maps surface_maps nth_error boundary_inds_list nth].
    rewrite heat_iv1 by auto. unfold thermal_neumann_walls, in_wall. cbv zeta. now rewrite loss_eq.
  Qed.
  Hypothesis NC : 0 < length (cells f).
  Hypothesis TS : shaped (length (points f)) 1 T.
  Lemma opp_faces (b : list (nat * nat)) (g : nat -> nat -> nat -> R) :
    sum_n (K := Rops) (length b) (fun e => let c := fst (nth e b (0, 0)) in let fc := snd (nth e b (0, 0)) in
      sum_n (K := Rops) (num_face_quads f) (fun q => (- g c fc q * nanson_scale sqrtK P f c fc q)%R)) = (- over_list sqrtK f P b g)%R.
  Proof.
    cbv zeta. unfold over_list. pose proof (sum_over_opp (K := Rops) Rops_ring b) as SO. cbn [opp Rops] in SO. etransitivity; [|exact (SO _)].
    etransitivity; [exact (eq_sym (sum_over_nth (K := Rops) (0, 0) b (fun x => sum_n (K := Rops) (num_face_quads f) (fun q => (- g (fst x) (snd x) q * nanson_scale sqrtK P f (fst x) (snd x) q)%R))))|].
    apply sum_over_ext. intros x. pose proof (sum_over_opp (K := Rops) Rops_ring (seq 0 (num_face_quads f))) as SO3. cbn [opp Rops] in SO3. etransitivity; [|exact (SO3 _)].
    apply sum_over_ext. intros q. apply Ropp_swap2.
  Qed.
  (** tested with v: conduction, storage, and the heat through the selected faces *)
  Lemma heat_weak : exists res, compute_residual sqrtK p [P] [T] = Ok [res] /\ shaped (length (points f)) 1 res /\
    forall v, shaped (length (points f)) 1 v ->
      work (K := Rops) (length (points f)) 1 v res =
      (over_mesh f P (fun c q => sum_n (K := Rops) 3 (fun j => 15 * sol_to_grad P f T c q 0 j * sol_to_grad P f v c q 0 j)
          + heat_rate (convert_from_dof_to_quad f T c q 0) (convert_from_dof_to_quad f Told c q 0) * convert_from_dof_to_quad f v c q 0)
       - over_list sqrtK f P b0 (fun c fc q => in_top c fc q * convert_from_dof_to_face_quad f v c fc q 0)
       - over_list sqrtK f P b1 (fun c fc q => in_wall c fc q * convert_from_dof_to_face_quad f v c fc q 0))%R.
  Proof.
    destruct (residual_weak Rops_ring sqrtK p f P T heat_wf NC heat_std (heat_sol T TS) heat_ivs heat_maps_ok) as (res & E & SH & _).
    assert (EV : vec f = 1) by exact (built_vec _ _ _ _ _ _ _ _ _ _ _ BUILT). assert (ED : dim f = 3) by exact (built_dim _ _ _ _ _ _ _ _ _ _ _ BUILT).
    exists res. split; [exact E|]. split; [now rewrite <- EV|]. intros v SV.
    pose proof (any_work Rops_ring sqrtK p f P T heat_wf NC heat_std (heat_sol T TS) heat_ivs heat_maps_ok v res (heat_sol v SV) E) as W. rewrite EV, ED in W.
    etransitivity; [exact W|]. cbn [add Rops]. unfold Rminus. rewrite Rplus_assoc. f_equal.
    - unfold over_cells, over_mesh. apply sum_n_ext. intros c Hc. apply sum_n_ext. intros q Hq.
      unfold dot2, dot1. rewrite !sum_one. cbn [add zero mul Rops]. rewrite heat_source by exact Hc. refine (f_equal2 Rmult (f_equal2 Rplus _ eq_refl) eq_refl).
      apply sum_n_ext. intros j Hj. rewrite heat_stress by exact Hc. reflexivity.
    - unfold over_faces. cbn [p heat_problem boundary_inds_list length]. rewrite !(sum_n_S Rops_ring), !(sum_n_O (K := Rops)). cbn [add zero Rops]. rewrite Rplus_0_l.
      unfold num_sel_faces. cbn [boundary_inds_list nth]. f_equal.
      + rewrite <- (opp_faces b0 (fun c fc q => (in_top c fc q * convert_from_dof_to_face_quad f v c fc q 0)%R)). apply sum_n_ext. intros e He. cbv zeta. apply sum_n_ext. intros q Hq. refine (f_equal2 Rmult _ eq_refl).
        unfold dot1. rewrite sum_one. cbn [mul Rops]. rewrite heat_top by exact He. req. apply Ropp_swap2.
      + rewrite <- (opp_faces b1 (fun c fc q => (in_wall c fc q * convert_from_dof_to_face_quad f v c fc q 0)%R)). apply sum_n_ext. intros e He. cbv zeta. apply sum_n_ext. intros q Hq. refine (f_equal2 Rmult _ eq_refl).
        unfold dot1. rewrite sum_one. cbn [mul Rops]. rewrite heat_wall by exact He. req. apply Ropp_swap2.
  Qed.
  Lemma heat_total res : compute_residual sqrtK p [P] [T] = Ok [res] ->
    sum_n (K := Rops) (length (points f)) (fun n => get2 0%R res n 0) =
    (over_mesh f P (fun c q => heat_rate (convert_from_dof_to_quad f T c q 0) (convert_from_dof_to_quad f Told c q 0))
     - over_list sqrtK f P b0 in_top - over_list sqrtK f P b1 in_wall)%R.
  Proof.
    intros E. assert (ED : dim f = 3) by exact (built_dim _ _ _ _ _ _ _ _ _ _ _ BUILT).
    assert (LAG : built_element "HEX8" (dim f) f).
    { split; [cbn; tauto|]. split; [rewrite ED; reflexivity|]. split; [auto|]. rewrite ED. do 8 eexists. exact BUILT. }
    pose proof (total_residual Rops_ring sqrtK p f P T heat_wf NC heat_std (heat_sol T TS) heat_ivs heat_maps_ok "HEX8" LAG res 0) as TR.
    rewrite (built_vec _ _ _ _ _ _ _ _ _ _ _ BUILT) in TR. etransitivity; [exact (TR ltac:(lia) E)|]. unfold Rminus. rewrite Rplus_assoc. cbn [add Rops]. f_equal.
    - unfold over_mesh. apply sum_n_ext. intros c Hc. apply sum_n_ext. intros q Hq. now rewrite heat_source by exact Hc.
    - cbn [p heat_problem boundary_inds_list length]. rewrite !(sum_n_S Rops_ring), !(sum_n_O (K := Rops)). cbn [add zero Rops]. rewrite Rplus_0_l.
      unfold num_sel_faces. cbn [boundary_inds_list nth]. f_equal.
      + rewrite <- (opp_faces b0 in_top). apply sum_n_ext. intros e He. cbv zeta. apply sum_n_ext. intros q Hq. rewrite heat_top by exact He. reflexivity.
      + rewrite <- (opp_faces b1 in_wall). apply sum_n_ext. intros e He. cbv zeta. apply sum_n_ext. intros q Hq. rewrite heat_wall by exact He. reflexivity.
  Qed.
  Lemma heat_prescribed : bc_ok f /\ forall n, n < length pts -> prescribed f n 0 = if bottom (nth n pts []) then Some 300%R else None.
  Proof.
    destruct (built_inv _ _ _ _ _ _ _ _ _ _ _ BUILT) as (info & fi & [[ns vs] ws] & HI & HFI & HD & Hf).
    destruct (dirichlet_spec (K := Rops) pts [Loc1 bottom] [0] [fun _ => T0]) as (_ & _ & D). destruct (D eq_refl eq_refl eq_refl) as (ns' & vs' & ws' & ED & DO).
    pose proof (eq_trans (eq_sym HD) ED) as EE. injection EE as <- <- <-.
    assert (EP : points f = pts) by exact (built_points _ _ _ _ _ _ _ _ _ _ _ BUILT).
    assert (DO' : dirichlet_ok (points f) [Loc1 bottom] [0] [fun _ => T0] (node_inds_list f) (vec_inds_list f) (vals_list f)).
    { rewrite EP. rewrite Hf. exact DO. }
    destruct (dirichlet_prescribed f _ _ _ DO') as (B & PR & _). split; [exact B|]. intros n Hn. rewrite PR, EP. unfold dirichlet_value. cbn [length seq fold_left nth].
    apply Nat.ltb_lt in Hn. rewrite Hn. reflexivity.
  Qed.
  Lemma heat_rows res : compute_residual sqrtK p [P] [T] = Ok [res] ->
    forall n, n < length pts -> nth n (apply_bc_vec (ravel [res]) (ravel [T]) p (@one Rops)) (@zero Rops) =
      if bottom (nth n pts []) then (get2 0 T n 0 - 300)%R else get2 0%R res n 0.
  Proof.
    intros E. destruct heat_weak as (res' & E' & SH & _). rewrite E in E'. injection E' as <-.
    assert (EP : points f = pts) by exact (built_points _ _ _ _ _ _ _ _ _ _ _ BUILT).
    assert (EV : vec f = 1) by exact (built_vec _ _ _ _ _ _ _ _ _ _ _ BUILT).
    assert (GS : global_shapes p = [(length pts, 1)]) by (unfold global_shapes; cbn; now rewrite EP, EV).
    assert (S1 : has_shapes (global_shapes p) [res]).
    { rewrite GS, <- EP. constructor; [|constructor]. split; [apply SH|]. apply Forall_forall. exact (proj2 SH). }
    assert (S2 : has_shapes (global_shapes p) [T]).
    { rewrite GS, <- EP. constructor; [|constructor]. split; [apply TS|]. apply Forall_forall. exact (proj2 TS). }
    pose proof (ravel_length _ _ S1) as L1. pose proof (ravel_length _ _ S2) as L2. rewrite <- all_dofs_total in L1, L2.
    assert (BC : bcs_ok p). { intros f2 [<-|[]]. exact (proj1 heat_prescribed). }
    destruct (apply_bc_vec_ring Rops_ring p BC (ravel [res]) (ravel [T]) (@one Rops) L1 L2) as [L3 AP].
    intros n Hn. assert (VD : valid_dof (global_shapes p) 0 n 0) by (rewrite GS; unfold valid_dof; cbn; auto with arith).
    assert (DN : dof_number (global_shapes p) 0 n 0 = n) by (rewrite GS; unfold dof_number; cbn; lia).
    specialize (AP 0 n 0 VD). rewrite DN in AP. rewrite AP. rewrite <- DN. rewrite !(nth_ravel_dof (@zero Rops) (global_shapes p)) by auto. rewrite DN.
    unfold fe_of. cbn [nth p heat_problem fes]. rewrite (proj2 heat_prescribed n Hn). unfold get2. destruct (bottom _); [|reflexivity]. exact (minus_one _).
  Qed.
  (** a solution: the bottom is at 300, and the heat stored is what flows in through the selected faces and at the bottom *)
  Lemma heat_balance res : compute_residual sqrtK p [P] [T] = Ok [res] ->
    apply_bc_vec (ravel [res]) (ravel [T]) p (@one Rops) = repeat (@zero Rops) (length pts) ->
    (forall n, n < length pts -> bottom (nth n pts []) = true -> get2 0%R T n 0 = 300%R) /\
    over_mesh f P (fun c q => heat_rate (convert_from_dof_to_quad f T c q 0) (convert_from_dof_to_quad f Told c q 0)) =
    (over_list sqrtK f P b0 in_top + over_list sqrtK f P b1 in_wall +
     sum_n (K := Rops) (length pts) (fun n => if bottom (nth n pts []) then get2 0 res n 0 else 0))%R.
  Proof.
    intros E Z. assert (RD : forall n, n < length pts -> (if bottom (nth n pts []) then (get2 0 T n 0 - 300)%R else get2 0%R res n 0) = 0%R).
    { intros n Hn. etransitivity; [symmetry; exact (heat_rows res E n Hn)|]. rewrite Z. apply nth_repeat. }
    split.
    - intros n Hn HB. specialize (RD n Hn). rewrite HB in RD. exact (Rminus_diag_uniq _ _ RD).
    - pose proof (heat_total res E) as HT. assert (EP : points f = pts) by exact (built_points _ _ _ _ _ _ _ _ _ _ _ BUILT). rewrite EP in HT.
      assert (ES : sum_n (K := Rops) (length pts) (fun n => get2 0%R res n 0) = sum_n (K := Rops) (length pts) (fun n => if bottom (nth n pts []) then get2 0%R res n 0 else 0%R)).
      { apply sum_n_ext. intros n Hn. specialize (RD n Hn). destruct (bottom (nth n pts [])); [reflexivity|exact RD]. }
      rewrite ES in HT. clear - HT. revert HT. generalize (sum_n (K := Rops) (length pts) (fun n => if bottom (nth n pts []) then get2 0%R res n 0 else 0%R)). 
      intros x HT. change (car Rops) with R in x. lra.
  Qed.
End Heat.

(** what the tolerance of the location functions selects *)
Lemma isclose_true x y a : isclose x y a = true <-> (Rabs (x - y) <= a + / 10 ^ 5 * Rabs y)%R.
Proof. unfold isclose. destruct (Rle_dec _ _); split; auto; try discriminate; tauto. Qed.
Lemma top_upper point : (4 / 10 ^ 5 <= coord point 2 <= 5 / 10 ^ 5)%R -> top point = true.
Proof. intros H. apply isclose_true. unfold Lz, atol. rewrite (Rabs_pos_eq (5 / 100 * / 10 ^ 3)) by lra. apply Rabs_le. lra. Qed.
Lemma top_lower point : (coord point 2 <= 3 / 10 ^ 5)%R -> top point = false.
Proof.
  intros H. apply not_true_is_false. intros X. apply isclose_true in X. unfold Lz, atol in X. rewrite (Rabs_pos_eq (5 / 100 * / 10 ^ 3)) in X by lra.
  rewrite Rabs_left in X by lra. lra.
Qed.
