(** Lemmas for C104: the finite difference. *)
From Coq Require Import Reals String List Arith Lia Lra Psatz Bool Sorting.Sorted.
From Verif Require Import Num Arr ArrFacts Fe Problem SpecAssembly BatchFacts ProblemFacts Basis SpecBasis SpecFe FeFacts GeomFacts SolverBc SpecBc BcFacts SpecSelect SelectFacts SpecWeak
  ElasticFacts SpecLinear SpecPosed Mesh SpecMesh MeshFacts MeshMain MeshFe Init SpecInit InitFacts Lagrangian LaserHeat DiffMesh SpecDiffMesh DiffMeshMain DiffMeshRun DiffMeshEnd DiffMeshPick.
Import ListNotations.
Local Open Scope R_scope.

Lemma abs_opp e b : Rabs e <= b -> Rabs (- e) <= b. Proof. now rewrite Rabs_Ropp. Qed.
Section Fd.
  Variables (Nx Ny : nat) (HX : (0 < Nx)%nat) (HY : (0 < Ny)%nat).
  Let M := rectangle_mesh Nx Ny 1 1.
  Let P0 : list (list Rops) := m_points M.
  Variables (quad fquad : list (list Rops) * list Rops) (normals : nat -> nat -> Rops).
  Let mk := new_problem quad fquad normals (m_cells M).

  Lemma pick_any r : pick_fd_node_on_neumann_edge P0 = Ok r -> exists i, (i < Nx)%nat /\ r = (i * (Ny + 1))%nat.
  Proof.
    intros H. destruct (Nat.eq_dec Nx 1) as [E|D].
    - exists 0%nat. split; [exact HX|]. unfold P0, M in H. rewrite E in H. rewrite (pick_narrow Ny HY) in H. now injection H as <-.
    - destruct (pick_spec Nx Ny ltac:(lia) HY r H) as (i & -> & Hi & _). exists i. split; [lia|reflexivity].
  Qed.
  Lemma fresh p i t : (i <= Nx)%nat -> Rabs t <= / 10 ^ 3 -> mk P0 = Ok p -> exists p', mk (moved P0 (i * (Ny + 1)) 1 t) = Ok p' /\ boundary_inds_list p' = boundary_inds_list p /\
    forall sol, solves p' [moved P0 (i * (Ny + 1)) 1 t] sol <-> solves p [moved P0 (i * (Ny + 1)) 1 t] sol.
  Proof.
    intros Hi T B. destruct (rebuilt_problem unit "QUAD4" quad fquad normals (m_cells M) 1 2 (Some dm_bc) (Some [Loc1 dm_bottom]) dm_maps (fun iv ivs => (iv, ivs)) P0 (moved P0 (i * (Ny + 1)) 1 t) p
      (cells_ok Nx Ny HX HY) (moved_boundaries Nx Ny HX HY i Hi t T) B) as (p' & B' & _ & EB & _ & _ & _ & S). exists p'. split; [exact B'|]. split; [exact EB|exact S].
  Qed.
  Lemma node_axis i : (i <= Nx)%nat -> (i * (Ny + 1) <? length P0)%nat && (1 <? length (nth (i * (Ny + 1)) P0 []))%nat = true.
  Proof.
    intros Hi. apply andb_true_iff. split; apply Nat.ltb_lt; [exact (n0_in Nx Ny HX HY i Hi)|]. pose proof (n0_point Nx Ny HX HY i Hi) as E. apply (f_equal (@length Rops)) in E. unfold P0, M. cbn [length] in E. rewrite E. auto.
  Qed.
  Lemma one_list i t p : mk (moved P0 (i * (Ny + 1)) 1 t) = Ok p -> exists b, boundary_inds_list p = [b].
  Proof. intros B. destruct (mk_faces Nx Ny HX HY 0%nat HX quad fquad normals _ p (moved_length _ _ _ _) B) as (f & b & _ & E & _). now exists b. Qed.
  Lemma one_list0 p : mk P0 = Ok p -> exists b, boundary_inds_list p = [b].
  Proof. intros B. destruct (mk_faces Nx Ny HX HY 0%nat HX quad fquad normals _ p eq_refl B) as (f & b & _ & E & _). now exists b. Qed.

  Variable solver : problem Rops unit -> result (list (list (list Rops))).
  Lemma main_inv eps p node fd : dm_main quad fquad normals solver Nx Ny eps = Ok (p, node, fd) ->
    mk P0 = Ok p /\ pick_fd_node_on_neumann_edge P0 = Ok node /\ exists pm pp sm sp bm bp b,
      mk (moved P0 node 1 (- eps)) = Ok pm /\ mk (moved P0 node 1 eps) = Ok pp /\ solver pm = Ok sm /\ solver pp = Ok sp /\
      boundary_inds_list pm = [bm] /\ boundary_inds_list pp = [bp] /\ boundary_inds_list p = [b] /\ length bm = length b /\ length bp = length b /\
      fd = (objective_sum_u_squared sp - objective_sum_u_squared sm) / (2 * eps).
  Proof.
    unfold dm_main. fold M. fold P0. fold mk. destruct (mk P0) as [p0|e] eqn:EP; [|discriminate]. cbn [bind]. destruct (pick_fd_node_on_neumann_edge P0) as [r|e] eqn:ER; [|discriminate]. cbn [bind].
    unfold gold_fd_two_independent_problems. destruct (pick_any r ER) as (i & Hi & ->). rewrite node_axis by lia. cbn [bind].
    destruct (mk (moved P0 _ 1 (- eps))) as [pm|e] eqn:EM; [|discriminate]. cbn [bind]. destruct (solver pm) as [sm|e] eqn:SM; [|discriminate]. cbn [bind].
    destruct (mk (moved P0 _ 1 eps)) as [pp|e] eqn:EPP; [|discriminate]. cbn [bind]. destruct (solver pp) as [sp|e] eqn:SP; [|discriminate]. cbn [bind fst snd].
    destruct (one_list _ _ _ EM) as (bm & Em). destruct (one_list _ _ _ EPP) as (bp & Ep). destruct (one_list0 _ EP) as (b & Eb). rewrite Em, Ep. cbn [bind]. rewrite Eb.
    destruct (length bm =? length b)%nat eqn:E1; [|discriminate]. destruct (length bp =? length b)%nat eqn:E2; [|discriminate]. cbn. intros [= <- <- <-]. apply Nat.eqb_eq in E1, E2.
    split; [reflexivity|]. split; [reflexivity|]. exists pm, pp, sm, sp, bm, bp, b. auto 12.
  Qed.
  Theorem main_bound eps p node fd : dm_main quad fquad normals solver Nx Ny eps = Ok (p, node, fd) -> Rabs eps <= / 10 ^ 3.
  Proof.
    intros H. destruct (main_inv _ _ _ _ H) as (EP & ER & pm & pp & sm & sp & bm & bp & b & EM & EPP & _ & _ & Em & Ep & Eb & L1 & L2 & _). destruct (pick_any _ ER) as (i & Hi & ->).
    destruct (Rle_lt_dec (Rabs eps) (/ 10 ^ 3)) as [|G]; [assumption|]. pose proof (fewer_faces Nx Ny HX HY i Hi quad fquad normals eps p pp b bp G EP EPP Eb Ep). lia.
  Qed.
  Theorem main_outcome : (forall p, exists sol, solver p = Ok sol) -> forall eps,
    (Rabs eps <= / 10 ^ 3 -> exists r, dm_main quad fquad normals solver Nx Ny eps = Ok r) /\ (/ 10 ^ 3 < Rabs eps -> dm_main quad fquad normals solver Nx Ny eps = Err RuntimeErr).
  Proof.
    intros TOT eps. destruct (dm_built Nx Ny HX HY quad fquad normals P0 eq_refl) as (p & f & EP & _). change (mk P0 = Ok p) in EP.
    assert (exists r, pick_fd_node_on_neumann_edge P0 = Ok r) as (r & ER).
    { unfold pick_fd_node_on_neumann_edge. assert (L : (0 < length P0)%nat) by (unfold P0, M; rewrite rect_points_len by assumption; nia). destruct P0 as [|x l]; [cbn in L; lia|]. cbn. eauto. }
    destruct (pick_any r ER) as (i & Hi & ->). destruct (one_list0 _ EP) as (b & Eb).
    destruct (dm_built Nx Ny HX HY quad fquad normals (moved P0 (i * (Ny + 1)) 1 (- eps)) (moved_length _ _ _ _)) as (pm & _ & EM & _). change (mk (moved P0 (i * (Ny + 1)) 1 (- eps)) = Ok pm) in EM.
    destruct (dm_built Nx Ny HX HY quad fquad normals (moved P0 (i * (Ny + 1)) 1 eps) (moved_length _ _ _ _)) as (pp & _ & EPP & _). change (mk (moved P0 (i * (Ny + 1)) 1 eps) = Ok pp) in EPP.
    destruct (one_list _ _ _ EM) as (bm & Em). destruct (one_list _ _ _ EPP) as (bp & Ep). destruct (TOT pm) as (sm & SM). destruct (TOT pp) as (sp & SP).
    assert (E : dm_main quad fquad normals solver Nx Ny eps = if negb (length bm =? length b)%nat || negb (length bp =? length b)%nat then Err RuntimeErr else Ok (p, (i * (Ny + 1))%nat, central (objective_sum_u_squared sp) (objective_sum_u_squared sm) eps)).
    { unfold dm_main. fold M. fold P0. fold mk. rewrite EP. cbn [bind]. rewrite ER. cbn [bind]. unfold gold_fd_two_independent_problems. rewrite node_axis by lia. cbn [bind].
      rewrite EM. cbn [bind]. rewrite SM. cbn [bind]. rewrite EPP. cbn [bind]. rewrite SP. cbn [bind fst snd]. rewrite Em, Ep. cbn [bind]. now rewrite Eb. }
    rewrite E. split.
    - intros T. destruct (fresh p i eps ltac:(lia) T EP) as (pp' & E1 & B1 & _). rewrite EPP in E1. injection E1 as <-. destruct (fresh p i (- eps) ltac:(lia) (abs_opp _ _ T) EP) as (pm' & E2 & B2 & _). rewrite EM in E2. injection E2 as <-.
      rewrite Ep, Eb in B1. rewrite Em, Eb in B2. injection B1 as ->. injection B2 as ->. rewrite Nat.eqb_refl. cbn. eauto.
    - intros T. pose proof (fewer_faces Nx Ny HX HY i Hi quad fquad normals eps p pp b bp T EP EPP Eb Ep) as L. assert ((length bp =? length b)%nat = false) as -> by (apply Nat.eqb_neq; lia). now rewrite orb_true_r.
  Qed.

  Hypothesis RULE : good_rule quad.
  Theorem one_at_most p i t x y : (i <= Nx)%nat -> Rabs t < / INR Ny -> mk P0 = Ok p -> solves p [moved P0 (i * (Ny + 1)) 1 t] x -> solves p [moved P0 (i * (Ny + 1)) 1 t] y -> x = y.
  Proof.
    intros Hi T B. apply (u_unique Nx Ny HX HY quad fquad normals (proj1 RULE) p B). destruct (dm_inv Nx Ny HX HY quad fquad normals P0 p eq_refl B) as (f & EF & E & _). unfold fe_of. rewrite E. cbn [nth].
    apply (moved_jxw Nx Ny HX HY i quad fquad normals f t Hi EF (proj2 RULE) T).
  Qed.
  Lemma sol_single p P sol : mk P0 = Ok p -> solves p [P] sol -> exists x, sol = [x] /\ shaped (length P0) 1 x.
  Proof.
    intros B ((L & SH) & _). destruct (dm_inv Nx Ny HX HY quad fquad normals P0 p eq_refl B) as (f & EF & E & _). rewrite E in L. destruct sol as [|x [|]]; try discriminate. exists x. split; [reflexivity|].
    specialize (SH 0%nat). rewrite E in SH. specialize (SH ltac:(cbn; lia)). unfold fe_of in SH. rewrite E in SH. cbn [nth] in SH. rewrite (built_points _ _ _ _ _ _ _ _ _ _ _ EF), (built_vec _ _ _ _ _ _ _ _ _ _ _ EF) in SH. exact SH.
  Qed.
  Hypothesis EXACT : exact_solver mk solver.
  Theorem main_fd eps p node fd : Rabs eps < / INR Ny -> dm_main quad fquad normals solver Nx Ny eps = Ok (p, node, fd) ->
    (exists xm xp, solves p [moved P0 node 1 (- eps)] [xm] /\ solves p [moved P0 node 1 eps] [xp]) /\
    forall xm xp, solves p [moved P0 node 1 (- eps)] [xm] -> solves p [moved P0 node 1 eps] [xp] -> fd = (sum_of_squares (length P0) xp - sum_of_squares (length P0) xm) / (2 * eps).
  Proof.
    intros S H. pose proof (main_bound _ _ _ _ H) as T. destruct (main_inv _ _ _ _ H) as (EP & ER & pm & pp & sm & sp & bm & bp & b & EM & EPP & SM & SP & Em & Ep & Eb & L1 & L2 & EQ). destruct (pick_any _ ER) as (i & Hi & ->).
    destruct (fresh p i eps ltac:(lia) T EP) as (pp' & E1 & _ & W1). rewrite EPP in E1. injection E1 as <-. destruct (fresh p i (- eps) ltac:(lia) (abs_opp _ _ T) EP) as (pm' & E2 & _ & W2). rewrite EM in E2. injection E2 as <-.
    pose proof (proj1 (W1 _) (EXACT _ _ _ EPP SP)) as Q1. pose proof (proj1 (W2 _) (EXACT _ _ _ EM SM)) as Q2. destruct (sol_single _ _ _ EP Q1) as (xp & -> & SHp). destruct (sol_single _ _ _ EP Q2) as (xm & -> & SHm).
    split; [now exists xm, xp|]. intros ym yp Y1 Y2.
    pose proof (one_at_most p i eps _ _ ltac:(lia) S EP Y2 Q1) as [= ->]. assert (S' : Rabs (- eps) < / INR Ny) by now rewrite Rabs_Ropp. pose proof (one_at_most p i (- eps) _ _ ltac:(lia) S' EP Y1 Q2) as [= ->].
    rewrite EQ. rewrite (objective_value _ xp SHp), (objective_value _ xm SHm). reflexivity.
  Qed.
  Theorem main_limit p node F J l r : 0 < r -> (forall eps, 0 < eps < r -> dm_main quad fquad normals solver Nx Ny eps = Ok (p, node, F eps)) ->
    (forall t, Rabs t < r -> exists x, solves p [moved P0 node 1 t] [x] /\ J t = sum_of_squares (length P0) x) -> derivable_pt_lim J 0 l -> tends_to F l.
  Proof.
    intros Hr HF HJ HD d Hd. destruct (HD d Hd) as ((r1 & Hr1) & HL). cbn in HL.
    assert (PY : 0 < / INR Ny) by (apply Rinv_0_lt_compat, lt_0_INR; exact HY).
    exists (Rmin r (Rmin r1 (/ INR Ny))). split; [repeat apply Rmin_glb_lt; assumption|]. intros e (E0 & E1).
    assert (e < r /\ e < r1 /\ e < / INR Ny) as (A1 & A2 & A3). { repeat split; (eapply Rlt_le_trans; [exact E1|]); [apply Rmin_l|eapply Rle_trans; [apply Rmin_r|apply Rmin_l]|eapply Rle_trans; [apply Rmin_r|apply Rmin_r]]. }
    assert (AE : Rabs e = e) by (apply Rabs_right; lra). assert (AM : Rabs (- e) = e) by (rewrite Rabs_Ropp; exact AE).
    destruct (HJ e ltac:(lra)) as (xp & SP & JP). destruct (HJ (- e) ltac:(lra)) as (xm & SM & JM).
    destruct (main_fd e p node (F e) ltac:(lra) (HF e ltac:(lra))) as (_ & EQ). rewrite (EQ xm xp SM SP), <- JP, <- JM.
    pose proof (HL e ltac:(lra) ltac:(lra)) as H1. pose proof (HL (- e) ltac:(lra) ltac:(lra)) as H2. rewrite Rplus_0_l in H1, H2.
    replace ((J e - J (- e)) / (2 * e) - l) with (/ 2 * ((J e - J 0) / e - l) + / 2 * ((J (- e) - J 0) / (- e) - l)) by (field; lra).
    eapply Rle_lt_trans; [apply Rabs_triang|]. rewrite !Rabs_mult, (Rabs_right (/ 2)) by lra. lra.
  Qed.
End Fd.

(** ** the manufactured solution *)
Lemma deriv_eq f x l l' : l = l' -> derivable_pt_lim f x l -> derivable_pt_lim f x l'.
Proof. now intros ->. Qed.
Lemma lin_deriv a y : derivable_pt_lim (fun y => a * (1 + y)) y a.
Proof. apply (deriv_eq _ _ (a * (0 + 1))); [ring|]. apply (derivable_pt_lim_scal (fun y => 1 + y)). apply (derivable_pt_lim_plus (fun _ => 1) (fun y => y)); [apply derivable_pt_lim_const|apply derivable_pt_lim_id]. Qed.
Lemma pix x : derivable_pt_lim (fun x => PI * x) x PI.
Proof. apply (deriv_eq _ _ (PI * 1)); [ring|]. apply (derivable_pt_lim_scal (fun x => x)). apply derivable_pt_lim_id. Qed.
Lemma sin_deriv c x : derivable_pt_lim (fun x => sin (PI * x) * c) x (PI * cos (PI * x) * c).
Proof.
  replace (PI * cos (PI * x) * c) with ((cos (PI * x) * PI) * c + sin (PI * x) * 0) by ring. apply (derivable_pt_lim_mult (fun x => sin (PI * x)) (fun _ => c)); [|apply derivable_pt_lim_const].
  apply (derivable_pt_lim_comp (fun x => PI * x) sin); [apply pix|apply derivable_pt_lim_sin].
Qed.
Lemma cos_deriv c x : derivable_pt_lim (fun x => PI * cos (PI * x) * c) x (- PI ^ 2 * sin (PI * x) * c).
Proof.
  replace (- PI ^ 2 * sin (PI * x) * c) with ((0 * cos (PI * x) + PI * (- sin (PI * x) * PI)) * c + PI * cos (PI * x) * 0) by ring.
  apply (derivable_pt_lim_mult (fun x => PI * cos (PI * x)) (fun _ => c)); [|apply derivable_pt_lim_const].
  apply (derivable_pt_lim_mult (fun _ => PI) (fun x => cos (PI * x))); [apply derivable_pt_lim_const|]. apply (derivable_pt_lim_comp (fun x => PI * x) cos); [apply pix|apply derivable_pt_lim_cos].
Qed.
Theorem manufactured : exists ux uy uxx uyy : R -> R -> R,
  (forall x y, derivable_pt_lim (fun x => u_exact_fn x y) x (ux x y) /\ derivable_pt_lim (fun y => u_exact_fn x y) y (uy x y) /\
     derivable_pt_lim (fun x => ux x y) x (uxx x y) /\ derivable_pt_lim (fun y => uy x y) y (uyy x y)) /\
  (forall u x, u 0%nat = u_exact_fn (x 0%nat) (x 1%nat) -> dm_mass u x 0%nat = uxx (x 0%nat) (x 1%nat) + uyy (x 0%nat) (x 1%nat)) /\
  (forall u x, neumann_flux u x 0%nat = uy (x 0%nat) 0) /\
  (forall y, u_exact_fn 0 y = u0 [0; y] /\ u_exact_fn 1 y = u0 [1; y]) /\ (forall x, u_exact_fn x 1 = u0_top [x; 1]).
Proof.
  exists (fun x y => PI * cos (PI * x) * (1 + y)), (fun x y => sin (PI * x)), (fun x y => - PI ^ 2 * sin (PI * x) * (1 + y)), (fun x y => 0). unfold u_exact_fn. split; [|split; [|split; [|split]]].
  - intros x y. split; [apply sin_deriv|]. split; [apply lin_deriv|]. split; [apply cos_deriv|apply derivable_pt_lim_const].
  - intros u x E. unfold dm_mass. rewrite E. ring.
  - reflexivity.
  - intros y. unfold u0. rewrite Rmult_0_r, sin_0, Rmult_1_r, sin_PI. split; req; ring.
  - intros x. unfold u0_top. cbn [nth]. req. ring.
Qed.

(** ** a node of the upper edge moved sideways *)
Theorem top_stale quad fquad normals : let M := rectangle_mesh 2 1 1 1 in
  exists p p', new_problem quad fquad normals (m_cells M) (m_points M) = Ok p /\ new_problem quad fquad normals (m_cells M) (moved (m_points M) 3 0 (/ 4)) = Ok p' /\
    nth 3 (m_points M) [] = [/ 2; 1] /\ forall sol, solves p [moved (m_points M) 3 0 (/ 4)] sol -> ~ solves p' [moved (m_points M) 3 0 (/ 4)] sol.
Proof.
  intros M. assert (HX : (0 < 2)%nat) by lia. assert (HY : (0 < 1)%nat) by lia.
  destruct (dm_built 2 1 HX HY quad fquad normals (m_points M) eq_refl) as (p & f & B & EF & E & _).
  destruct (dm_built 2 1 HX HY quad fquad normals (moved (m_points M) 3 0 (/ 4)) (moved_length _ _ _ _)) as (p' & f' & B' & EF' & E' & _).
  assert (P3 : nth 3 (m_points M) [] = [/ 2; 1]). { etransitivity; [exact (rect_point 2 1 1 1 HX HY 1 1 ltac:(lia) ltac:(lia))|]. cbn. f_equal; [req; lra|]. f_equal. req. lra. }
  assert (L3 : (3 < length (m_points M))%nat) by (unfold M; rewrite rect_points_len by assumption; cbn; lia).
  assert (P3' : nth 3 (moved (m_points M) 3 0 (/ 4)) [] = [3 / 4; 1]). { rewrite moved_same by exact L3. etransitivity; [exact (f_equal (upd_nth 0 (fun x : R => x + / 4)) P3)|]. cbn. f_equal. req. lra. }
  assert (V : forall (pts : list (list Rops)) x, length pts = length (m_points M) -> nth 3 pts [] = [x; 1] -> 1 / 4 <= x <= 3 / 4 -> forall f, fe_init sqrt "QUAD4" quad fquad normals pts (m_cells M) 1 2 (Some dm_bc) = Ok f -> prescribed f 3 0 = Some (sin (PI * x) * 2)).
  { intros pts x L X R g BG. rewrite (u_prescribed 2 1 quad fquad normals pts g 3 0 BG). unfold dirichlet_value. cbn [length seq fold_left nth loc_holds Nat.eqb]. rewrite X.
    assert ((3 <? length pts)%nat = true) as -> by (apply Nat.ltb_lt; rewrite L; exact L3). cbn [andb].
    assert (dm_left [x; 1] = false) as -> by (apply close_false; cbn [nth]; rewrite Rabs_R0, Rminus_0_r, Rabs_right by lra; lra).
    assert (dm_right [x; 1] = false) as -> by (apply close_false; cbn [nth]; rewrite Rabs_R1, Rabs_left by lra; lra).
    assert (dm_top [x; 1] = true) as -> by (apply isclose_true; cbn [nth]; rewrite Rabs_R1; replace (1 - 1) with 0 by ring; rewrite Rabs_R0; lra). reflexivity. }
  exists p, p'. split; [exact B|]. split; [exact B'|]. split; [exact P3|]. intros sol (_ & r1 & _ & S1) (_ & r2 & _ & S2).
  specialize (S1 0%nat 3%nat 0%nat). specialize (S2 0%nat 3%nat 0%nat). unfold fe_of in S1, S2. rewrite E in S1. rewrite E' in S2. cbn [nth length] in S1, S2.
  rewrite (built_points _ _ _ _ _ _ _ _ _ _ _ EF), (built_vec _ _ _ _ _ _ _ _ _ _ _ EF) in S1. rewrite (built_points _ _ _ _ _ _ _ _ _ _ _ EF'), (built_vec _ _ _ _ _ _ _ _ _ _ _ EF'), moved_length in S2.
  specialize (S1 ltac:(lia) L3 ltac:(lia)). specialize (S2 ltac:(lia) L3 ltac:(lia)).
  rewrite (V _ _ eq_refl P3 ltac:(lra) f EF) in S1. rewrite (V _ _ (moved_length _ _ _ _) P3' ltac:(lra) f' EF') in S2. rewrite S1 in S2.
  replace (PI * / 2) with (PI / 2) in S2 by (unfold Rdiv; ring). rewrite sin_PI2 in S2. replace (PI * (3 / 4)) with (3 * (PI / 4)) in S2 by field. rewrite sin_3PI4 in S2.
  pose proof Rlt_sqrt2_0. pose proof (sqrt_def 2 ltac:(lra)) as Q. assert (1 / sqrt 2 = 1) as W by lra. assert (sqrt 2 = 1). { apply (f_equal (fun z => z * sqrt 2)) in W. unfold Rdiv in W. rewrite Rmult_assoc, Rinv_l in W by lra. lra. } rewrite H0 in Q. lra.
Qed.
