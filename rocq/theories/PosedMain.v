(** Meshes and applications of C81. *)
From Coq Require Import String Reals List Arith Lia Lra Bool.
From Verif Require Import Num Arr ArrFacts Fe Problem SpecAssembly BatchFacts ProblemFacts Basis SpecBasis SpecFe FeFacts GeomFacts SolverBc SpecBc BcFacts SelectFacts SpecWeak KernelFacts
  SpecEnergy EnergyFacts ElasticFacts ElasticMain Mesh MeshFacts MeshMain MeshFe LinAlg SpecWave SolveBox XNum PyDict Options LinSolve Newton SpecNewton ArcLength DynRelax Solver SpecLift LiftFacts SpecLinear LinearFacts LinearElastic
  SpecPosed PosedFacts AffineFacts DiffusionFacts FieldFacts Init SpecInit InitFacts Quiet SpecQuiet QuietMain Thermal SpecThermal ThermalFacts ThermalMain.
Import ListNotations.
Local Open Scope R_scope.

Lemma linked_trans cs n m l : linked cs n m -> linked cs m l -> linked cs n l.
Proof. induction 1; intros Q; auto. eapply linked_step; eauto. Qed.
Lemma linked_sym cs n m : linked cs n m -> linked cs m n.
Proof.
  induction 1 as [|n m l cell I N M L IH]; [constructor|]. apply (linked_trans cs l m n IH). apply (linked_step cs m n n cell I M N). constructor.
Qed.
Lemma linked_one (cs : list (list nat)) cell n m : In cell cs -> In n cell -> In m cell -> linked cs n m.
Proof. intros I N M. apply (linked_step cs n m m cell I N M). constructor. Qed.

Lemma near_cell n N : (0 < N)%nat -> (n <= N)%nat -> exists i, (i < N)%nat /\ (n = i \/ n = (i + 1)%nat).
Proof. intros H1 H2. destruct (Nat.eq_dec n N) as [->|]; [exists (N - 1)%nat; lia|exists n; lia]. Qed.
Section BoxLinks.
  Context (Nx Ny Nz : nat) (Lx Ly Lz : R) (HX : (0 < Nx)%nat) (HY : (0 < Ny)%nat) (HZ : (0 < Nz)%nat).
  Let cs := m_cells (box_mesh Nx Ny Nz Lx Ly Lz).
  Let nd i j k := ((i * (Ny + 1) + j) * (Nz + 1) + k)%nat.
  Lemma box_in_cell i j k : (i < Nx)%nat -> (j < Ny)%nat -> (k < Nz)%nat -> In (hex_of Ny Nz i j k) cs.
  Proof.
    intros. unfold cs. rewrite <- (box_cell Nx Ny Nz Lx Ly Lz HX HY HZ i j k) by auto. apply nth_In. rewrite box_rows by auto. cbn [m_cells]. unfold row.
    rewrite map_length, seq_length. apply add_lt; [apply add_lt|]; lia.
  Qed.
  Lemma box_near i j k i' j' k' : (i < Nx)%nat -> (j < Ny)%nat -> (k < Nz)%nat -> (i' = i \/ i' = (i + 1)%nat) -> (j' = j \/ j' = (j + 1)%nat) -> (k' = k \/ k' = (k + 1)%nat) ->
    In (nd i' j' k') (hex_of Ny Nz i j k).
  Proof. intros _ _ _ [->| ->] [->| ->] [->| ->]; unfold hex_of, nd; cbn [In]; tauto. Qed.
  Lemma box_all_linked i j k : (i <= Nx)%nat -> (j <= Ny)%nat -> (k <= Nz)%nat -> linked cs (nd i j k) (nd 0 0 0).
  Proof.
    intros Hi Hj Hk. apply linked_trans with (nd 0 j k); [|apply linked_trans with (nd 0 0 k)].
    - destruct (near_cell j Ny HY Hj) as (j0 & Hj0 & Ej), (near_cell k Nz HZ Hk) as (k0 & Hk0 & Ek).
      induction i as [|i IH]; [constructor|]. eapply linked_trans; [|apply IH; lia].
      apply (linked_one cs (hex_of Ny Nz i j0 k0)); [apply box_in_cell; lia|apply box_near; lia|apply box_near; lia].
    - destruct (near_cell k Nz HZ Hk) as (k0 & Hk0 & Ek).
      induction j as [|j IH]; [constructor|]. eapply linked_trans; [|apply IH; lia].
      apply (linked_one cs (hex_of Ny Nz 0 j k0)); [apply box_in_cell; lia|apply box_near; lia|apply box_near; lia].
    - induction k as [|k IH]; [constructor|]. eapply linked_trans; [|apply IH; lia].
      apply (linked_one cs (hex_of Ny Nz 0 0 k)); [apply box_in_cell; lia|apply box_near; lia|apply box_near; lia].
  Qed.
  Lemma box_linked n m : (n < List.length (m_points (box_mesh Nx Ny Nz Lx Ly Lz)))%nat -> (m < List.length (m_points (box_mesh Nx Ny Nz Lx Ly Lz)))%nat -> linked cs n m.
  Proof.
    intros Hn Hm. destruct (box_point_inv Nx Ny Nz Lx Ly Lz HX HY HZ n Hn) as (i & j & k & Hi & Hj & Hk & ->).
    destruct (box_point_inv Nx Ny Nz Lx Ly Lz HX HY HZ m Hm) as (i' & j' & k' & Hi' & Hj' & Hk' & ->).
    eapply linked_trans; [apply (box_all_linked i j k); auto|]. apply linked_sym. now apply box_all_linked.
  Qed.
End BoxLinks.
Section RectLinks.
  Context (Nx Ny : nat) (Lx Ly : R) (HX : (0 < Nx)%nat) (HY : (0 < Ny)%nat).
  Let cs := m_cells (rectangle_mesh Nx Ny Lx Ly).
  Let nd i j := (i * (Ny + 1) + j)%nat.
  Lemma rect_in_cell i j : (i < Nx)%nat -> (j < Ny)%nat -> In (quad_of Ny i j) cs.
  Proof.
    intros. unfold cs. rewrite <- (rect_cell Nx Ny Lx Ly HX HY i j) by auto. apply nth_In. rewrite rectangle_rows by auto. cbn [m_cells]. unfold row.
    rewrite map_length, seq_length. apply add_lt; lia.
  Qed.
  Lemma rect_near i j i' j' : (i' = i \/ i' = (i + 1)%nat) -> (j' = j \/ j' = (j + 1)%nat) -> In (nd i' j') (quad_of Ny i j).
  Proof. intros [->| ->] [->| ->]; unfold quad_of, nd; cbn [In]; tauto. Qed.
  Lemma rect_all_linked i j : (i <= Nx)%nat -> (j <= Ny)%nat -> linked cs (nd i j) (nd 0 0).
  Proof.
    intros Hi Hj. apply linked_trans with (nd 0 j).
    - destruct (near_cell j Ny HY Hj) as (j0 & Hj0 & Ej).
      induction i as [|i IH]; [constructor|]. eapply linked_trans; [|apply IH; lia].
      apply (linked_one cs (quad_of Ny i j0)); [apply rect_in_cell; lia|apply rect_near; lia|apply rect_near; lia].
    - induction j as [|j IH]; [constructor|]. eapply linked_trans; [|apply IH; lia].
      apply (linked_one cs (quad_of Ny 0 j)); [apply rect_in_cell; lia|apply rect_near; lia|apply rect_near; lia].
  Qed.
  Lemma rect_linked n m : (n < List.length (m_points (rectangle_mesh Nx Ny Lx Ly)))%nat -> (m < List.length (m_points (rectangle_mesh Nx Ny Lx Ly)))%nat -> linked cs n m.
  Proof.
    intros Hn Hm. destruct (rect_point_inv Nx Ny Lx Ly HX HY n Hn) as (i & j & Hi & Hj & ->).
    destruct (rect_point_inv Nx Ny Lx Ly HX HY m Hm) as (i' & j' & Hi' & Hj' & ->).
    eapply linked_trans; [apply (rect_all_linked i j); auto|]. apply linked_sym. now apply rect_all_linked.
  Qed.
End RectLinks.

(** any mesh of first-order elements *)
Theorem anchored_one : forall (V : Type) s sqrtK quad fquad normals pts cls v dir f (p : problem Rops V) P kappa alpha beta,
  fe_init (K := Rops) sqrtK s quad fquad normals pts cls v (element_dim s) dir = Ok f -> mesh_ok f -> sharp_rule s (fst quad) ->
  wf_problem p -> (0 < p_num_cells p)%nat -> standard_problem p f -> ivs_ok p -> maps_ok (vec f) (dim f) (maps p) -> bcs_ok p ->
  diffusion_maps kappa alpha beta (maps p) -> diffusive kappa alpha beta p f P ->
  (forall c q, (c < p_num_cells p)%nat -> (q < num_quads f)%nat -> 0 < kappa (iv_at p c q)) -> anchored f ->
  no_free_change p [P] /\ one_solution p [P].
Proof.
  intros V s sqrtK quad fquad normals pts cls v dir f p P kappa alpha beta B MO SH WF NC STD IVS MAPS BC DM DIFF KP AN.
  assert (NF : no_free_field kappa alpha beta p f P).
  { apply (anchored_free s sqrtK quad fquad normals pts cls v dir f B MO SH P p kappa alpha beta (fes_f p f STD) AN KP).
    intros c q Hc Hq Z. destruct (proj1 DIFF c q Hc Hq) as (_ & _ & J). specialize (J (or_introl (KP c q Hc Hq))). unfold get_JxW in J. rewrite Z in J.
    cbn in J. rewrite Rmult_0_l in J. lra. }
  split; [exact (diffusion_free p f P kappa alpha beta WF NC STD IVS MAPS DM DIFF NF)|exact (diffusion_one p f P kappa alpha beta WF NC STD IVS MAPS DM DIFF BC NF)].
Qed.
Theorem box_one : forall (V : Type) Nx Ny Nz Lx Ly Lz, (0 < Nx)%nat -> (0 < Ny)%nat -> (0 < Nz)%nat -> 0 < Lx -> 0 < Ly -> 0 < Lz ->
  let M := box_mesh Nx Ny Nz Lx Ly Lz in let P := m_points M in
  forall sqrtK quad fquad normals v dir f (p : problem Rops V) kappa alpha beta,
  fe_init (K := Rops) sqrtK "HEX8" quad fquad normals P (m_cells M) v 3 dir = Ok f ->
  (forall q, (q < List.length (fst quad))%nat -> 0 < nth q (snd quad) (@zero Rops)) -> full_grid 3 (fst quad) -> some_held f ->
  wf_problem p -> standard_problem p f -> ivs_ok p -> maps_ok (vec f) (dim f) (maps p) -> bcs_ok p ->
  diffusion_maps kappa alpha beta (maps p) -> boundary_inds_list p = [] ->
  (forall iv, 0 < kappa iv) -> (forall x iv, 0 <= alpha x iv) -> one_solution p [P].
Proof.
  intros V Nx Ny Nz Lx Ly Lz HX HY HZ LX LY LZ M P sqrtK quad fquad normals v dir f p kappa alpha beta B QW G HELD WF STD IVS MAPS BC DM NB KP AP.
  pose proof (box_num_cells Nx Ny Nz Lx Ly Lz HX HY HZ _ _ _ _ _ _ f B) as NCE.
  assert (CE : p_num_cells p = num_cells f) by (unfold p_num_cells, fe0; now rewrite (fes_f p f STD)).
  apply (anchored_one V "HEX8" sqrtK quad fquad normals P (m_cells M) v dir f p P kappa alpha beta B (box_mesh_ok Nx Ny Nz Lx Ly Lz HX HY HZ _ _ _ _ _ _ f B)); auto.
  - left. auto.
  - rewrite CE, NCE. nia.
  - split.
    + intros c q Hc Hq. split; [apply Rlt_le, KP|]. split; [apply AP|]. intros _. rewrite CE, NCE in Hc.
      refine (eq_ind_r (fun t : R => 0 < t) _ (box_JxW Nx Ny Nz Lx Ly Lz HX HY HZ _ _ _ _ _ _ f B c q Hc)).
      refine (eq_ind_r (fun t : R => 0 < Lx / INR Nx * (Ly / INR Ny) * (Lz / INR Nz) * t) _ (built_weights _ _ _ _ _ _ _ _ _ _ _ B q)).
      assert (0 < INR Nx /\ 0 < INR Ny /\ 0 < INR Nz) as (X & Y & Z) by (repeat split; apply lt_0_INR; auto).
      rewrite (built_quads _ _ _ _ _ _ _ _ _ _ _ B) in Hq. pose proof (QW q Hq).
      repeat apply Rmult_lt_0_compat; try (apply Rinv_0_lt_compat; assumption); auto.
    + intros s e q Hs. rewrite NB in Hs. cbn in Hs. lia.
  - intros n k Hn Hk. destruct (HELD k Hk) as (m & b & Hm & E). exists m, b. split; auto. split; auto.
    rewrite (built_cells _ _ _ _ _ _ _ _ _ _ _ B). rewrite (built_points _ _ _ _ _ _ _ _ _ _ _ B) in Hn, Hm. now apply box_linked.
Qed.
Theorem rect_one : forall (V : Type) Nx Ny Lx Ly, (0 < Nx)%nat -> (0 < Ny)%nat -> 0 < Lx -> 0 < Ly ->
  let M := rectangle_mesh Nx Ny Lx Ly in let P := m_points M in
  forall sqrtK quad fquad normals v dir f (p : problem Rops V) kappa alpha beta,
  fe_init (K := Rops) sqrtK "QUAD4" quad fquad normals P (m_cells M) v 2 dir = Ok f ->
  (forall q, (q < List.length (fst quad))%nat -> 0 < nth q (snd quad) (@zero Rops)) -> full_grid 2 (fst quad) -> some_held f ->
  wf_problem p -> standard_problem p f -> ivs_ok p -> maps_ok (vec f) (dim f) (maps p) -> bcs_ok p ->
  diffusion_maps kappa alpha beta (maps p) -> boundary_inds_list p = [] ->
  (forall iv, 0 < kappa iv) -> (forall x iv, 0 <= alpha x iv) -> one_solution p [P].
Proof.
  intros V Nx Ny Lx Ly HX HY LX LY M P sqrtK quad fquad normals v dir f p kappa alpha beta B QW G HELD WF STD IVS MAPS BC DM NB KP AP.
  pose proof (rect_num_cells Nx Ny Lx Ly HX HY _ _ _ _ _ _ f B) as NCE.
  assert (CE : p_num_cells p = num_cells f) by (unfold p_num_cells, fe0; now rewrite (fes_f p f STD)).
  apply (anchored_one V "QUAD4" sqrtK quad fquad normals P (m_cells M) v dir f p P kappa alpha beta B (rect_mesh_ok Nx Ny Lx Ly HX HY _ _ _ _ _ _ f B)); auto.
  - right. left. auto.
  - rewrite CE, NCE. nia.
  - split.
    + intros c q Hc Hq. split; [apply Rlt_le, KP|]. split; [apply AP|]. intros _. rewrite CE, NCE in Hc.
      refine (eq_ind_r (fun t : R => 0 < t) _ (rect_JxW Nx Ny Lx Ly HX HY _ _ _ _ _ _ f B c q Hc)).
      refine (eq_ind_r (fun t : R => 0 < Lx / INR Nx * (Ly / INR Ny) * t) _ (built_weights _ _ _ _ _ _ _ _ _ _ _ B q)).
      assert (0 < INR Nx /\ 0 < INR Ny) as (X & Y) by (repeat split; apply lt_0_INR; auto).
      rewrite (built_quads _ _ _ _ _ _ _ _ _ _ _ B) in Hq. pose proof (QW q Hq).
      repeat apply Rmult_lt_0_compat; try (apply Rinv_0_lt_compat; assumption); auto.
    + intros s e q Hs. rewrite NB in Hs. cbn in Hs. lia.
  - intros n k Hn Hk. destruct (HELD k Hk) as (m & b & Hm & E). exists m, b. split; auto. split; auto.
    rewrite (built_cells _ _ _ _ _ _ _ _ _ _ _ B). rewrite (built_points _ _ _ _ _ _ _ _ _ _ _ B) in Hn, Hm. now apply rect_linked.
Qed.

(** every pass of the quiet element simulation *)
Theorem thermal_one : forall quad fquad normals pts cls p solve tab,
  problem_init sqrt 3 [thermal_var "HEX8" quad fquad normals pts cls] (Some [Loc1 (fun _ => true)]) thermal_maps (fun a b => (a, b)) = Ok p ->
  mesh_arg_ok (thermal_var "HEX8" quad fquad normals pts cls) -> List.length tab = List.length cls -> cls <> [] -> full_grid 3 (fst quad) ->
  forall passes r rest ps f, quiet_element_simulation solve thermal_bc p tab passes = Ok r -> passes = (rest ++ [ps])%list -> fes (sm_problem (fst r)) = [f] ->
  0 < ps_dt ps ->
  (forall c q, (c < List.length cls)%nat -> nth c (active_after (List.length cls) tab passes) false = true -> (q < num_quads f)%nat -> 0 < get_JxW pts f c q) ->
  no_free_change (sm_problem (fst r)) [pts] /\ affine_residual (sm_problem (fst r)) [pts] /\ one_solution (sm_problem (fst r)) [pts].
Proof.
  intros quad fquad normals pts cls p solve tab INIT M LT NC0 G passes r rest ps f RUN LAST FE DT JP.
  set (now := active_after (List.length cls) tab passes) in *.
  destruct (pass_facts sqrt "HEX8" quad fquad normals pts cls p solve tab INIT M LT passes r RUN rest ps f LAST FE)
    as (b & ft & psb & q & ND & IB & (dir & B) & EC & EP & EPB & LB & LF & MK & SV & QQ & f1 & F1 & F2 & F3).
  pose proof (pass_mesh sqrt "HEX8" quad fquad normals pts cls p solve tab INIT M LT passes r RUN rest ps f LAST FE) as PM.
  fold now in EPB, MK, QQ.
  assert (LN : List.length now = List.length (cells f)) by (unfold now; now rewrite after_length, EC).
  assert (BC : bcs_ok (sm_problem (fst r))).
  { intros f2 I2. rewrite FE in I2. destruct I2 as [<-|[]]. destruct (dirichlet_update f1 f _ _ _ F3) as (D & EP1 & _). rewrite <- EP1 in D.
    exact (proj1 (dirichlet_prescribed f _ _ _ D)). }
  assert (QUIET : forall n, (n < List.length pts)%nat -> ~ active_node cls now n -> prescribed f n 0 = Some 300).
  { intros n Hn NA. rewrite <- F1, <- F2 in QQ. destruct (quiet_held f1 f now q 300 QQ F3 n) as (H1 & _); [now rewrite F2|]. rewrite F1 in H1. apply H1.
    intros c Hc A I. apply NA. exists c. auto. }
  rewrite <- EC in IB. rewrite EPB in *. set (pp := the_problem f b (sm_T (fst r)) (ps_dt ps) (ps_center ps) (ps_switch ps) now ft) in *.
  pose proof (step_wf f PM b IB (sm_T (fst r)) (ps_dt ps) (ps_center ps) (ps_switch ps) now ft) as WF. fold pp in WF.
  pose proof (step_std f b (sm_T (fst r)) (ps_dt ps) (ps_center ps) (ps_switch ps) now ft) as STD. fold pp in STD.
  pose proof (step_ivs f b (sm_T (fst r)) (ps_dt ps) (ps_center ps) (ps_switch ps) now ft LN LF) as IVS. fold pp in IVS.
  pose proof (step_maps sqrt "HEX8" quad fquad normals pts cls dir f B b (sm_T (fst r)) (ps_dt ps) (ps_center ps) (ps_switch ps) now ft LN LF) as MAPS. fold pp in MAPS.
  assert (NC : (0 < p_num_cells pp)%nat) by (change (0 < List.length (cells f))%nat; rewrite EC; destruct cls; [congruence|cbn; lia]).
  set (kappa := fun iv : list tval => match iv with [_; _; TBool active] => if active then 15 else 0 | _ => 0 end).
  set (alpha := fun (_ : nat -> R) (iv : list tval) => match iv with [TVec _; TNum dt; TBool active] => if active then rho * Cp / dt else 0 | _ => 0 end).
  set (beta := fun (_ : nat) (_ : nat -> R) (_ : list tval) => 0).
  assert (DM : diffusion_maps kappa alpha beta (maps pp)).
  { split; [|split]; cbn.
    - intros Gd iv k j. unfold thermal_tensor, kappa. destruct iv as [|x [|y [|z [|w iv]]]]; cbn; try (req; ring). destruct z; cbn; try (req; ring). destruct b0; cbn; req; ring.
      destruct z; req; ring.
    - intros u u' x iv k. unfold thermal_mass, alpha. destruct iv as [|a [|c [|z [|w iv]]]]; cbn; try (req; ring); destruct a; cbn; try (req; ring); destruct c; cbn; try (req; ring); destruct z; cbn; try (req; ring).
      destruct b0; cbn; unfold Rdiv; req; ring.
    - intros sms s sm E Es u u' x iv k. injection E as <-. destruct s as [|s]; [|destruct s; discriminate]. injection Es as <-. unfold thermal_flux, beta.
      rewrite Rmult_0_l. req. ring. }
  assert (IV : forall c q, (c < List.length cls)%nat -> iv_at pp c q = [TVec (convert_from_dof_to_quad f (sm_T (fst r)) c q); TNum (ps_dt ps); TBool (nth c now false)]).
  { intros c q0 Hc. unfold pp. apply step_iv; auto. now rewrite EC. }
  assert (CC : p_num_cells pp = List.length cls) by (change (List.length (cells f) = List.length cls); now rewrite EC).
  assert (POS : 0 < rho * Cp / ps_dt ps) by (unfold rho, Cp; apply Rmult_lt_0_compat; [lra|now apply Rinv_0_lt_compat]).
  assert (DIFF : diffusive kappa alpha beta pp f pts).
  { split.
    - intros c q0 Hc Hq. rewrite CC in Hc. unfold alpha_at. rewrite (IV c q0 Hc). unfold kappa, alpha. destruct (nth c now false) eqn:A.
      + split; [lra|]. split; [lra|]. intros _. now apply JP.
      + split; [lra|]. split; [lra|]. lra.
    - intros s e q0 Hs He Hq. unfold beta_at, beta. split; lra. }
  assert (NF : no_free_field kappa alpha beta pp f pts).
  { intros d SD HZ _ ZV _ n k Hn Hk. rewrite (built_vec _ _ _ _ _ _ _ _ _ _ _ B) in Hk. assert (k = 0)%nat as -> by lia. rewrite EP in Hn.
    assert (SH : shaped (List.length (points f)) 1 d).
    { destruct SD as [_ SD]. specialize (SD 0%nat). unfold fe_of in SD. cbn in SD. rewrite (built_vec _ _ _ _ _ _ _ _ _ _ _ B) in SD. apply SD. lia. }
    destruct (active_dec cls tab LT passes n) as [A|A]; fold now in A.
    - destruct A as (c & Hc & A & I). apply (In_nth _ _ 0%nat) in I as (a & Ha & <-).
      assert (Hc' : (c < List.length (cells f))%nat) by (now rewrite EC).
      destruct (PM c Hc') as (LC & _). rewrite EC in LC. rewrite LC in Ha. rewrite <- EC.
      rewrite <- (cell_entry 1 f PM d c a 0%nat SH Hc' Ha).
      apply (hex_zero "HEX8"%string sqrt quad fquad normals pts cls 1 dir f B (or_introl (conj eq_refl G)) d c 0%nat eq_refl); auto.
      intros q0 Hq. apply ZV; auto.
      + rewrite (built_vec _ _ _ _ _ _ _ _ _ _ _ B). lia.
      + unfold alpha_at. rewrite (IV c q0 Hc). unfold alpha. rewrite A. exact POS.
    - eapply HZ; [now rewrite EP|rewrite (built_vec _ _ _ _ _ _ _ _ _ _ _ B); lia|]. now apply QUIET. }
  split; [exact (diffusion_free pp f pts kappa alpha beta WF NC STD IVS MAPS DM DIFF NF)|].
  split; [exact (diffusion_affine pp f pts kappa alpha beta WF NC STD IVS MAPS DM)|].
  exact (diffusion_one pp f pts kappa alpha beta WF NC STD IVS MAPS DM DIFF BC NF).
Qed.

(** solver() returns the solution *)
Theorem posed_solver : forall (O V : Type) ravel_obj obj_of_sol (B : backends O) jvp1 jvp2 (p : problem Rops V) m2 pts kf,
  wf_problem p -> (0 < p_num_cells p)%nat -> ivs_ok p -> kernels_ok p kf -> bcs_ok p -> (forall f, In f (fes p) -> bc_in_range f) ->
  affine_residual p pts -> no_free_change p pts -> right_jvp jvp1 p pts kf ->
  maps_agree Fin (fe0 p) (maps p) m2 -> jvp_agree (K1 := Rops) (K2 := Xops) Fin jvp1 jvp2 -> regular_mesh p pts ->
  let pX := lift_problem Fin m2 p in
  exists x, solves p pts x /\ (forall y, solves p pts y -> y = x) /\
  forall cb mk lk nk so m fuel (cfg : dict O) lin tol rtol (u0 : list Rops),
  resolve_solver_options mk lk nk so = Ok (m, cfg) -> m <> "arc_length"%string -> m <> "dynamic_relax"%string -> exact_linear B lin ->
  (PyDict.lookup cfg "linear"%string = None /\ lin = [] \/ PyDict.lookup cfg "linear"%string = Some (VDict lin)) ->
  option_value cfg "tol"%string (/ 10 ^ 6) tol -> 0 <= tol -> option_value cfg "rel_tol"%string (/ 10 ^ 8) rtol ->
  starts_from ravel_obj pX None cfg (lift1 Fin u0) -> List.length u0 = all_dofs (global_shapes p) ->
  solver ravel_obj obj_of_sol B jvp2 pX (lift3 Fin pts) None cb mk lk nk (S fuel) so = Done (Ok (SolOnly (lift3 Fin x))) \/
  solver ravel_obj obj_of_sol B jvp2 pX (lift3 Fin pts) None cb mk lk nk (S fuel) so = Done (Ok (SolOnly (lift3 Fin (unravel (sol_shapes p) u0)))) /\
    exists r x, newton_residual pX (lift3 Fin pts) None (lift1 Fin u0) r /\ xnorm r = Fin x /\ (x <= tol \/ x <= rtol * x).
Proof.
  intros O V ravel_obj obj_of_sol B jvp1 jvp2 p m2 pts kf WF NC IVS KER BC RNG AFF FREE RJ MA JA RM pX.
  destruct (one_from_free p pts kf WF NC IVS KER BC AFF FREE) as (x & SX & UQ).
  exists x. split; [exact SX|]. split; [exact UQ|].
  intros cb mk lk nk so m fuel cfg lin tol rtol u0 RES M1 M2 EX LIN TOL T0 RTOL ST L0.
  destruct (solver_one_step O V ravel_obj obj_of_sol B jvp1 jvp2 p m2 pts kf WF NC IVS KER BC RNG AFF RJ MA JA RM (ex_intro _ x SX) cb mk lk nk so m fuel cfg lin tol rtol u0 RES M1 M2 EX LIN TOL T0 RTOL ST L0)
    as (sol & E & CASE).
  destruct CASE as [HS|(-> & HR)]; [left|right; auto]. rewrite (UQ sol HS) in E. exact E.
Qed.

(** without reaction a component that is held nowhere can be shifted *)
Section Shift.
  Context {V : Type} (s : string) (sqrtK : Rops -> Rops) (quad fquad : list (list Rops) * list Rops) (normals : nat -> nat -> Rops) (pts0 : list (list Rops)) (cls : list (list nat)) (v : nat)
    (dir : option (list (location_fn Rops) * list nat * list (list Rops -> Rops))) (f : fe Rops) (p : problem Rops V) (P : list (list Rops)).
  Variables (kappa : list V -> R) (alpha : (nat -> R) -> list V -> R) (beta : nat -> (nat -> R) -> list V -> R).
  Hypothesis BUILT : fe_init (K := Rops) sqrtK s quad fquad normals pts0 cls v (element_dim s) dir = Ok f.
  Hypothesis LAG : In s nine_names.
  Hypothesis MESH : mesh_ok f.
  Hypothesis WF : wf_problem p.
  Hypothesis NC : (0 < p_num_cells p)%nat.
  Hypothesis STD : standard_problem p f.
  Hypothesis IVS : ivs_ok p.
  Hypothesis MAPS : maps_ok (vec f) (dim f) (maps p).
  Hypothesis DM : diffusion_maps kappa alpha beta (maps p).
  Hypothesis A0 : forall x iv, alpha x iv = 0.
  Hypothesis B0 : forall s x iv, beta s x iv = 0.
  Variable k0 : nat.
  Hypothesis HK0 : (k0 < vec f)%nat.
  Hypothesis FREE : forall n, (n < List.length (points f))%nat -> prescribed f n k0 = None.
  Hypothesis NP : (0 < List.length (points f))%nat.
  Let N := List.length (points f).
  Let d := fld N (vec f) (fun g => if (g mod vec f =? k0)%nat then 1 else 0).
  Lemma shift_get n k : (n < N)%nat -> (k < vec f)%nat -> get2 (@zero Rops) d n k = if (k =? k0)%nat then 1 else 0.
  Proof.
    intros Hn Hk. refine (eq_trans (fld_get N (vec f) _ n k Hn Hk) _). rewrite Nat.add_comm, Nat.mod_add by lia. now rewrite Nat.mod_small by auto.
  Qed.
  Lemma shift_ok : sol_ok p [d].
  Proof. apply (one_shape p f NC STD). apply fld_shaped. Qed.
  Lemma shift_flat c q k j : (c < num_cells f)%nat -> (k < vec f)%nat -> (j < dim f)%nat -> sol_to_grad P f d c q k j = 0.
  Proof.
    intros Hc Hk Hj. unfold sol_to_grad.
    rewrite (Rsum_ext _ _ (fun a => (if (k =? k0)%nat then 1 else 0) * get_shape_grads P f c q a j)).
    2: { intros a Ha. destruct (MESH c Hc) as (LC & IN). rewrite (cell_entry (vec f) f MESH d c a k (fld_shaped _ _ _) Hc Ha). rewrite shift_get; auto. apply IN, nth_In. now rewrite LC. }
    rewrite Rsum_mul. enough (Z : sum_n (K := Rops) (num_nodes f) (fun a => get_shape_grads P f c q a j) = 0) by (rewrite Z; req; ring).
    unfold get_shape_grads. etransitivity; [apply (sum_n_swap' Rops_ring)|].
    rewrite (Rsum_ext _ _ (fun _ => 0 * 0)); [rewrite Rsum_mul; req; ring|]. intros i Hi. etransitivity; [apply (sum_n_mul_r' Rops_ring)|].
    rewrite (grads_sum Rops_ring _ _ _ _ _ _ _ _ _ _ _ BUILT LAG) by (now rewrite <- (built_dim _ _ _ _ _ _ _ _ _ _ _ BUILT)). cbn; req; ring.
  Qed.
  Theorem shift_unseen : ~ no_free_change p [P].
  Proof.
    intros NF. set (x := fld N (vec f) (fun _ => 0)). assert (SX : sol_ok p [x]) by (apply (one_shape p f NC STD), fld_shaped).
    pose proof (diff_affine_maps p f P kappa alpha beta WF NC STD DM) as AM.
    pose proof (ares_ok p f P WF NC STD IVS MAPS x SX) as EX. pose proof (along_ok p x SX d 1 shift_ok) as SA.
    pose proof (ares_ok p f P WF NC STD IVS MAPS _ SA) as EY.
    assert (CE : p_num_cells p = num_cells f) by (unfold p_num_cells, fe0; now rewrite (fes_f p f STD)).
    assert (FL : length (fes p) = 1%nat /\ fe_of p 0 = f) by (unfold fe_of; rewrite (fes_f p f STD); auto). destruct FL as [FL F0].
    specialize (NF [x] [d] _ _ SX shift_ok EX EY).
    assert (Z : get2 (@zero Rops) d 0 k0 = 0).
    { apply (NF) with (v := 0%nat) (n := 0%nat) (j := k0); rewrite ?FL, ?F0; auto.
      intros w n j Hw Hn Hj. assert (w = 0)%nat as -> by lia. rewrite F0 in *. cbn [nth].
      destruct (prescribed f n j) as [b|] eqn:Q.
      - rewrite shift_get by auto. destruct (j =? k0)%nat eqn:J; auto. apply Nat.eqb_eq in J. subst j. rewrite FREE in Q by auto. discriminate.
      - rewrite !(ares_entry p f P) by auto. rewrite (work_line p f P _ WF NC STD IVS MAPS AM x d _ 1 SX shift_ok) by (apply (one_shape p f NC STD), fld_shaped).
        enough (T : forall w, tangent_form sqrt p f P (dtan p f P kappa alpha beta) d w = 0) by (rewrite T; req; ring).
        intros w. unfold tangent_form. cbn [t_stress t_source t_traction dtan].
        replace (over_cells _ _ _ _) with 0; [replace (over_faces _ _ _ _ _) with 0; [req; ring|]|].
        + symmetry. unfold over_faces. rewrite (Rsum_ext _ _ (fun _ => 0 * 0)); [rewrite Rsum_mul; req; ring|]. intros s0 _. rewrite (Rsum_ext _ _ (fun _ => 0 * 0)); [rewrite Rsum_mul; req; ring|]. intros e _. cbv zeta.
          rewrite (Rsum_ext _ _ (fun _ => 0 * 0)); [rewrite Rsum_mul; req; ring|]. intros q _. unfold dot1. rewrite (Rsum_ext (vec f) _ (fun _ => 0 * 0)); [rewrite Rsum_mul; req; cbn; ring|]. intros k _.
          unfold beta_at. rewrite B0. cbn; req; ring.
        + symmetry. unfold over_cells. rewrite (Rsum_ext _ _ (fun _ => 0 * 0)); [rewrite Rsum_mul; req; ring|]. intros c Hc.
          rewrite (Rsum_ext _ _ (fun _ => 0 * 0)); [rewrite Rsum_mul; req; ring|]. intros q _. unfold dot1, dot2.
          rewrite (Rsum_ext (vec f) (fun k => mul (alpha_at alpha p f P c q * convert_from_dof_to_quad f d c q k) _) (fun _ => 0 * 0)) by (intros k _; unfold alpha_at; rewrite A0; cbn; req; ring).
          rewrite (Rsum_ext (vec f) _ (fun _ => 0 * 0)).
          * rewrite !Rsum_mul. cbn; req; ring.
          * intros k Hk. rewrite (Rsum_ext (dim f) _ (fun _ => 0 * 0)); [rewrite Rsum_mul; cbn; req; ring|]. intros j0 Hj0. rewrite shift_flat by (rewrite <- ?CE; auto). cbn; req; ring. }
    rewrite shift_get, Nat.eqb_refl in Z by auto. lra.
  Qed.
End Shift.
Theorem held_needed : forall (V : Type) s sqrtK quad fquad normals pts cls v dir f (p : problem Rops V) P kappa alpha beta,
  fe_init (K := Rops) sqrtK s quad fquad normals pts cls v (element_dim s) dir = Ok f -> In s nine_names -> mesh_ok f ->
  wf_problem p -> (0 < p_num_cells p)%nat -> standard_problem p f -> ivs_ok p -> maps_ok (vec f) (dim f) (maps p) -> bcs_ok p ->
  diffusion_maps kappa alpha beta (maps p) -> (forall x iv, alpha x iv = 0) -> (forall s x iv, beta s x iv = 0) -> (0 < List.length (points f))%nat ->
  one_solution p [P] -> some_held f.
Proof.
  intros V s sqrtK quad fquad normals pts cls v dir f p P kappa alpha beta B LAG MO WF NC STD IVS MAPS BC DM A0 B0 NP ONE k Hk.
  pose proof (free_from_one p [P] (std_kf p) WF NC IVS (std_kernels p f STD) BC (diffusion_affine p f P kappa alpha beta WF NC STD IVS MAPS DM) ONE) as NF.
  destruct (existsb (fun n => match prescribed f n k with Some _ => true | None => false end) (seq 0 (List.length (points f)))) eqn:E.
  - apply existsb_exists in E as (n & I & E). apply in_seq in I. exists n. destruct (prescribed f n k) as [b|]; [|discriminate]. exists b. split; [lia|reflexivity].
  - exfalso. revert NF. apply (shift_unseen s sqrtK quad fquad normals pts cls v dir f p P kappa alpha beta B LAG MO WF NC STD IVS MAPS DM A0 B0 k Hk); auto.
    intros n Hn. destruct (prescribed f n k) as [b|] eqn:Q; auto. assert (X : existsb (fun n => match prescribed f n k with Some _ => true | None => false end) (seq 0 (List.length (points f))) = true).
    { apply existsb_exists. exists n. split; [apply in_seq; lia|]. now rewrite Q. } congruence.
Qed.
