(** Concrete runs on box meshes, for C77. *)
From Coq Require Import String Reals List Arith Lia Lra Bool.
From Verif Require Import Num Arr ArrFacts Fe Problem FeFacts SpecAssembly SpecBc BcFacts Basis SpecBasis SpecFe SpecSelect SelectFacts GeomFacts ElasticFacts Init PatchFacts
  Mesh MeshFacts MeshMain MeshFe DynamicsBox Plasticity Lagrangian SpecLagrangian LagrangianFacts LagrangianMain LagrangianLoop.
Import ListNotations.
Local Open Scope R_scope.
Local Notation solver := (nat -> problem Rops ul_var -> list (list Rops) -> result (list (list Rops))).

(** the loop returns if the solver does *)
Lemma loop_total (f : fe Rops) points0 tags rho (solve : solver) : nodal f points0 -> List.length rho = num_cells f -> returns_nodal f solve ->
  (forall i p P D, fes p = [set_vals f (step_vals f D)] -> nodal f P -> exists u, solve i p P = Ok u) ->
  forall n step p vals F u lam, fes p = [set_vals f vals] -> nodal f u -> List.length F = num_cells f -> exists steps, ul_loop points0 tags rho solve n step p F u lam = Ok steps.
Proof.
  intros HP LR RN TOT. induction n as [|n IH]; intros step p vals F u lam FES Hu LF; [now exists []|]. cbn [ul_loop].
  rewrite (set_params_ok points0 tags p (set_vals f vals)); [|exact FES|congruence]. cbn [bind fst snd].
  change (set_vals (set_vals f vals) ?x) with (set_vals f x). change (step_vals (set_vals f vals)) with (step_vals f).
  match goal with |- context [solve step ?pp ?P] => destruct (TOT step pp P _ eq_refl) as (du & E) end; [now apply add2_nodal|].
  rewrite E. cbn [bind]. match goal with |- context [ul_loop points0 tags rho solve n ?s ?pp ?FF ?uu ?l] => destruct (IH s pp _ FF uu l eq_refl) as (rest & E2) end.
  - apply add2_nodal; [exact Hu|exact (RN _ _ _ _ E)].
  - unfold push_F_prev. rewrite map_length, seq_length. reflexivity.
  - rewrite E2. cbn [bind]. eexists. reflexivity.
Qed.
Lemma run_total (p : problem Rops ul_var) (f : fe Rops) points0 tags rho (solve : solver) n : fes p = [f] -> nodal f points0 -> List.length rho = num_cells f -> returns_nodal f solve ->
  (forall i p P D, fes p = [set_vals f (step_vals f D)] -> nodal f P -> exists u, solve i p P = Ok u) ->
  exists J steps, end_to_end_ul rho points0 tags p solve n = Ok (J, steps).
Proof.
  intros FES HP LR RN TOT. unfold end_to_end_ul. unfold fe0. rewrite FES. cbn [hd].
  destruct (loop_total f points0 tags (map clip rho) solve HP ltac:(now rewrite map_length) RN TOT n 0 p (vals_list f) (eyes f) (zeros_like points0) 0) as (steps & E).
  - now rewrite set_vals_same.
  - now apply zeros_nodal.
  - apply repeat_length.
  - rewrite E. cbn [bind]. eauto.
Qed.

(** a solver that doubles the body in every step *)
Definition is_nodal (f : fe Rops) (P : list (list Rops)) : bool := ((List.length P =? List.length (points f)) && forallb (fun row => List.length row =? 3) P)%nat.
Lemma is_nodal_ok f P : is_nodal f P = true <-> nodal f P.
Proof.
  unfold is_nodal, nodal, shaped. rewrite andb_true_iff, Nat.eqb_eq, forallb_forall. split; intros (A & B); (split; [exact A|]); intros r Hr; specialize (B r Hr); now apply Nat.eqb_eq.
Qed.
Definition doubling (f : fe Rops) : solver := fun _ _ P => if is_nodal f P then Ok P else Err ValueErr.
(** a solver that returns the prescribed values and zeros elsewhere *)
Definition prescribing (f : fe Rops) : solver := fun _ p _ =>
  if forallb (fun e => (fst (fst e) <? List.length (points f)) && (snd (fst e) <? 3))%nat (bc_entries (fe0 p))
  then Ok (map (fun n => map (fun k => match prescribed (fe0 p) n k with Some b => b | None => 0 end) (seq 0 3)) (seq 0 (List.length (points f)))) else Err ValueErr.
Lemma doubling_nodal f : returns_nodal f (doubling f).
Proof. intros i p P u. unfold doubling. destruct (is_nodal f P) eqn:E; [|discriminate]. intros H. injection H as <-. now apply is_nodal_ok. Qed.
Lemma prescribing_nodal f : returns_nodal f (prescribing f).
Proof.
  intros i p P u. unfold prescribing. destruct (forallb _ _); [|discriminate]. intros H. injection H as <-. split; [now rewrite map_length, seq_length|].
  intros row H. apply in_map_iff in H as (n & <- & _). reflexivity.
Qed.
Lemma prescribing_meets f : meets_prescribed (prescribing f).
Proof.
  intros i p P u n k b. unfold prescribing. destruct (forallb _ _) eqn:R; [|discriminate]. intros H PR. injection H as <-.
  rewrite forallb_forall in R. pose proof PR as PR'. rewrite prescribed_last in PR'. apply last_upd_In in PR'. apply R in PR'. cbn [fst snd] in PR'.
  apply andb_prop in PR' as (A & B). apply Nat.ltb_lt in A, B. unfold get2.
  rewrite (nth_map_in _ _ n 0%nat) by now rewrite seq_length. rewrite seq_nth by exact A.
  destruct k as [|[|[|k]]]; [..|lia]; cbn [map seq nth Nat.add]; now rewrite PR.
Qed.
Lemma keys_range f tags : dirichlet_ok (points f) (fst (fst (build_dirichlet_bc_by_tag tags))) (snd (fst (build_dirichlet_bc_by_tag tags))) (snd (build_dirichlet_bc_by_tag tags))
    (node_inds_list f) (vec_inds_list f) (vals_list f) -> forall u, In u (bc_keys f) -> (fst u < List.length (points f) /\ snd u < 3)%nat.
Proof.
  intros (L1 & L2 & L3 & S) (n & k) H. apply in_flat_map in H as (i & Hi & H). apply in_seq in Hi. rewrite L1 in Hi. cbn in Hi.
  destruct (S i ltac:(cbn; lia)) as (S1 & _ & S3 & _). rewrite S3 in H. split.
  - apply in_combine_l in H. now apply S1 in H.
  - apply in_combine_r in H. apply repeat_spec in H. cbn [snd]. subst k. destruct i as [|[|[|[|[|[|i]]]]]]; cbn; lia.
Qed.

(** doubling: Jacobians double *)
Lemma det_scale (a : R) (A : mR) : det (K := Rops) 3 (fun i j => a * A i j) = a ^ 3 * det (K := Rops) 3 A.
Proof. unfold det, minor. cbn. ring. Qed.
Section Doubling.
  Variables (p : problem Rops ul_var) (f : fe Rops) (points0 : list (list Rops)) (tags : list nat) (rho_design : list Rops).
  Hypothesis UL : ul_problem p f.
  Hypothesis HP : nodal f points0.
  Hypothesis LR : List.length rho_design = num_cells f.
  Variables (n : nat) (J : R) (steps : list ul_step).
  Hypothesis RUN : end_to_end_ul rho_design points0 tags p (doubling f) n = Ok (J, steps).
  Let RS := run_steps p f points0 tags rho_design (doubling f) UL HP LR (doubling_nodal f) n J steps RUN.
  Let x i := add2 points0 (displacement points0 steps i).
  Lemma doubled_nodal i : (i <= n)%nat -> nodal f (x i).
  Proof. intros Hi. apply add2_nodal; [exact HP|]. exact (run_displacement p f points0 tags rho_design (doubling f) UL HP LR (doubling_nodal f) n J steps RUN i Hi). Qed.
  Lemma doubled_delta i : (i < n)%nat -> us_delta (nth i steps no_step) = x i.
  Proof.
    intros Hi. destruct RS as (L & ST). destruct (ST i Hi) as [_ S2 S3 _ _ _ _ _]. unfold doubling in S3. destruct (is_nodal _ _); [|discriminate]. injection S3 as E. rewrite <- E. exact S2.
  Qed.
  Lemma doubled i c q : (i <= n)%nat -> (c < num_cells f)%nat ->
    eq3 (K := Rops) (jacobian_dx_deta (x i) f c q) (fun a b => 2 ^ i * jacobian_dx_deta points0 f c q a b).
  Proof.
    intros Hi Hc. induction i as [|i IH]; intros a b Ha Hb.
    - unfold x. rewrite (jac_add f (ul_node p f UL) points0 (displacement points0 steps 0) c q HP (zeros_nodal f points0 HP) Hc a b Ha Hb).
      assert (Z : grad_ref f (displacement points0 steps 0) c q a b = 0).
      { change (displacement points0 steps 0) with (zeros_like points0). unfold grad_ref. apply (ProblemFacts.sum_n_zero_ext Rops_ring). intros m Hm. unfold cell_sol_at. rewrite gather_in.
        - pose proof (zeros_at points0 (cell_node f c m) a) as E. cbn [zero Rops] in *. rewrite E. cbn [mul Rops]. req; ring.
        - rewrite (proj1 (zeros_nodal f points0 HP)). now apply (ul_node p f UL). }
      rewrite Z. cbn [add Rops]. req; ring.
    - assert (Hd : nodal f (displacement points0 steps i)) by (apply (run_displacement p f points0 tags rho_design (doubling f) UL HP LR (doubling_nodal f) n J steps RUN); lia).
      assert (E : x (S i) = add2 points0 (add2 (displacement points0 steps i) (x i))).
      { unfold x at 1. f_equal. rewrite <- (doubled_delta i) by lia. unfold displacement at 1. rewrite (firstn_S_nth i steps no_step) by (rewrite (proj1 RS); lia). rewrite map_app, fold_left_app. reflexivity. }
      pose proof (doubled_nodal i ltac:(lia)) as Hx.
      rewrite E, (jac_add f (ul_node p f UL) points0 _ c q HP (add2_nodal f _ _ Hd Hx) Hc a b Ha Hb), (grad_ref_add f (ul_node p f UL) _ _ c q Hd Hx Hc a b Ha Hb).
      assert (G : grad_ref f (x i) c q a b = jacobian_dx_deta (x i) f c q a b) by reflexivity. rewrite G.
      pose proof (jac_add f (ul_node p f UL) points0 _ c q HP Hd Hc a b Ha Hb) as A. fold (x i) in A. specialize (IH ltac:(lia) a b Ha Hb). rewrite IH in A |- *.
      cbn [add Rops] in *. cbn [pow]. lra.
  Qed.
  Lemma doubled_det i c q : (i <= n)%nat -> (c < num_cells f)%nat -> det (K := Rops) 3 (jacobian_dx_deta (x i) f c q) = (2 ^ i) ^ 3 * det (K := Rops) 3 (jacobian_dx_deta points0 f c q).
  Proof. intros Hi Hc. rewrite (det_ext3 (K := Rops) _ _ (doubled i c q Hi Hc)). apply det_scale. Qed.
  Hypothesis NS : nonsingular points0 f.
  Lemma doubled_valid i : (i <= n)%nat -> valid_until f points0 steps i.
  Proof.
    intros Hi. split; [exact NS|]. intros j Hj c q Hc Hq. fold (x j). rewrite doubled_det by (auto; lia). apply Rmult_integral_contrapositive. split; [|now apply NS].
    apply pow_nonzero, pow_nonzero. lra.
  Qed.
  Lemma doubled_increment i c q : (i < n)%nat -> (c < num_cells f)%nat -> (q < num_quads f)%nat -> det (K := Rops) 3 (deformation (x i) f (x i) c q) = 8.
  Proof.
    intros Hi Hc Hq. pose proof (doubled_nodal i ltac:(lia)) as Hx. assert (D3 : dim f = 3%nat) by apply UL.
    assert (NZ : det (K := Rops) 3 (jacobian_dx_deta (x i) f c q) <> 0) by (apply (proj2 (doubled_valid i ltac:(lia)) i); auto).
    pose proof (det_ext3 (K := Rops) _ _ (deformation_jac f D3 (ul_node p f UL) (x i) (x i) c q Hx Hx Hc NZ)) as E. rewrite (det_mm Rops_field) in E.
    assert (E2 : det (K := Rops) 3 (jacobian_dx_deta (add2 (x i) (x i)) f c q) = 8 * det (K := Rops) 3 (jacobian_dx_deta (x i) f c q)).
    { replace 8 with (2 ^ 3) by (cbn; lra). rewrite <- det_scale. apply (det_ext3 (K := Rops)). intros a b Ha Hb. rewrite (jac_add f (ul_node p f UL) (x i) (x i) c q Hx Hx Hc a b Ha Hb).
      assert (G : grad_ref f (x i) c q a b = jacobian_dx_deta (x i) f c q a b) by reflexivity. rewrite G. cbn [add Rops]. req; ring. }
    rewrite E2 in E. cbn [mul Rops] in E. apply (Rmult_eq_reg_r (det (K := Rops) 3 (jacobian_dx_deta (x i) f c q))); [exact E|exact NZ].
  Qed.
  Lemma doubled_total i c q : (i < n)%nat -> (c < num_cells f)%nat -> (q < num_quads f)%nat ->
    det (K := Rops) 3 (deformation points0 f (add2 (displacement points0 steps i) (x i)) c q) = (2 ^ S i) ^ 3.
  Proof.
    intros Hi Hc Hq. pose proof (doubled_nodal i ltac:(lia)) as Hx. assert (D3 : dim f = 3%nat) by apply UL. pose proof (NS c q Hc Hq) as NZ.
    assert (E : add2 (displacement points0 steps i) (x i) = displacement points0 steps (S i)).
    { rewrite <- (doubled_delta i) by lia. unfold displacement at 2. rewrite (firstn_S_nth i steps no_step) by (rewrite (proj1 RS); lia). rewrite map_app, fold_left_app. reflexivity. }
    rewrite E. assert (Hd : nodal f (displacement points0 steps (S i))) by (apply (run_displacement p f points0 tags rho_design (doubling f) UL HP LR (doubling_nodal f) n J steps RUN); lia).
    pose proof (det_ext3 (K := Rops) _ _ (deformation_jac f D3 (ul_node p f UL) points0 _ c q HP Hd Hc NZ)) as E1. rewrite (det_mm Rops_field) in E1. fold (x (S i)) in E1.
    rewrite doubled_det in E1 by (auto; lia). cbn [mul Rops] in E1. apply (Rmult_eq_reg_r (det (K := Rops) 3 (jacobian_dx_deta points0 f c q))); [exact E1|exact NZ].
  Qed.
End Doubling.

(** the constructor *)
Section Box.
  Context (Nx Ny Nz : nat) (Lx Ly Lz : R) (HX : (0 < Nx)%nat) (HY : (0 < Ny)%nat) (HZ : (0 < Nz)%nat) (LX : 0 < Lx) (LY : 0 < Ly) (LZ : 0 < Lz).
  Let M := box_mesh Nx Ny Nz Lx Ly Lz.
  Context (sqrtK : R -> R) (quad fquad : list (list Rops) * list Rops) (normals : nat -> nat -> Rops) (tags : list nat).
  Hypothesis QX : forall q, (q < List.length (fst quad))%nat -> 0 < nth q (snd quad) (@zero Rops) /\ forall j, (j < 3)%nat -> 0 < nth j (nth q (fst quad) []) (@zero Rops) < 1.
  Lemma tag_bc_ok (s : string) pts cls f : fe_init sqrtK s quad fquad normals pts cls 3 3 (Some (build_dirichlet_bc_by_tag tags)) = Ok f ->
    dirichlet_ok (points f) (fst (fst (build_dirichlet_bc_by_tag tags))) (snd (fst (build_dirichlet_bc_by_tag tags))) (snd (build_dirichlet_bc_by_tag tags))
      (node_inds_list f) (vec_inds_list f) (vals_list f).
  Proof.
    intros B. unfold fe_init in B. destruct (get_elements s) as [info|]; [|discriminate]. destruct (reorder_inds _ _) as [fi|]; [|discriminate].
    destruct (proj2 (proj2 (dirichlet_spec (K := Rops) pts (fst (fst (build_dirichlet_bc_by_tag tags))) (snd (fst (build_dirichlet_bc_by_tag tags))) (snd (build_dirichlet_bc_by_tag tags))))
      eq_refl eq_refl eq_refl) as (ns & vs & ws & E & D).
    assert (E' : Dirichlet_boundary_conditions pts (Some (build_dirichlet_bc_by_tag tags)) = Ok (ns, vs, ws)) by exact E.
    rewrite E' in B. injection B as <-. exact D.
  Qed.
  Lemma box_built : exists f, fe_init sqrtK "HEX8" quad fquad normals (m_points M) (m_cells M) 3 3 (Some (build_dirichlet_bc_by_tag tags)) = Ok f.
  Proof.
    destruct (proj2 (proj2 (dirichlet_spec (K := Rops) (m_points M) (fst (fst (build_dirichlet_bc_by_tag tags))) (snd (fst (build_dirichlet_bc_by_tag tags))) (snd (build_dirichlet_bc_by_tag tags))))
      eq_refl eq_refl eq_refl) as (ns & vs & ws & E & D).
    assert (E' : Dirichlet_boundary_conditions (m_points M) (Some (build_dirichlet_bc_by_tag tags)) = Ok (ns, vs, ws)) by exact E.
    assert (exists info fi, get_elements "HEX8" = Ok info /\ reorder_inds (facets (basix_ele info)) (re_order info) = Ok fi) as (info & fi & E1 & E2) by (do 2 eexists; split; reflexivity).
    eexists. unfold fe_init. rewrite E1, E2, E'. reflexivity.
  Qed.
  Lemma box_ul : exists p f, problem_init sqrtK 3 [mkVar (m_points M) (m_cells M) 3 "HEX8" quad fquad normals (Some (build_dirichlet_bc_by_tag tags))] None (ul_maps f) (fun _ y => (ul_init f, y)) = Ok p /\
    fe_init sqrtK "HEX8" quad fquad normals (m_points M) (m_cells M) 3 3 (Some (build_dirichlet_bc_by_tag tags)) = Ok f /\
    ul_problem p f /\ points f = m_points M /\ nodal f (m_points M) /\ num_cells f = (Nx * Ny * Nz)%nat /\ nonsingular (m_points M) f.
  Proof.
    destruct box_built as (f & B). exists (mkProblem [f] [] (ul_maps f) (ul_init f) []), f.
    assert (EN : num_cells f = (Nx * Ny * Nz)%nat) by exact (box_num_cells Nx Ny Nz Lx Ly Lz HX HY HZ _ _ _ _ _ _ f B).
    assert (EP : points f = m_points M) by exact (built_points _ _ _ _ _ _ _ _ _ _ _ B).
    split; [|split; [exact B|split; [|split; [exact EP|split; [|split; [exact EN|]]]]]].
    - unfold problem_init, make_fes. cbn [mapM va_ele_type va_quad va_fquad va_normals va_points va_cells va_vec va_bc]. rewrite B. cbn. rewrite Nat.eqb_refl. reflexivity.
    - pose proof (box_mesh_ok Nx Ny Nz Lx Ly Lz HX HY HZ _ _ _ _ _ _ f B) as MESH. split; [|split; [unfold p_num_cells; cbn; rewrite EN; nia|]].
      + constructor; cbn.
        * intros f0 [<-|[]]. reflexivity.
        * intros f0 cell [<-|[]] Hc. apply In_nth with (d := []) in Hc as (c & Hc & <-). now apply MESH.
        * intros f0 cell m [<-|[]] Hc Hm. apply In_nth with (d := []) in Hc as (c & Hc & <-). now apply (MESH c Hc).
        * intros b' c fc [].
      + repeat split; [exact (built_vec _ _ _ _ _ _ _ _ _ _ _ B)|exact (built_dim _ _ _ _ _ _ _ _ _ _ _ B)].
    - split; [now rewrite EP|]. intros r Hr. unfold M in Hr. rewrite box_rows in Hr by assumption. cbn [m_points] in Hr. unfold row in Hr. apply in_map_iff in Hr as (m & <- & _). reflexivity.
    - intros c q Hc Hq Z. pose proof (box_JxW_positive Nx Ny Nz Lx Ly Lz HX HY HZ LX LY LZ _ _ _ _ _ _ f B QX c q Hc Hq) as P.
      unfold get_JxW in P. rewrite (built_dim _ _ _ _ _ _ _ _ _ _ _ B) in P. fold M in P. rewrite Z in P. cbn [mul Rops] in P. lra.
  Qed.
End Box.
