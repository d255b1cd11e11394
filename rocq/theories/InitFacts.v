(** Proofs for C19, C55. *)
From Coq Require Import String List Arith Lia Bool.
From Verif Require Import Num Arr ArrFacts Fe Problem BatchFacts SpecAssembly Basis SpecBasis BasisFacts SpecFe FeFacts
  GeomFacts Init SpecInit AssemblyFacts ProblemFacts ResidualFacts.
Import ListNotations.

Section Init.
  Context {K : ops} {V : Type}.

  Lemma boundary_len (f : fe K) l bs : get_boundary_conditions_inds f l = Ok bs -> length bs = num_locations l.
  Proof.
    destruct l as [l|]; cbn; [|now intros [= <-]]. intros H. pose proof (boundary_loop_spec f l) as S.
    destruct (existsb loc_wrong l); [congruence|]. destruct S as (bs' & E & L & _). congruence.
  Qed.
  Lemma boundary_ok (f : fe K) l : locations_ok l -> exists bs, get_boundary_conditions_inds f l = Ok bs /\
    length bs = num_locations l.
  Proof.
    intros H. destruct l as [l|]; cbn; [|now exists []]. pose proof (boundary_loop_spec f l) as S.
    replace (existsb loc_wrong l) with false in S.
    - destruct S as (bs & E & L & _). eauto.
    - symmetry. apply not_true_is_false. intros Hx. apply existsb_exists in Hx as (g & Hg & Hw).
      cbn in H. rewrite H in Hw; auto. discriminate.
  Qed.
  Lemma boundary_cells (f : fe K) l bs b c fc : get_boundary_conditions_inds f l = Ok bs ->
    In b bs -> In (c, fc) b -> c < length (cells f).
  Proof.
    destruct l as [l|]; cbn; [|intros [= <-] []]. intros H Hb Hc. pose proof (boundary_loop_spec f l) as S.
    destruct (existsb loc_wrong l); [congruence|]. destruct S as (bs' & E & L & S). assert (bs' = bs) by congruence. subst bs'.
    apply (In_nth _ _ []) in Hb as (i & Hi & <-). destruct (S i) as (g & _ & Eg); [lia|]. rewrite Eg in Hc.
    apply argwhere2_In in Hc as [Hc _]. unfold boundary_flags in Hc. now rewrite map_length in Hc.
  Qed.

  Lemma check_count (p : problem K V) : pre_jit_check p =
    if (length (boundary_inds_list p) =? num_declared (maps p))%nat then Ok tt else Err AssertionErr.
  Proof.
    unfold pre_jit_check, num_declared. destruct (surface_maps (maps p)); auto.
    destruct (universal_kernels_surface (maps p)); auto.
  Qed.

  Lemma fe_init_ok sqrtK d (a : var_args K) : mesh_arg_ok a ->
    exists f, fe_init sqrtK (va_ele_type a) (va_quad a) (va_fquad a) (va_normals a)
                           (va_points a) (va_cells a) (va_vec a) d (va_bc a) = Ok f.
  Proof.
    intros (Hn & _ & Hbc). unfold fe_init. destruct (get_elements_ok _ Hn) as (i & Ei). rewrite Ei.
    assert (exists fi, reorder_inds (facets (basix_ele i)) (re_order i) = Ok fi) as (fi & Efi).
    { clear Hbc. destruct a as [pts cl v s qd fq nm bc]. cbn in *.
      names Hn; injection Ei as <-; eexists; reflexivity. }
    rewrite Efi. unfold Dirichlet_boundary_conditions. destruct (va_bc a) as [[[locs vecs] vals]|].
    2:{ eexists; reflexivity. }
    destruct Hbc as (H1 & H2 & H3). rewrite H1, H2, Nat.eqb_refl. cbn [andb].
    pose proof (dirichlet_loop_spec (va_points a) locs vecs vals) as S.
    replace (existsb loc_wrong locs) with false in S.
    - destruct S as (ns & vs & ws & E & _); [congruence|congruence|]. rewrite E. eexists. reflexivity.
    - symmetry. apply not_true_is_false. intros Hx. apply existsb_exists in Hx as (g & Hg & Hw).
      rewrite H3 in Hw; auto. discriminate.
  Qed.

  Lemma make_fes_ok sqrtK d (vars : list (var_args K)) : (forall a, In a vars -> mesh_arg_ok a) ->
    exists fs, make_fes sqrtK d vars = Ok fs.
  Proof.
    unfold make_fes. induction vars as [|a vars IH]; intros H; [eexists; reflexivity|].
    cbn [mapM]. destruct (fe_init_ok sqrtK d a) as (f & ->); [apply H; now left|].
    destruct IH as (fs & ->); [intros; apply H; now right|]. eexists. reflexivity.
  Qed.
  Lemma make_fes_in sqrtK d (vars : list (var_args K)) fs f : make_fes sqrtK d vars = Ok fs -> In f fs ->
    exists a, In a vars /\ fe_init sqrtK (va_ele_type a) (va_quad a) (va_fquad a) (va_normals a)
                           (va_points a) (va_cells a) (va_vec a) d (va_bc a) = Ok f.
  Proof.
    intros E Hf. apply (In_nth _ _ f) in Hf as (i & Hi & <-). pose proof (mapM_length _ _ _ E) as L.
    set (da := mkVar (K:=K) [] [] 0 EmptyString ([], []) ([], []) (fun _ _ => zero) None).
    exists (nth i vars da). split; [apply nth_In; lia|].
    exact (mapM_nth _ _ _ da f i E ltac:(lia)).
  Qed.

  Variables (sqrtK : K -> K) (d : nat) (vars : list (var_args K)) (locs : option (list (location_fn K)))
    (m : user_maps K V)
    (custom : list (list (nat -> V)) -> list (list (list (nat -> V))) ->
              list (list (nat -> V)) * list (list (list (nat -> V)))).

  Lemma init_ok_count p : problem_init sqrtK d vars locs m custom = Ok p -> num_locations locs = num_declared m.
  Proof.
    unfold problem_init. destruct (make_fes sqrtK d vars) as [fs|]; cbn [bind]; [|discriminate].
    destruct fs as [|f0 fs]; [discriminate|]. destruct (get_boundary_conditions_inds f0 locs) as [bil|] eqn:Eb; cbn [bind]; [|discriminate].
    destruct (forallb _ _); [|discriminate]. rewrite check_count. cbn [boundary_inds_list maps].
    destruct (Nat.eqb_spec (length bil) (num_declared m)); cbn [bind]; [|discriminate].
    intros _. rewrite <- e. symmetry. eapply boundary_len; eauto.
  Qed.

  Lemma init_general : args_ok vars -> locations_ok locs -> exists f0 fs bil,
    make_fes sqrtK d vars = Ok (f0 :: fs) /\ get_boundary_conditions_inds f0 locs = Ok bil /\
    length bil = num_locations locs /\
    problem_init sqrtK d vars locs m custom =
      let p := mkProblem (f0 :: fs) bil m (fst (custom [] (map (fun _ => []) bil))) (snd (custom [] (map (fun _ => []) bil))) in
      if (num_locations locs =? num_declared m)%nat then Ok p else Err AssertionErr.
  Proof.
    intros (Hne & Hm & Hc) Hl. unfold problem_init. destruct (make_fes_ok sqrtK d vars Hm) as (fs & E). rewrite E. cbn [bind].
    pose proof (mapM_length _ _ _ E) as L. destruct fs as [|f0 fs].
    { destruct vars; [congruence|]. discriminate. }
    destruct (boundary_ok f0 locs Hl) as (bil & Eb & Lb). rewrite Eb. cbn [bind].
    exists f0, fs, bil. split; [reflexivity|]. split; [exact Eb|]. split; [exact Lb|].
    replace (forallb _ _) with true.
    - rewrite check_count. cbn [boundary_inds_list maps]. rewrite Lb. destruct (_ =? _)%nat; reflexivity.
    - symmetry. apply forallb_forall. intros f Hf. apply Nat.eqb_eq. unfold num_cells.
      destruct (make_fes_in _ _ _ _ f E Hf) as (a & Ha & Ea). destruct (make_fes_in _ _ _ _ f0 E ltac:(now left)) as (b & Hb & Ebf).
      rewrite (built_cells _ _ _ _ _ _ _ _ _ _ _ Ea), (built_cells _ _ _ _ _ _ _ _ _ _ _ Ebf). auto.
  Qed.

  Lemma init_mismatch : args_ok vars -> locations_ok locs -> num_locations locs <> num_declared m ->
    problem_init sqrtK d vars locs m custom = Err AssertionErr.
  Proof.
    intros Ha Hl Hn. destruct (init_general Ha Hl) as (f0 & fs & bil & _ & _ & _ & ->).
    apply Nat.eqb_neq in Hn. now rewrite Hn.
  Qed.

  Lemma init_wf : args_ok vars -> locations_ok locs -> num_locations locs = num_declared m ->
    exists p, problem_init sqrtK d vars locs m custom = Ok p /\ wf_problem p /\ maps p = m /\
      length (fes p) = length vars /\ length (boundary_inds_list p) = num_locations locs /\
      (internal_vars p, internal_vars_surfaces p) = custom [] (map (fun _ => []) (boundary_inds_list p)) /\
      ((forall a b, custom a b = (a, b)) -> ivs_ok p) /\
      forall i a0, i < length vars -> let a := nth i vars a0 in let f := nth i (fes p) (fe0 p) in
        points f = va_points a /\ cells f = va_cells a /\ vec f = va_vec a /\ dim f = d /\
        num_nodes f = node_count (va_ele_type a).
  Proof.
    intros Ha Hl Hn. destruct (init_general Ha Hl) as (f0 & fs & bil & E & Eb & Lb & ->).
    rewrite Hn, Nat.eqb_refl. eexists. split; [reflexivity|]. cbn [boundary_inds_list maps fes internal_vars internal_vars_surfaces].
    pose proof (mapM_length _ _ _ E) as L.
    destruct Ha as (Hne & Hm & Hc).
    repeat split; auto.
    - intros f Hf. cbn [fes] in Hf. unfold p_num_cells, num_cells, fe0. cbn [fes hd].
      destruct (make_fes_in _ _ _ _ f E Hf) as (a & Ha & Ea). destruct (make_fes_in _ _ _ _ f0 E ltac:(now left)) as (b & Hb & Ebf).
      rewrite (built_cells _ _ _ _ _ _ _ _ _ _ _ Ea), (built_cells _ _ _ _ _ _ _ _ _ _ _ Ebf). auto.
    - intros f cell Hf Hcell. destruct (make_fes_in _ _ _ _ f E Hf) as (a & Ha & Ea).
      rewrite (built_cells _ _ _ _ _ _ _ _ _ _ _ Ea) in Hcell. rewrite (built_nodes _ _ _ _ _ _ _ _ _ _ _ Ea).
      now apply (proj1 (proj2 (Hm a Ha))).
    - intros f cell n Hf Hcell Hnn. destruct (make_fes_in _ _ _ _ f E Hf) as (a & Ha & Ea).
      rewrite (built_cells _ _ _ _ _ _ _ _ _ _ _ Ea) in Hcell. unfold num_total_nodes.
      rewrite (built_points _ _ _ _ _ _ _ _ _ _ _ Ea).
      now apply (proj1 (proj2 (Hm a Ha)) cell).
    - intros b c fc Hb Hcf. cbn [boundary_inds_list] in Hb. unfold p_num_cells, num_cells, fe0. cbn [fes hd].
      eapply boundary_cells; eauto.
    - congruence.
    - now destruct (custom [] _).
    - rewrite H. cbn. tauto.
    - rewrite H. cbn [snd internal_vars_surfaces]. now rewrite map_length.
    - rewrite H. cbn [snd internal_vars_surfaces boundary_inds_list]. intros s iv Hs Hiv. exfalso.
      rewrite (nth_map_in _ _ _ []) in Hiv by auto. destruct Hiv.
    - pose proof (mapM_nth _ _ _ a0 (fe0 (mkProblem (f0 :: fs) bil m [] [])) i E H) as Ei. cbn beta in Ei.
      exact (built_points _ _ _ _ _ _ _ _ _ _ _ Ei).
    - pose proof (mapM_nth _ _ _ a0 (fe0 (mkProblem (f0 :: fs) bil m [] [])) i E H) as Ei. cbn beta in Ei.
      exact (built_cells _ _ _ _ _ _ _ _ _ _ _ Ei).
    - pose proof (mapM_nth _ _ _ a0 (fe0 (mkProblem (f0 :: fs) bil m [] [])) i E H) as Ei. cbn beta in Ei.
      exact (built_vec _ _ _ _ _ _ _ _ _ _ _ Ei).
    - pose proof (mapM_nth _ _ _ a0 (fe0 (mkProblem (f0 :: fs) bil m [] [])) i E H) as Ei. cbn beta in Ei.
      exact (built_dim _ _ _ _ _ _ _ _ _ _ _ Ei).
    - pose proof (mapM_nth _ _ _ a0 (fe0 (mkProblem (f0 :: fs) bil m [] [])) i E H) as Ei. cbn beta in Ei.
      exact (built_nodes _ _ _ _ _ _ _ _ _ _ _ Ei).
  Qed.
End Init.

(** ** the list that is not checked *)
Section Unchecked.
  Context {K : ops} {V : Type}.
  Lemma short_universal sqrtK (p : problem K V) pts sol sms uks :
    wf_problem p -> 0 < p_num_cells p -> sol_ok p sol -> ivs_ok p ->
    surface_maps (maps p) = Some sms -> universal_kernels_surface (maps p) = Some uks ->
    length sms = length (boundary_inds_list p) -> length uks < length (boundary_inds_list p) ->
    compute_residual sqrtK p pts sol = Err IndexErr.
  Proof.
    intros WF NC SOL IVS Hs Hu Ls Lu. unfold compute_residual, compute_residual_vars, split_and_compute_cell. cbv zeta.
    rewrite (vmap_cells p pts sol) by auto. cbn [bind]. unfold compute_face.
    rewrite (mapM_err _ IndexErr); [reflexivity| |].
    - intros i Hi. apply in_seq in Hi. unfold face_step. destruct IVS as (_ & Hl & Hiv).
      destruct (nth_error (internal_vars_surfaces p) i) as [ivs|] eqn:E; [|now right].
      unfold kernel_face. rewrite Hs, Hu.
      destruct (nth_error sms i), (nth_error uks i); cbn [bind]; try (now right). left.
      unfold face_inputs. assert (Ei : nth i (internal_vars_surfaces p) [] = ivs) by now apply nth_error_nth.
      replace (forallb _ _) with true; [eexists; reflexivity|]. symmetry. apply forallb_forall. intros iv Hin.
      apply Nat.eqb_eq. apply (Hiv i iv); [lia|]. now rewrite Ei.
    - exists (length uks). split; [apply in_seq; lia|]. unfold face_step.
      destruct (nth_error (internal_vars_surfaces p) (length uks)); auto.
      unfold kernel_face. rewrite Hs, Hu. 
      destruct (nth_error sms (length uks)); auto.
      rewrite (proj2 (nth_error_None uks (length uks))) by lia. reflexivity.
  Qed.
  Lemma second_list sqrtK (p : problem K V) pts sol sms uks :
    wf_problem p -> 0 < p_num_cells p -> sol_ok p sol -> ivs_ok p ->
    surface_maps (maps p) = Some sms -> universal_kernels_surface (maps p) = Some uks ->
    length sms = length (boundary_inds_list p) -> length uks < length (boundary_inds_list p) ->
    pre_jit_check p = Ok tt /\ compute_residual sqrtK p pts sol = Err IndexErr.
  Proof.
    intros. split; [|eapply short_universal; eauto]. unfold pre_jit_check. rewrite H3.
    rewrite H5, Nat.eqb_refl. reflexivity.
  Qed.
End Unchecked.
