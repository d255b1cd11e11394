(** Proofs for C98: weak form of an implicit step. *)
From Coq Require Import String Reals List Arith Lia Lra Bool.
From Verif Require Import Num Arr ArrFacts Fe Problem SpecAssembly ProblemFacts AssemblyFacts ResidualFacts FeFacts SpecFe SpecWeak KernelFacts SpecBc SpecEnergy Elastic ElasticFacts LinAlg SpecLinear SpecPosed
  Wave SpecCoupled CoupledFacts CoupledLinear StokesMain ThermoMech SpecThermoMech ThermoMechFacts ThermoMechMain Dendrite SpecDendrite.
Import ListNotations.
Local Open Scope R_scope.
Local Notation V := (nat -> nat -> Rops).

Lemma safe_same y x : safe_arctan2 y x = arctan2 y x.
Proof.
  unfold safe_arctan2. destruct (Req_EM_T y 0) as [->|]; [|reflexivity]. destruct (Req_EM_T x 0) as [->|]; [|reflexivity].
  unfold arctan2. destruct (Rlt_dec 0 0); [lra|]. reflexivity.
Qed.

Section Form.
  Variable P : dn_params.
  Definition i_G (s : point_state (K := Rops) (V := V)) : nat -> nat -> Rops := nth 0 (ivs s) (fun _ _ => 0).
  Definition i_p (s : point_state (K := Rops) (V := V)) : R := nth 1 (ivs s) (fun _ _ => 0) 0%nat 0%nat.
  Definition i_T (s : point_state (K := Rops) (V := V)) : R := nth 2 (ivs s) (fun _ _ => 0) 0%nat 0%nat.
  Definition i_chi (s : point_state (K := Rops) (V := V)) : R := nth 3 (ivs s) (fun _ _ => 0) 0%nat 0%nat.
  Definition i_th (s : point_state (K := Rops) (V := V)) : R := safe_arctan2 (i_G s 0%nat 1%nat) (i_G s 0%nat 0%nat).
  Definition dn_form : coupled_form (K := Rops) (V := V) :=
    mkForm (fun s => aniso_flux P (i_th s) (grad0 s))
      (fun s _ => reaction P (i_p s) (i_T s) + tau P * (val0 s 0%nat - i_p s) / dt P + - a_noise P * i_p s * (1 - i_p s) * i_chi s)
      (fun s k j => grad1 s k j) (fun s _ => (val1 s 0%nat - i_T s) / dt P + - K_lat P * (val0 s 0%nat - i_p s) / dt P).
  Definition dn_tangent : coupled_form (K := Rops) (V := V) :=
    mkForm (fun s => aniso_flux P (i_th s) (grad0 s)) (fun s _ => tau P * val0 s 0%nat / dt P)
      (fun s k j => grad1 s k j) (fun s _ => val1 s 0%nat / dt P + - K_lat P * val0 s 0%nat / dt P).
  Lemma aniso_ext th th' (G G' : nat -> nat -> Rops) k j : th = th' -> (forall k j, (k < 1)%nat -> (j < 2)%nat -> G k j = G' k j) -> (k < 1)%nat -> (j < 2)%nat ->
    aniso_flux P th G k j = aniso_flux P th' G' k j.
  Proof.
    intros -> E Hk Hj. unfold aniso_flux. cbv zeta. rewrite (E k j Hk Hj). rewrite (E 0 0)%nat, (E 0 1)%nat by lia. reflexivity.
  Qed.
  Lemma dn_form_ok : form_ok 1 2 1 2 dn_form.
  Proof.
    intros s t (H1 & H2 & H3 & H4 & H5). unfold dn_form. cbn [flux0 source0 flux1 source1].
    assert (A : i_th s = i_th t) by (unfold i_th, i_G; now rewrite H5). unfold i_p, i_T, i_chi. rewrite H5. repeat split; intros.
    - now apply aniso_ext.
    - rewrite H2 by lia. reflexivity.
    - now apply H3.
    - rewrite H2, H4 by lia. reflexivity.
  Qed.
  Lemma dn_form_affine : form_affine 1 2 1 2 dn_form dn_tangent.
  Proof.
    intros s e t E. unfold dn_form, dn_tangent, along_state. cbn [flux0 source0 flux1 source1 grad0 val0 grad1 val1].
    assert (A : forall a b c d, i_th (mkState a b c d (ivs s)) = i_th e) by (intros; unfold i_th, i_G; cbn [ivs]; now rewrite E).
    assert (B : i_th s = i_th e) by (unfold i_th, i_G; now rewrite E).
    repeat split; intros.
    - rewrite A, B. unfold aniso_flux. cbv zeta. destruct j; cbn [add mul Rops]; req; ring.
    - unfold i_p, i_T, i_chi. cbn [ivs add mul Rops]. unfold Rdiv. req; ring.
    - unfold i_p, i_T, i_chi. cbn [ivs add mul Rops]. unfold Rdiv. req; ring.
  Qed.
End Form.

(** the problem that set_params leaves, and one with the same residual whose kernel sees internal variables point by point *)
Definition dn_at (P : dn_params) (fp fT : fe Rops) (uo wo : list (list Rops)) (chi : list R) : problem Rops V :=
  mkProblem [fp; fT] [] (dn_maps P [fp; fT])
    [map (fun c a k _ => cell_sol_at fp uo c a k) (seq 0 (num_cells fp));
     map (fun c a k _ => cell_sol_at fT wo c a k) (seq 0 (num_cells fT));
     map (fun c q _ _ => convert_from_dof_to_quad fp uo c q 0) (seq 0 (num_cells fp));
     map (fun c q _ _ => convert_from_dof_to_quad fT wo c q 0) (seq 0 (num_cells fT));
     map (fun x _ _ _ => x) chi] [].
Definition dn_aux (P : dn_params) (fp fT : fe Rops) (uo wo : list (list Rops)) (chi : list R) : problem Rops V :=
  mkProblem [fp; fT] [] (mkMaps None None (Some (coupled_kernel fp fT (dn_form P))) None None)
    [map (fun c q => sol_to_grad (points fp) fp uo c q) (seq 0 (num_cells fp));
     map (fun c q _ _ => convert_from_dof_to_quad fp uo c q 0) (seq 0 (num_cells fp));
     map (fun c q _ _ => convert_from_dof_to_quad fT wo c q 0) (seq 0 (num_cells fT));
     map (fun x _ _ _ => x) chi] [].
Lemma dn_set P p fp fT uo wo chi : dn_problem P p fp fT -> dn_set_params p uo wo chi = Ok (dn_at P fp fT uo wo chi).
Proof. intros (F & M & B & S & _). unfold dn_set_params, dn_at. now rewrite F, M, B, S. Qed.

Lemma dn_alg1 (r t n N J : R) : r * N * J + t * N * J + n * N * J = (r + t + n) * N * J.
Proof. ring. Qed.
Lemma dn_alg2 (r t N J : R) : r * N * J + t * N * J = (r + t) * N * J.
Proof. ring. Qed.

Section Step.
  Variables (P : dn_params) (fp fT : fe Rops) (uo wo : list (list Rops)) (chi : list R).
  Local Notation p := (dn_at P fp fT uo wo chi).
  Local Notation pa := (dn_aux P fp fT uo wo chi).
  Hypothesis VP : vec fp = 1%nat.
  Hypothesis VT : vec fT = 1%nat.
  Hypothesis DP : dim fp = 2%nat.
  Hypothesis DT2 : dim fT = 2%nat.
  Hypothesis QE : num_quads fT = num_quads fp.
  Hypothesis WF : wf_problem p.
  Hypothesis NC : (0 < p_num_cells p)%nat.
  Hypothesis LN : List.length chi = p_num_cells p.
  Local Notation Pp := (points fp).
  Local Notation PT := (points fT).
  Local Notation F := (dn_form P).
  Local Notation TF := (dn_tangent P).
  Let KR : ring_laws Rops := Rops_ring.
  Lemma a_wf : wf_problem pa. Proof. constructor; [exact (wf_cells p WF)|exact (wf_cell_len p WF)|exact (wf_cell_node p WF)|exact (wf_boundary p WF)]. Qed.
  Lemma d_cells : p_num_cells p = num_cells fp. Proof. reflexivity. Qed.
  Lemma d_nce : num_cells fT = num_cells fp. Proof. rewrite <- d_cells. apply (wf_cells p WF). right. now left. Qed.
  Lemma chi_at c : (c < p_num_cells p)%nat -> nth_error (map (fun (x : R) (_ _ _ : nat) => x) chi) c = Some (fun _ _ _ => nth c chi 0).
  Proof. intros Hc. rewrite <- LN in Hc. rewrite (map_nth_error _ c chi (d := nth c chi 0)); [reflexivity|]. now apply nth_error_nth'. Qed.
  Lemma d_iv c : (c < p_num_cells p)%nat -> flat_map (fun iv => match nth_error iv c with Some x => [x] | None => [] end) (internal_vars p) =
    [(fun a k _ => cell_sol_at fp uo c a k); (fun a k _ => cell_sol_at fT wo c a k); (fun q _ _ => convert_from_dof_to_quad fp uo c q 0);
     (fun q _ _ => convert_from_dof_to_quad fT wo c q 0); (fun _ _ _ => nth c chi 0)].
  Proof.
    intros Hc. unfold dn_at. cbn [internal_vars flat_map]. pose proof (chi_at c Hc) as CA. rewrite !nth_error_map_seq by (rewrite ?d_nce, <- ?d_cells; auto).
    match goal with |- context [@nth_error ?T ?l c] => assert (EQ : @nth_error T l c = Some (fun _ _ _ => nth c chi 0)) by exact CA; rewrite EQ end. reflexivity.
  Qed.
  Lemma a_iv c : (c < p_num_cells p)%nat -> flat_map (fun iv => match nth_error iv c with Some x => [x] | None => [] end) (internal_vars pa) =
    [(fun q => sol_to_grad Pp fp uo c q); (fun q _ _ => convert_from_dof_to_quad fp uo c q 0);
     (fun q _ _ => convert_from_dof_to_quad fT wo c q 0); (fun _ _ _ => nth c chi 0)].
  Proof.
    intros Hc. unfold dn_aux. cbn [internal_vars flat_map]. pose proof (chi_at c Hc) as CA. rewrite !nth_error_map_seq by (rewrite ?d_nce, <- ?d_cells; auto).
    match goal with |- context [@nth_error ?T ?l c] => assert (EQ : @nth_error T l c = Some (fun _ _ _ => nth c chi 0)) by exact CA; rewrite EQ end. reflexivity.
  Qed.
  Lemma a_iv_at c q : (c < p_num_cells p)%nat -> iv_at pa c q = [sol_to_grad Pp fp uo c q; (fun _ _ => convert_from_dof_to_quad fp uo c q 0);
     (fun _ _ => convert_from_dof_to_quad fT wo c q 0); (fun _ _ => nth c chi 0)].
  Proof.
    intros Hc. unfold iv_at, dn_aux. cbn [internal_vars flat_map]. pose proof (chi_at c Hc) as CA. rewrite !nth_error_map_seq by (rewrite ?d_nce, <- ?d_cells; auto).
    match goal with |- context [@nth_error ?T ?l c] => assert (EQ : @nth_error T l c = Some (fun _ _ _ => nth c chi 0)) by exact CA; rewrite EQ end. reflexivity.
  Qed.
  Lemma a_coupled : coupled_problem pa fp fT F.
  Proof.
    unfold coupled_problem. repeat split; auto. eexists. split; [reflexivity|]. split; [intros; apply coupled_len|]. intros. reflexivity.
  Qed.
  Lemma a_ok : form_ok (vec fp) (dim fp) (vec fT) (dim fT) F. Proof. rewrite VP, VT, DP, DT2. apply dn_form_ok. Qed.
  Lemma a_affine : form_affine (vec fp) (dim fp) (vec fT) (dim fT) F TF. Proof. rewrite VP, VT, DP, DT2. apply dn_form_affine. Qed.
  Lemma a_ivs : forall iv, In iv (internal_vars pa) -> List.length iv = p_num_cells pa.
  Proof. intros iv [<-|[<-|[<-|[<-|[]]]]]; rewrite map_length, ?seq_length; auto; apply d_nce. Qed.
  Lemma d_ivs : forall iv, In iv (internal_vars p) -> List.length iv = p_num_cells p.
  Proof. intros iv [<-|[<-|[<-|[<-|[<-|[]]]]]]; rewrite map_length, ?seq_length; auto; apply d_nce. Qed.
  Lemma dn_len ci : List.length (dn_kernel P (mkProblem [fp; fT] [] (mkMaps None None None None None) [] []) ci) = (num_nodes fp * vec fp + num_nodes fT * vec fT)%nat.
  Proof. unfold dn_kernel. cbv zeta. rewrite app_length. cbn [fes nth]. now rewrite !flat_table_len. Qed.
  Lemma kernel_same c sol : (c < p_num_cells p)%nat -> kernel_cell p (cell_input p [Pp; PT] sol c) = kernel_cell pa (cell_input pa [Pp; PT] sol c).
  Proof.
    intros Hc. unfold kernel_cell. cbn [maps dn_at dn_aux dn_maps tensor_map mass_map universal_kernel option_map badd unscalar].
    assert (IV : ci_iv (cell_input p [Pp; PT] sol c) = flat_map (fun iv => match nth_error iv c with Some x => [x] | None => [] end) (internal_vars p)) by reflexivity. rewrite d_iv in IV by auto.
    assert (IA : ci_iv (cell_input pa [Pp; PT] sol c) = flat_map (fun iv => match nth_error iv c with Some x => [x] | None => [] end) (internal_vars pa)) by reflexivity. rewrite a_iv in IA by auto.
    set (ci := cell_input p [Pp; PT] sol c) in *. set (ca := cell_input pa [Pp; PT] sol c) in *.
    assert (E1 : ci_sol ca = ci_sol ci) by reflexivity. assert (E2 : ci_grads ca = ci_grads ci) by reflexivity. assert (E3 : ci_vgJxW ca = ci_vgJxW ci) by reflexivity. assert (E4 : ci_JxW ca = ci_JxW ci) by reflexivity.
    assert (EG : forall q k j, sum_n (K := Rops) (num_nodes fp) (fun a => cell_sol_at fp uo c a k * nodes_from (V := V) (mkProblem [fp; fT] [] (mkMaps None None None None None) [] []) 0 (ci_grads ci) q a j) = sol_to_grad Pp fp uo c q k j).
    { intros q k j. unfold sol_to_grad. apply Rsum_ext. intros a Ha. cbn [mul Rops]. f_equal. unfold nodes_from. unfold num_nodes_cumsum. cbn [firstn map fold_right fes Nat.add].
      exact (cp_grads0 pa fp fT F Pp PT a_coupled c q a j Ha). }
    unfold dn_kernel, coupled_kernel. cbv zeta. cbn [fes nth dof_shapes map]. unfold internal2. rewrite IV. cbn [nth].
    refine (f_equal2 (@app _) _ _); apply flat_map_ext; intros a; apply map_ext_in; intros k Hk.
    - apply in_seq in Hk. rewrite VP in Hk. assert (k = 0)%nat as -> by lia.
      rewrite <- !Rsum_plus. apply Rsum_ext. intros q _. unfold dn_form. cbn [flux0 source0]. unfold local_state. cbv zeta. unfold i_th, i_G, i_p, i_T, i_chi. cbn [grad0 val0 ivs]. rewrite IA, E1, E2, E3, E4. unfold at_quad. cbn [map nth].
      rewrite !EG. unfold nodes_from, num_nodes_cumsum. cbn [firstn map fold_right fes Nat.add]. cbn [add mul Rops]. req. rewrite !Rplus_assoc. f_equal. rewrite <- !Rplus_assoc. exact (dn_alg1 _ _ _ _ _).
    - apply in_seq in Hk. rewrite VT in Hk. assert (k = 0)%nat as -> by lia.
      rewrite <- !Rsum_plus. apply Rsum_ext. intros q _. unfold dn_form. cbn [flux1 source1]. unfold local_state. cbv zeta. unfold i_th, i_G, i_p, i_T, i_chi. cbn [grad1 val0 val1 ivs]. rewrite IA, E1, E2, E3, E4. unfold at_quad. cbn [map nth].
      unfold nodes_from, num_nodes_cumsum. cbn [firstn map fold_right fes Nat.add]. rewrite Nat.add_0_r. cbn [add mul Rops]. req. rewrite !Rplus_assoc. f_equal. exact (dn_alg2 _ _ _ _).
  Qed.
  Lemma d_kernels kf : kernels_ok p kf.
  Proof.
    split; [|intros s Hs; cbn in Hs; lia]. intros ci _. unfold kernel_cell. cbn [maps dn_at dn_maps tensor_map mass_map universal_kernel option_map badd unscalar].
    rewrite dn_len. unfold all_dofs, local_shapes. cbn. lia.
  Qed.
  Lemma d_ivs_ok : ivs_ok p. Proof. split; [exact d_ivs|]. split; [reflexivity|]. intros s iv Hs. inversion Hs. Qed.
  Lemma residual_same sqrtK sol : sol_ok p sol -> compute_residual sqrtK p [Pp; PT] sol = compute_residual sqrtK pa [Pp; PT] sol.
  Proof.
    intros SO. set (kf := fun (_ : nat) (_ : face_in Rops V) => [] : list Rops).
    rewrite (compute_residual_ok sqrtK p [Pp; PT] sol kf WF NC SO d_ivs_ok (d_kernels kf)).
    rewrite (compute_residual_ok sqrtK pa [Pp; PT] sol kf a_wf NC SO (cp_ivs pa fp fT F a_coupled a_ivs) (conj (proj1 (cp_kernels pa fp fT F a_coupled NC)) (fun s Hs => False_ind _ (Nat.nlt_0_r _ Hs)))).
    unfold compute_residual_vars_helper. f_equal. unfold weak_cells, weak_faces.
    assert (EQ : map (fun c => kernel_cell p (cell_input p [Pp; PT] sol c)) (seq 0 (p_num_cells p)) = map (fun c => kernel_cell pa (cell_input pa [Pp; PT] sol c)) (seq 0 (p_num_cells p))).
    { apply map_ext_in. intros c Hc. apply in_seq in Hc. apply kernel_same. lia. }
    rewrite EQ. reflexivity.
  Qed.
End Step.
