(** Proofs for C82: the weak form of Stokes flow. *)
From Coq Require Import List Arith Lia Bool Ring.
From Verif Require Import Num Arr ArrFacts Fe Problem SpecAssembly ProblemFacts FeFacts SpecWeak KernelFacts SpecFe SpecEnergy SpecCoupled CoupledFacts Wave Stokes SpecStokes.
Import ListNotations.

Section Weak.
  Context {K : ops} (KR : ring_laws K) {V : Type}.
  Open Scope num_scope.
  Let Kth : ring_theory (@zero K) one add mul sub opp eq := KR.
  Add Ring KringSt : Kth.
  (** the fluxes and sources of the Stokes equations *)
  Definition stokes_form : coupled_form (K := K) (V := V) :=
    mkForm (fun s k j => grad0 s k j + (if (k =? j)%nat then val1 s 0%nat else 0)) (fun _ _ => 0) (fun _ _ _ => 0) (fun s _ => divergence (grad0 s)).
  Lemma flat_map_one {A} (g : nat -> A) n : flat_map (fun a => map (fun _ => g a) (seq 0 1)) (seq 0 n) = map g (seq 0 n).
  Proof. induction (seq 0 n) as [|a l IH]; [reflexivity|]. cbn in *. now rewrite IH. Qed.
  Lemma sum_n_zero n (g : nat -> K) : (forall i, (i < n)%nat -> g i = 0) -> sum_n n g = 0.
  Proof. intros H. induction n as [|n IH]; [reflexivity|]. rewrite (sum_n_S KR), IH, H by (auto; intros; apply H; lia). ring. Qed.
  Lemma stokes_coupled fu fp ci : vec fu = 2%nat -> dim fu = 2%nat -> vec fp = 1%nat ->
    stokes_kernel (K := K) (V := V) (mkProblem [fu; fp] [] (mkMaps None None None None None) [] []) ci = coupled_kernel fu fp stokes_form ci.
  Proof.
    intros V2 D2 V1. unfold stokes_kernel, coupled_kernel. cbv zeta. cbn [fes nth dof_shapes map].
    f_equal.
    - apply flat_map_ext. intros a. apply map_ext_in. intros k Hk. apply in_seq in Hk. rewrite <- (FeFacts.sum_n_add KR). apply sum_n_ext. intros q _.
      unfold stokes_form. cbn [flux0 source0]. unfold local_state. cbv zeta. cbn [grad0 val1].
      unfold nodes_from, num_nodes_cumsum. cbn [firstn map fold_right fes Nat.add].
      transitivity (sum_n (dim fu) (fun j => sum_n (num_nodes fu) (fun a0 => get2 0 (nth 0 (unravel [(num_nodes fu, vec fu); (num_nodes fp, vec fp)] (ci_sol ci)) []) a0 k * ci_grads ci q a0 j) * ci_vgJxW ci q a j
        + (if (k =? j)%nat then sum_n (num_nodes fp) (fun a0 => get2 0 (nth 1 (unravel [(num_nodes fu, vec fu); (num_nodes fp, vec fp)] (ci_sol ci)) []) a0 0 * shape_vals fp q a0) * ci_vgJxW ci q a j else 0))).
      + rewrite (FeFacts.sum_n_add KR). f_equal. symmetry. etransitivity; [apply (sum_n_single KR _ k); [lia|]|now rewrite Nat.eqb_refl].
        intros j Hj Hne. replace (k =? j)%nat with false by (symmetry; apply Nat.eqb_neq; congruence). reflexivity.
      + match goal with |- ?x = ?y + _ => transitivity y; [|ring] end. apply sum_n_ext. intros j Hj. destruct (k =? j)%nat; ring.
    - rewrite V1. rewrite <- flat_map_one. apply flat_map_ext. intros a. apply map_ext. intros k. apply sum_n_ext. intros q _.
      unfold stokes_form. cbn [flux1 source1]. rewrite (sum_n_zero (dim fp) _) by (intros; ring). unfold local_state, divergence, nodes_from, num_nodes_cumsum. cbv zeta. cbn [grad0 firstn map fold_right fes Nat.add]. rewrite V1. ring.
  Qed.
  Lemma stokes_form_ok m1 d1 : (1 <= m1)%nat -> form_ok 2 2 m1 d1 stokes_form.
  Proof.
    intros Hm s t (H1 & H2 & H3 & H4 & H5). unfold stokes_form, divergence. cbn [flux0 source0 flux1 source1]. repeat split; auto.
    - intros k j Hk Hj. rewrite H1, H4 by (auto; lia). reflexivity.
    - intros k Hk. now rewrite !H1 by lia.
  Qed.
  Lemma stokes_form_affine m1 d1 : form_affine 2 2 m1 d1 stokes_form stokes_form.
  Proof.
    intros s d t E. unfold stokes_form, along_state, divergence. cbn [flux0 source0 flux1 source1 grad0 val0 grad1 val1]. repeat split; intros; try destruct (k =? j)%nat; ring.
  Qed.
  Variables (p : problem K V) (fu fp : fe K).
  Hypothesis ST : stokes_problem p fu fp.
  Lemma stokes_is_coupled : coupled_problem p fu fp stokes_form.
  Proof.
    destruct ST as (F & M & B & I & S & V2 & D2 & V1 & Q). unfold coupled_problem. rewrite M. repeat split; auto.
    eexists. split; [reflexivity|]. split; [intros ci; rewrite stokes_coupled by auto; apply coupled_len|]. intros ci c _ _. now apply stokes_coupled.
  Qed.
  Lemma stokes_ok : form_ok (vec fu) (dim fu) (vec fp) (dim fp) stokes_form.
  Proof. destruct ST as (F & M & B & I & S & V2 & D2 & V1 & Q). rewrite V2, D2, V1. apply stokes_form_ok. lia. Qed.
  Lemma stokes_affine : form_affine (vec fu) (dim fu) (vec fp) (dim fp) stokes_form stokes_form.
  Proof. destruct ST as (F & M & B & I & S & V2 & D2 & V1 & Q). rewrite V2, D2. apply stokes_form_affine. Qed.
  Lemma stokes_ivs : forall iv, In iv (internal_vars p) -> length iv = p_num_cells p.
  Proof. destruct ST as (F & M & B & I & S & V2 & D2 & V1 & Q). rewrite I. intros iv []. Qed.
  Lemma momentum_density Pu Pp u w v c q :
    dot2 2 2 (flux0 stokes_form (state_at p fu fp Pu Pp u w c q)) (sol_to_grad Pu fu v c q) + dot1 2 (source0 stokes_form (state_at p fu fp Pu Pp u w c q)) (convert_from_dof_to_quad fu v c q)
    = dot2 2 2 (sol_to_grad Pu fu u c q) (sol_to_grad Pu fu v c q) + convert_from_dof_to_quad fp w c q 0 * divergence (sol_to_grad Pu fu v c q).
  Proof. unfold stokes_form, state_at, dot2, dot1, divergence. cbn [flux0 source0 grad0 val1]. cbn. ring. Qed.
  Lemma continuity_density Pu Pp u w z c q d :
    dot2 1 d (flux1 stokes_form (state_at p fu fp Pu Pp u w c q)) (sol_to_grad Pp fp z c q) + dot1 1 (source1 stokes_form (state_at p fu fp Pu Pp u w c q)) (convert_from_dof_to_quad fp z c q)
    = divergence (sol_to_grad Pu fu u c q) * convert_from_dof_to_quad fp z c q 0.
  Proof.
    unfold stokes_form, state_at, dot2, dot1. cbn [flux1 source1 grad0].
    rewrite (sum_n_zero 1 (fun k => sum_n d _)) by (intros i Hi; apply sum_n_zero; intros; ring). cbn. ring.
  Qed.
  Lemma stokes_work Pu Pp u w v z : coupled_work p fu fp Pu Pp stokes_form u w v z = momentum p fu fp Pu u w v + continuity p fu fp Pu Pp u z.
  Proof.
    destruct ST as (F & M & B & I & S & V2 & D2 & V1 & Q). unfold coupled_work, momentum, continuity, over_cells. rewrite V2, D2, V1. f_equal.
    - apply sum_n_ext. intros c _. apply sum_n_ext. intros q _. f_equal. apply momentum_density.
    - apply sum_n_ext. intros c _. apply sum_n_ext. intros q _. f_equal. apply continuity_density.
  Qed.
  Variables (sqrtK : K -> K) (Pu Pp : list (list K)).
  Hypothesis WF : wf_problem p.
  Hypothesis NC : (0 < p_num_cells p)%nat.
  Theorem stokes_weak u w v z : sol_ok p [u; w] -> sol_ok p [v; z] -> exists r0 r1, compute_residual sqrtK p [Pu; Pp] [u; w] = Ok [r0; r1] /\
    work (length (points fu)) 2 v r0 = momentum p fu fp Pu u w v /\ work (length (points fp)) 1 z r1 = continuity p fu fp Pu Pp u z.
  Proof.
    intros SU SV. destruct ST as (F & M & B & I & S & V2 & D2 & V1 & Q).
    destruct (coupled_residual KR sqrtK p fu fp stokes_form Pu Pp stokes_is_coupled WF NC stokes_ok stokes_ivs u w SU) as (r0 & r1 & E & SR & H0 & H1). exists r0, r1. split; [exact E|].
    pose proof (coupled_weak0 KR sqrtK p fu fp stokes_form Pu Pp stokes_is_coupled WF NC stokes_ok stokes_ivs u w SU v z r0 r1 SV E) as W0.
    pose proof (coupled_weak1 KR sqrtK p fu fp stokes_form Pu Pp stokes_is_coupled WF NC stokes_ok stokes_ivs u w SU v z r0 r1 SV E) as W1.
    rewrite V2 in W0. rewrite V1 in W1. rewrite W0, W1. unfold momentum, continuity, over_cells. rewrite D2. split.
    - apply sum_n_ext. intros c _. apply sum_n_ext. intros q _. f_equal. apply momentum_density.
    - apply sum_n_ext. intros c _. apply sum_n_ext. intros q _. f_equal. apply continuity_density.
  Qed.
End Weak.
