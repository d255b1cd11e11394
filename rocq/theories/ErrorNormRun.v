(** Lemmas for C105: the problem of the example. *)
From Coq Require Import Reals String List Arith Lia Lra Bool.
From Verif Require Import Num Arr ArrFacts BatchFacts Fe Problem SpecAssembly Basis SpecBasis SpecFe FeFacts GeomFacts SpecBc BcFacts SpecSelect SelectFacts SpecWeak KernelFacts SpecEnergy EnergyFacts ElasticFacts SpecLinear
  Init SpecInit InitFacts Lagrangian LaserHeat DiffMeshMain ErrorNorm SpecErrorNorm Complete CompleteMain ErrorNormMain.
Import ListNotations.
Local Open Scope R_scope.
Local Notation sum := (sum_n (K := Rops)).

(** ** The source *)
Definition known_grad (y : list R) (i : nat) : R := match i with
  | 0%nat => 300 * (nth 0 y 0 - 1 / 2) ^ 2
  | 1%nat => 600 * (nth 1 y 0 - 1 / 2) ^ 2
  | _ => - 2000 * (nth 2 y 0 - 1 / 2) * exp (- (nth 2 y 0 - 1 / 2) ^ 2) end.
Definition known_hess (y : list R) (i j : nat) : R := if (i =? j)%nat then match i with
  | 0%nat => 600 * (nth 0 y 0 - 1 / 2)
  | 1%nat => 1200 * (nth 1 y 0 - 1 / 2)
  | _ => 1000 * exp (- (nth 2 y 0 - 1 / 2) ^ 2) * (4 * (nth 2 y 0 - 1 / 2) ^ 2 - 2) end else 0.
Lemma d_sq (t : R) : derivable_pt_lim (fun t => (t - 1 / 2) ^ 2) t (2 * (t - 1 / 2)).
Proof. eapply deriv_eq; [apply (derivable_pt_lim_comp (fun t => t - 1 / 2) (fun u => u ^ 2)); [apply derivable_pt_lim_minus; [apply derivable_pt_lim_id|apply derivable_pt_lim_const]|apply (derivable_pt_lim_pow _ 2)]|]. cbn [pred INR pow]. ring. Qed.
Lemma d_cube (t : R) : derivable_pt_lim (fun t => (t - 1 / 2) ^ 3) t (3 * (t - 1 / 2) ^ 2).
Proof. eapply deriv_eq; [apply (derivable_pt_lim_comp (fun t => t - 1 / 2) (fun u => u ^ 3)); [apply derivable_pt_lim_minus; [apply derivable_pt_lim_id|apply derivable_pt_lim_const]|apply (derivable_pt_lim_pow _ 3)]|]. cbn [pred INR pow]. ring. Qed.
Lemma d_lin (t : R) : derivable_pt_lim (fun t => t - 1 / 2) t 1.
Proof. eapply deriv_eq; [apply derivable_pt_lim_minus; [apply derivable_pt_lim_id|apply derivable_pt_lim_const]|]. ring. Qed.
Lemma d_gauss (t : R) : derivable_pt_lim (fun t => exp (- (t - 1 / 2) ^ 2)) t (- 2 * (t - 1 / 2) * exp (- (t - 1 / 2) ^ 2)).
Proof. eapply deriv_eq; [apply (derivable_pt_lim_comp (fun t => - (t - 1 / 2) ^ 2) exp); [apply derivable_pt_lim_opp; apply d_sq|apply derivable_pt_lim_exp]|]. ring. Qed.
Lemma d_zgauss (t : R) : derivable_pt_lim (fun t => - 2000 * (t - 1 / 2) * exp (- (t - 1 / 2) ^ 2)) t (1000 * exp (- (t - 1 / 2) ^ 2) * (4 * (t - 1 / 2) ^ 2 - 2)).
Proof. eapply deriv_eq; [apply (derivable_pt_lim_mult (fun t => - 2000 * (t - 1 / 2)) (fun t => exp (- (t - 1 / 2) ^ 2))); [apply (derivable_pt_lim_scal (fun t => t - 1 / 2)); apply d_lin|apply d_gauss]|]. ring. Qed.

Lemma known_jacobian y : length y = 3%nat -> jacobian_of 1 true_u_fn y (fun _ i => known_grad y i).
Proof.
  intros L k i Hk Hi. assert (k = 0%nat) as -> by lia. unfold true_u_fn. cbn [nth].
  assert (PS : forall t, nth i (put y i t) 0 = t) by (intros; now apply put_same). assert (PO : forall j t, j <> i -> nth j (put y i t) 0 = nth j y 0) by (intros; now apply put_other).
  destruct i as [|[|[|i]]]; [| | |rewrite L in Hi; lia].
  - eapply deriv_ext; [intros t; rewrite PS, !PO by discriminate; reflexivity|]. eapply deriv_eq; [apply derivable_pt_lim_scal; apply derivable_pt_lim_plus; [apply derivable_pt_lim_plus; [apply d_cube|apply derivable_pt_lim_const]|apply derivable_pt_lim_const]|]. unfold known_grad. ring.
  - eapply deriv_ext; [intros t; rewrite PS, !PO by discriminate; reflexivity|]. eapply deriv_eq; [apply derivable_pt_lim_scal; apply derivable_pt_lim_plus; [apply derivable_pt_lim_plus; [apply derivable_pt_lim_const|apply derivable_pt_lim_scal; apply d_cube]|apply derivable_pt_lim_const]|]. unfold known_grad. ring.
  - eapply deriv_ext; [intros t; rewrite PS, !PO by discriminate; reflexivity|]. eapply deriv_eq; [apply derivable_pt_lim_scal; apply derivable_pt_lim_plus; [apply derivable_pt_lim_const|apply derivable_pt_lim_scal; apply d_gauss]|]. unfold known_grad. ring.
Qed.
Lemma known_second y i j : length y = 3%nat -> (i < 3)%nat -> (j < 3)%nat -> derivable_pt_lim (fun t => known_grad (put y j t) i) (nth j y 0) (known_hess y i j).
Proof.
  intros L Hi Hj. assert (Hj' : (j < length y)%nat) by now rewrite L. unfold known_hess. destruct (Nat.eqb_spec i j) as [->|N].
  - assert (PS : forall t, nth j (put y j t) 0 = t) by (intros; now apply put_same). unfold known_grad. destruct j as [|[|[|j]]]; [| | |lia].
    + eapply deriv_ext; [intros t; rewrite PS; reflexivity|]. eapply deriv_eq; [apply derivable_pt_lim_scal; apply d_sq|]. ring.
    + eapply deriv_ext; [intros t; rewrite PS; reflexivity|]. eapply deriv_eq; [apply derivable_pt_lim_scal; apply d_sq|]. ring.
    + eapply deriv_ext; [intros t; rewrite PS; reflexivity|]. apply d_zgauss.
  - apply deriv_ext with (g := fun _ => known_grad y i); [|apply derivable_pt_lim_const]. intros t. unfold known_grad. destruct i as [|[|[|i]]]; [| | |lia]; now rewrite put_other by auto.
Qed.
Lemma known_hessian y : length y = 3%nat -> hessian_of 1 true_u_fn y (fun _ i j => known_hess y i j).
Proof.
  intros L. exists (fun y _ i => known_grad y i). split.
  - intros z Lz. apply known_jacobian. now rewrite Lz.
  - intros k i j Hk Hi Hj. rewrite L in *. now apply known_second.
Qed.
Definition correct_hessian (hessian : (list Rops -> list Rops) -> list Rops -> nat -> nat -> nat -> R) : Prop := forall y, length y = 3%nat -> hessian_of 1 true_u_fn y (hessian true_u_fn y).
Lemma mass_value hessian : correct_hessian hessian -> forall u x y z k, cr_mass hessian u [x; y; z] k = known_laplacian x y z.
Proof.
  intros H u x y z k. unfold cr_mass. set (p := [x; y; z]).
  assert (E : forall i, (i < 3)%nat -> hessian true_u_fn p 0%nat i i = known_hess p i i).
  { intros i Hi. destruct (H p eq_refl) as (G & G1 & G2).
    assert (GE : forall y i, length y = 3%nat -> (i < 3)%nat -> G y 0%nat i = known_grad y i).
    { intros v j Lv Hj. eapply uniqueness_limite; [apply (G1 v Lv 0%nat j); [lia|now rewrite Lv]|apply (known_jacobian v Lv 0%nat j); [lia|now rewrite Lv]]. }
    eapply uniqueness_limite; [apply (G2 0%nat i i); [lia|exact Hi|exact Hi]|]. eapply deriv_ext; [|now apply (known_second p i i)].
    intros t. apply GE; [|exact Hi]. now rewrite put_length. }
  transitivity (known_hess p 0 0 + known_hess p 1 1 + known_hess p 2 2).
  - rewrite <- !E by lia. cbn [sum_n]. rewrite !sum_S. change (sum 0 _) with 0. req. ring.
  - unfold known_hess, known_laplacian, p. cbn [Nat.eqb nth]. ring.
Qed.

(** ** The boundary *)
Lemma near_dec (p : list Rops) : cr_left p || cr_right p || cr_front p || cr_back p || cr_bottom p || cr_top p = true <-> near_surface p.
Proof.
  assert (A : forall x, isclose x 0 (/ 10 ^ 5) = true <-> Rabs x <= / 10 ^ 5). { intros x. rewrite isclose_true, Rabs_R0, Rminus_0_r. split; intros; lra. }
  assert (B : forall x, isclose x 1 (/ 10 ^ 5) = true <-> Rabs (x - 1) <= 2 / 10 ^ 5). { intros x. rewrite isclose_true, Rabs_R1. split; intros; lra. }
  unfold cr_left, cr_right, cr_front, cr_back, cr_bottom, cr_top. rewrite !orb_true_iff, !A, !B. unfold near_surface. split.
  - intros [[[[[H|H]|H]|H]|H]|H]; [exists 0%nat|exists 0%nat|exists 1%nat|exists 1%nat|exists 2%nat|exists 2%nat]; split; (lia || tauto).
  - intros (i & Hi & H). destruct i as [|[|[|i]]]; [| | |lia]; tauto.
Qed.
Section Problem.
  Variables (hessian : (list Rops -> list Rops) -> list Rops -> nat -> nat -> nat -> R) (s : string) (quad fquad : list (list Rops) * list Rops) (normals : nat -> nat -> Rops) (cls : list (list nat)) (pts : list (list Rops)).
  Hypothesis HESS : correct_hessian hessian.
  Hypothesis NAME : In s nine_names.
  Hypothesis CELLS : forall cell, In cell cls -> length cell = node_count s /\ forall n, In n cell -> (n < length pts)%nat.
  Hypothesis NC : cls <> [].
  Lemma cr_prescribed f n : fe_init sqrt s quad fquad normals pts cls 1 3 (Some cr_bc) = Ok f -> (n < length pts)%nat ->
    prescribed f n 0 = (if cr_left (nth n pts []) || cr_right (nth n pts []) || cr_front (nth n pts []) || cr_back (nth n pts []) || cr_bottom (nth n pts []) || cr_top (nth n pts []) then Some (dirichlet_val (nth n pts [])) else None).
  Proof.
    intros B Hn. destruct (built_inv _ _ _ _ _ _ _ _ _ _ _ B) as (info & fi & [[ns vs] ws] & HI & HFI & HD & Hf).
    destruct (dirichlet_spec (K := Rops) pts (fst (fst cr_bc)) (snd (fst cr_bc)) (snd cr_bc)) as (_ & _ & D).
    destruct (D eq_refl eq_refl eq_refl) as (ns' & vs' & ws' & ED & OK). change (Some (fst (fst cr_bc), snd (fst cr_bc), snd cr_bc)) with (Some cr_bc) in ED.
    rewrite HD in ED. injection ED as <- <- <-. assert (PE : points f = pts) by now rewrite Hf.
    rewrite <- PE in OK. assert (OK' : dirichlet_ok (points f) (fst (fst cr_bc)) (snd (fst cr_bc)) (snd cr_bc) (node_inds_list f) (vec_inds_list f) (vals_list f)) by (rewrite Hf; rewrite Hf in OK; exact OK).
    rewrite (proj1 (proj2 (dirichlet_prescribed f _ _ _ OK')) n 0%nat). rewrite PE. unfold dirichlet_value. cbn [cr_bc fst snd length repeat seq fold_left nth loc_holds Nat.eqb].
    apply Nat.ltb_lt in Hn. rewrite Hn. cbn [andb]. destruct (cr_left _), (cr_right _), (cr_front _), (cr_back _), (cr_bottom _), (cr_top _); reflexivity.
  Qed.
  Definition cr_var : var_args Rops := mkVar pts cls 1 s quad fquad normals (Some cr_bc).
  Lemma cr_args : args_ok [cr_var].
  Proof.
    split; [discriminate|]. split.
    - intros a [<-|[]]. split; [exact NAME|]. split; [exact CELLS|]. cbn [cr_var va_bc cr_bc]. split; [reflexivity|]. split; [reflexivity|].
      intros g H. cbn in H. repeat (destruct H as [<-|H]; [reflexivity|]). destruct H.
    - intros a b [<-|[]] [<-|[]]. reflexivity.
  Qed.
  Lemma cr_built : exists p f, cr_problem hessian s quad fquad normals cls pts = Ok p /\ fe_init sqrt s quad fquad normals pts cls 1 3 (Some cr_bc) = Ok f /\ fes p = [f] /\ maps p = cr_maps hessian /\ wf_problem p /\ ivs_ok p /\ boundary_inds_list p = [].
  Proof.
    destruct (init_wf (K := Rops) (V := unit) sqrt 3 [cr_var] None (cr_maps hessian) (fun iv ivs => (iv, ivs)) cr_args I eq_refl) as (p & B & WF & MP & LF & LB & _ & IV & _).
    destruct (problem_inv _ _ _ _ _ _ _ _ _ _ _ _ _ B) as (f & EF & _ & EP & _). exists p, f. split; [exact B|]. split; [exact EF|]. split; [now rewrite EP|]. split; [exact MP|].
    split; [exact WF|]. split; [apply IV; reflexivity|]. now apply length_zero_iff_nil.
  Qed.
  Lemma cr_maps_ok : maps_ok 1 3 (cr_maps hessian).
  Proof.
    split; [|split].
    - intros tm [= <-]. intros u v iv E k j Hk Hj. now apply E.
    - intros mm [= <-]. intros u v x y iv E F k Hk. cbn beta. now rewrite !F by lia.
    - intros sms sm E. discriminate E.
  Qed.
  Lemma cr_equations p f sol : cr_problem hessian s quad fquad normals cls pts = Ok p -> fes p = [f] -> solves p [pts] [sol] -> forall n, (n < length pts)%nat ->
    (near_surface (nth n pts []) -> nth 0 (nth n sol []) 0 = known_solution (nth 0 (nth n pts []) 0) (nth 1 (nth n pts []) 0) (nth 2 (nth n pts []) 0)) /\
    (~ near_surface (nth n pts []) -> galerkin pts f sol known_laplacian n = 0).
  Proof.
    intros B EF (SH & res & ER & EQ) n Hn. destruct cr_built as (p' & f' & B' & BF & EF' & MP & WF & IV & LB). rewrite B in B'. injection B' as <-. rewrite EF in EF'. injection EF' as <-.
    pose proof (built_vec _ _ _ _ _ _ _ _ _ _ _ BF) as VE. pose proof (built_dim _ _ _ _ _ _ _ _ _ _ _ BF) as DE. pose proof (built_points _ _ _ _ _ _ _ _ _ _ _ BF) as PE. pose proof (built_cells _ _ _ _ _ _ _ _ _ _ _ BF) as CE.
    assert (CS : (0 < p_num_cells p)%nat). { unfold p_num_cells, fe0. rewrite EF. cbn [hd]. unfold num_cells. rewrite CE. destruct cls; [congruence|cbn; lia]. }
    assert (STD : standard_problem p f). { split; [exact EF|]. rewrite MP. split; [reflexivity|]. split; [reflexivity|]. split; [left; discriminate|]. cbn. now rewrite LB. }
    assert (MA : maps_ok (vec f) (dim f) (maps p)) by (rewrite VE, DE, MP; exact cr_maps_ok).
    destruct (residual_weak Rops_ring sqrt p f pts sol WF CS STD SH IV MA) as (r & ER' & _ & RV). rewrite ER in ER'. injection ER' as ->.
    assert (L1 : (0 < length (fes p))%nat) by (rewrite EF; cbn; lia). specialize (EQ 0%nat n 0%nat L1). unfold fe_of in EQ. rewrite EF in EQ. cbn [nth] in EQ. rewrite PE, VE in EQ. specialize (EQ Hn Nat.lt_0_1).
    rewrite (cr_prescribed f n BF Hn) in EQ. pose proof (near_dec (nth n pts [])) as ND. match type of ND with ?b = true <-> _ => destruct b end.
    - split; [intros _; exact EQ|]. intros H. exfalso. apply H. now apply ND.
    - split; [intros H; apply ND in H; discriminate H|]. intros _. rewrite <- EQ. symmetry. rewrite PE, VE in RV. etransitivity; [exact (RV n 0%nat Hn Nat.lt_0_1)|]. rewrite LB. cbn [length]. change (sum 0 _) with 0. req. etransitivity; [exact (Rplus_0_r _)|].
      unfold galerkin. assert (NCE : p_num_cells p = num_cells f) by (unfold p_num_cells, fe0; now rewrite EF). rewrite NCE. apply Rsum_ext. intros c _. apply Rsum_ext. intros a _. unfold cell_node. destruct (_ =? n)%nat; [|reflexivity].
      unfold volume_term. apply Rsum_ext. intros q _. unfold stress, source. rewrite MP, DE. cbn [tensor_map mass_map cr_maps]. rewrite (mass_value hessian HESS). reflexivity.
  Qed.
  (** the run *)
  Lemma cr_run_spec jacrev solver : (forall p, cr_problem hessian s quad fquad normals cls pts = Ok p -> exists sol, solver p = Ok [sol] /\ solves p [pts] [sol]) ->
    exists p f sol, cr_problem hessian s quad fquad normals cls pts = Ok p /\ fes p = [f] /\ solver p = Ok [sol] /\ solves p [pts] [sol] /\
      cr_run jacrev hessian solver s quad fquad normals cls pts = Ok (compute_l2_norm_error pts f sol true_u_fn, compute_h1_norm_error jacrev pts f sol true_u_fn).
  Proof.
    intros S. destruct cr_built as (p & f & B & BF & EF & _). destruct (S p B) as (sol & ES & SO). exists p, f, sol. split; [exact B|]. split; [exact EF|]. split; [exact ES|]. split; [exact SO|].
    unfold cr_run. rewrite B. cbn [bind]. rewrite ES. cbn [bind hd]. unfold fe0. now rewrite EF.
  Qed.
End Problem.
