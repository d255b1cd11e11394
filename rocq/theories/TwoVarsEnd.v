(** Lemmas for C108: the two problems have the same solutions. *)
From Coq Require Import Reals String List Arith Lia Lra Bool.
From Verif Require Import Num Arr ArrFacts BatchFacts Fe Problem SpecAssembly AssemblyFacts ProblemFacts ResidualFacts Basis SpecBasis SpecFe FeFacts GeomFacts SpecBc BcFacts SpecSelect SelectFacts SpecWeak KernelFacts SpecEnergy ElasticFacts SpecLinear SpecPosed
  DynamicsFacts Init SpecInit InitFacts Lagrangian LaserHeat Wave Elastic SpecElastic ElasticMain SpecWave SpecSolve SolveFacts Mesh SolveBox LinearElastic Robin CoupledFacts TwoVars SpecTwoVars TwoVarsMain.
Import ListNotations.
Local Open Scope R_scope.
Local Notation sum := (sum_n (K := Rops)).

Lemma tv_left_spec x : tv_left x = true <-> at_left (nth 0 x 0).
Proof. unfold tv_left, at_left. rewrite isclose_true, Rabs_R0, Rminus_0_r. split; intros; lra. Qed.
Lemma tv_right_spec x : tv_right x = true <-> at_right (nth 0 x 0).
Proof. unfold tv_right, at_right. rewrite isclose_true, Rabs_R1. split; intros; lra. Qed.
Lemma bc_prescribed s quad fquad normals pts cls v d (bc : list (location_fn Rops) * list nat * list (list Rops -> Rops)) (f : fe Rops) n k : fe_init sqrt s quad fquad normals pts cls v d (Some bc) = Ok f ->
  length (snd (fst bc)) = length (fst (fst bc)) -> length (snd bc) = length (fst (fst bc)) -> existsb loc_wrong (fst (fst bc)) = false ->
  prescribed f n k = dirichlet_value pts (fst (fst bc)) (snd (fst bc)) (snd bc) n k.
Proof.
  intros B L1 L2 LW. destruct (built_inv _ _ _ _ _ _ _ _ _ _ _ B) as (info & fi & [[ns vs] ws] & HI & HFI & HD & Hf).
  destruct (dirichlet_spec (K := Rops) pts (fst (fst bc)) (snd (fst bc)) (snd bc)) as (_ & _ & D). destruct (D L1 L2 LW) as (ns' & vs' & ws' & ED & OK).
  replace (fst (fst bc), snd (fst bc), snd bc) with bc in ED by (now destruct bc as [[? ?] ?]). rewrite HD in ED. injection ED as <- <- <-.
  assert (OK' : dirichlet_ok (points f) (fst (fst bc)) (snd (fst bc)) (snd bc) (node_inds_list f) (vec_inds_list f) (vals_list f)) by (rewrite Hf; exact OK).
  rewrite (proj1 (proj2 (dirichlet_prescribed f _ _ _ OK')) n k). now rewrite Hf.
Qed.
(** what the conditions say at a node: zero displacement at the left side, one tenth in the first direction at the right side *)
Definition held (x : list Rops) (k : nat) : option R := if tv_right x then Some (if (k =? 0)%nat then / 10 else 0) else if tv_left x then Some 0 else None.

Lemma Rabs_def2' a b : Rabs a <= b -> - b <= a <= b.
Proof. unfold Rabs. destruct (Rcase_abs a); lra. Qed.

Section Problems.
  Context {V : Type}.
  Variables (s : string) (quad fquad : list (list Rops) * list Rops) (normals : nat -> nat -> Rops) (pts : list (list Rops)) (cls : list (list nat)).
  Hypothesis NAME : In s nine_names.
  Hypothesis CELLS : forall cell, In cell cls -> length cell = node_count s /\ forall n, In n cell -> (n < length pts)%nat.
  Lemma bc_arg v bc : length (fst (fst bc)) = length (snd (fst bc)) -> length (snd bc) = length (snd (fst bc)) -> forallb (fun g => negb (loc_wrong g)) (fst (fst bc)) = true -> mesh_arg_ok (mkVar pts cls v s quad fquad normals (Some bc)).
  Proof.
    intros L1 L2 LW. split; [exact NAME|]. split; [exact CELLS|]. cbn [va_bc]. destruct bc as [[l vs] w]. cbn [fst snd] in *. split; [exact L1|]. split; [exact L2|]. intros g Hg.
    rewrite forallb_forall in LW. apply negb_true_iff. now apply LW.
  Qed.
  Lemma one_args : args_ok (one_var_args s quad fquad normals pts cls).
  Proof. split; [discriminate|]. split; [intros a [<-|[]]; now apply bc_arg|]. intros a b [<-|[]] [<-|[]]. reflexivity. Qed.
  Lemma two_args : args_ok (two_vars_args s quad fquad normals pts cls).
  Proof. split; [discriminate|]. split; [intros a [<-|[<-|[]]]; now apply bc_arg|]. intros a b [<-|[<-|[]]] [<-|[<-|[]]]; reflexivity. Qed.
  Definition one_built (f : fe Rops) : Prop := fe_init sqrt s quad fquad normals pts cls 3 3 (Some one_var_bc) = Ok f.
  Definition two_built0 (f : fe Rops) : Prop := fe_init sqrt s quad fquad normals pts cls 1 3 (Some two_vars_bc1) = Ok f.
  Definition two_built1 (f : fe Rops) : Prop := fe_init sqrt s quad fquad normals pts cls 2 3 (Some two_vars_bc2) = Ok f.
  Lemma one_make : exists f p, one_built f /\ one_var_problem (V := V) s quad fquad normals pts cls = Ok p /\ p = mkProblem [f] [] (one_var_maps [f]) [] [] /\ wf_problem p /\ ivs_ok p.
  Proof.
    destruct (fe_init_ok sqrt 3 (mkVar pts cls 3 s quad fquad normals (Some one_var_bc))) as (f & B); [now apply bc_arg|]. cbn [va_ele_type va_quad va_fquad va_normals va_points va_cells va_vec va_bc] in B. exists f.
    destruct (init_wf (K := Rops) (V := V) sqrt 3 _ None (one_var_maps [f]) (fun iv ivs => (iv, ivs)) one_args I eq_refl) as (p & I & WF & MP & _ & LB & IVE & IV & _).
    assert (EM : make_fes sqrt 3 (one_var_args s quad fquad normals pts cls) = Ok [f]).
    { unfold make_fes, one_var_args. cbn [mapM va_ele_type va_quad va_fquad va_normals va_points va_cells va_vec va_bc]. now rewrite B. }
    exists p. split; [exact B|]. split; [unfold one_var_problem; rewrite EM; exact I|]. split; [|split; [exact WF|now apply IV]].
    unfold problem_init in I. rewrite EM in I. cbn [bind get_boundary_conditions_inds] in I. destruct (forallb _ _); [|discriminate]. cbn in I. now injection I as <-.
  Qed.
  Lemma two_make : exists f0 f1 p, two_built0 f0 /\ two_built1 f1 /\ two_vars_problem (V := V) s quad fquad normals pts cls = Ok p /\ p = mkProblem [f0; f1] [] (two_vars_maps [f0; f1]) [] [] /\ wf_problem p /\ ivs_ok p.
  Proof.
    destruct (fe_init_ok sqrt 3 (mkVar pts cls 1 s quad fquad normals (Some two_vars_bc1))) as (f0 & B0); [now apply bc_arg|]. destruct (fe_init_ok sqrt 3 (mkVar pts cls 2 s quad fquad normals (Some two_vars_bc2))) as (f1 & B1); [now apply bc_arg|].
    cbn [va_ele_type va_quad va_fquad va_normals va_points va_cells va_vec va_bc] in B0, B1. exists f0, f1.
    destruct (init_wf (K := Rops) (V := V) sqrt 3 _ None (two_vars_maps [f0; f1]) (fun iv ivs => (iv, ivs)) two_args I eq_refl) as (p & I & WF & MP & _ & LB & IVE & IV & _).
    assert (EM : make_fes sqrt 3 (two_vars_args s quad fquad normals pts cls) = Ok [f0; f1]).
    { unfold make_fes, two_vars_args. cbn [mapM va_ele_type va_quad va_fquad va_normals va_points va_cells va_vec va_bc]. now rewrite B0, B1. }
    exists p. split; [exact B0|]. split; [exact B1|]. split; [unfold two_vars_problem; rewrite EM; exact I|]. split; [|split; [exact WF|now apply IV]].
    unfold problem_init in I. rewrite EM in I. cbn [bind get_boundary_conditions_inds] in I. destruct (forallb _ _); [|discriminate]. cbn in I. now injection I as <-.
  Qed.
  Lemma one_held f n k : one_built f -> (n < length pts)%nat -> (k < 3)%nat -> prescribed f n k = held (nth n pts []) k.
  Proof.
    intros B Hn Hk. rewrite (bc_prescribed _ _ _ _ _ _ _ _ _ f n k B) by reflexivity. unfold dirichlet_value. apply Nat.ltb_lt in Hn. rewrite Hn. unfold held, one_var_bc. cbn [fst snd length seq fold_left nth loc_holds andb].
    destruct k as [|[|[|k]]]; [| | |lia]; cbn [Nat.eqb]; destruct (tv_left _), (tv_right _); reflexivity.
  Qed.
  Lemma two_held0 f n : two_built0 f -> (n < length pts)%nat -> prescribed f n 0 = held (nth n pts []) 0.
  Proof.
    intros B Hn. rewrite (bc_prescribed _ _ _ _ _ _ _ _ _ f n 0 B) by reflexivity. unfold dirichlet_value. apply Nat.ltb_lt in Hn. rewrite Hn. unfold held, two_vars_bc1. cbn [fst snd length seq fold_left nth loc_holds andb Nat.eqb].
    destruct (tv_left _), (tv_right _); reflexivity.
  Qed.
  Lemma two_held1 f n k : two_built1 f -> (n < length pts)%nat -> (k < 2)%nat -> prescribed f n k = held (nth n pts []) (S k).
  Proof.
    intros B Hn Hk. rewrite (bc_prescribed _ _ _ _ _ _ _ _ _ f n k B) by reflexivity. unfold dirichlet_value. apply Nat.ltb_lt in Hn. rewrite Hn. unfold held, two_vars_bc2. cbn [fst snd length seq fold_left nth loc_holds andb].
    destruct k as [|[|k]]; [| |lia]; cbn [Nat.eqb]; destruct (tv_left _), (tv_right _); reflexivity.
  Qed.
  Hypothesis NC : cls <> [].
  Variables (p1 p2 : problem Rops V).
  Hypothesis P1 : one_var_problem (V := V) s quad fquad normals pts cls = Ok p1.
  Hypothesis P2 : two_vars_problem (V := V) s quad fquad normals pts cls = Ok p2.
  Lemma bc_both n : (n < length pts)%nat -> let x := nth 0 (nth n pts []) 0 in
    (forall k, (k < 3)%nat -> (at_right x -> prescribed (fe_of p1 0) n k = Some (if (k =? 0)%nat then / 10 else 0)) /\ (at_left x -> prescribed (fe_of p1 0) n k = Some 0) /\ (~ at_left x -> ~ at_right x -> prescribed (fe_of p1 0) n k = None)) /\
    prescribed (fe_of p2 0) n 0 = prescribed (fe_of p1 0) n 0 /\ prescribed (fe_of p2 1) n 0 = prescribed (fe_of p1 0) n 1 /\ prescribed (fe_of p2 1) n 1 = prescribed (fe_of p1 0) n 2.
  Proof.
    intros Hn x. destruct one_make as (f & p1' & B & E1 & EP1 & WF1 & IV1). rewrite P1 in E1. injection E1 as <-. destruct two_make as (f0 & f1 & p2' & B0 & B1 & E2 & EP2 & WF2 & IV2). rewrite P2 in E2. injection E2 as <-.
    assert (F : fe_of p1 0 = f) by (rewrite EP1; reflexivity). assert (F0 : fe_of p2 0 = f0) by (rewrite EP2; reflexivity). assert (F1 : fe_of p2 1 = f1) by (rewrite EP2; reflexivity). rewrite F, F0, F1.
    split; [|rewrite (two_held0 f0 n B0 Hn), (two_held1 f1 n 0 B1 Hn), (two_held1 f1 n 1 B1 Hn), !(one_held f n _ B Hn) by lia; auto].
    intros k Hk. rewrite (one_held f n k B Hn Hk). unfold held. pose proof (tv_left_spec (nth n pts [])) as TL. pose proof (tv_right_spec (nth n pts [])) as TR. fold x in TL, TR. split; [|split].
    - intros A. apply TR in A. now rewrite A.
    - intros A. assert (NR : tv_right (nth n pts []) = false). { destruct (tv_right _); [|reflexivity]. exfalso. assert (Q : at_right x) by now apply TR. unfold at_left in A. unfold at_right in Q. apply Rabs_def2' in A. apply Rabs_def2' in Q. lra. }
      apply TL in A. now rewrite NR, A.
    - intros A1 A2. destruct (tv_right _); [exfalso; now apply A2, TR|]. destruct (tv_left _); [exfalso; now apply A1, TL|reflexivity].
  Qed.
  Lemma nc_one f : one_built f -> (0 < num_cells f)%nat.
  Proof. intros B. unfold num_cells. rewrite (built_cells _ _ _ _ _ _ _ _ _ _ _ B). destruct cls; [congruence|cbn; lia]. Qed.
  (** the residual of the split field is the split residual *)
  Lemma both_residual P u : length P = length pts -> shaped (length pts) 3 u -> forall x y, split3 u x y ->
    exists r r0 r1, compute_residual sqrt p1 [P] [u] = Ok [r] /\ compute_residual sqrt p2 [P; P] [x; y] = Ok [r0; r1] /\ shaped (length pts) 3 r /\ split3 r r0 r1.
  Proof.
    intros LP SU x y SP. destruct one_make as (f & p1' & B & E1 & EP1 & WF1 & IV1). rewrite P1 in E1. injection E1 as <-. destruct two_make as (f0 & f1 & p2' & B0 & B1 & E2 & EP2 & WF2 & IV2). rewrite P2 in E2. injection E2 as <-.
    pose proof (same_all _ _ _ _ _ _ _ _ _ _ f f0 B B0) as S0. pose proof (same_all _ _ _ _ _ _ _ _ _ _ f f1 B B1) as S1.
    pose proof (built_points _ _ _ _ _ _ _ _ _ _ _ B) as PE. pose proof (built_vec _ _ _ _ _ _ _ _ _ _ _ B) as VE. pose proof (built_dim _ _ _ _ _ _ _ _ _ _ _ B) as DE.
    pose proof (built_vec _ _ _ _ _ _ _ _ _ _ _ B0) as VE0. pose proof (built_vec _ _ _ _ _ _ _ _ _ _ _ B1) as VE1.
    assert (NC1 : (0 < p_num_cells p1)%nat) by (rewrite EP1; exact (nc_one f B)).
    assert (NC2 : p_num_cells p2 = p_num_cells p1) by (rewrite EP1, EP2; unfold p_num_cells, fe0, num_cells; cbn [fes hd]; now destruct S0 as (_ & -> & _)).
    assert (SO1 : sol_ok p1 [u]). { split; [now rewrite EP1|]. rewrite EP1. unfold fe_of. cbn [fes length]. intros v Hv. assert (v = 0%nat) as -> by lia. cbn [nth]. now rewrite PE, VE. }
    assert (EP0 : points f0 = pts) by exact (built_points _ _ _ _ _ _ _ _ _ _ _ B0). assert (EPP1 : points f1 = pts) by exact (built_points _ _ _ _ _ _ _ _ _ _ _ B1).
    destruct SU as [LU RU]. pose proof SP as SP'. destruct SP' as (LX & LY & RXY).
    assert (SX : shaped (length pts) 1 x). { split; [now rewrite LX|]. intros row Hr. apply (In_nth _ _ []) in Hr as (n & Hn & <-). rewrite LX in Hn. now rewrite (proj1 (RXY n Hn)). }
    assert (SY : shaped (length pts) 2 y). { split; [now rewrite LY|]. intros row Hr. apply (In_nth _ _ []) in Hr as (n & Hn & <-). rewrite LY in Hn. now rewrite (proj2 (RXY n Hn)). }
    assert (SO2 : sol_ok p2 [x; y]). { split; [now rewrite EP2|]. rewrite EP2. unfold fe_of. cbn [fes length]. intros [|[|v]] Hv; [| |lia]; cbn [nth]; [now rewrite EP0, VE0|now rewrite EPP1, VE1]. }
    destruct (one_residual p1 f P u) as (r & ER & SR & VR); try (rewrite EP1; reflexivity); auto.
    destruct (two_residual p2 f f0 f1 P u x y) as (r0 & r1 & ER2 & SR0 & SR1 & VR0 & VR1); try (rewrite EP2; reflexivity); auto; [lia|now rewrite PE|].
    exists r, r0, r1. split; [exact ER|]. split; [exact ER2|]. rewrite PE in *. split; [exact SR|]. destruct SR as [L A], SR0 as [L0 A0], SR1 as [L1 A1]. split; [lia|]. split; [lia|]. intros n Hn. rewrite L in Hn.
    pose proof (A0 (nth n r0 []) ltac:(apply nth_In; lia)) as Q0. pose proof (A1 (nth n r1 []) ltac:(apply nth_In; lia)) as Q1. rewrite NC2 in VR0, VR1.
    assert (W0 : get2 (@zero Rops) r0 n 0 = get2 (@zero Rops) r n 0) by (rewrite VR0, VR by (auto; lia); reflexivity).
    assert (W1 : get2 (@zero Rops) r1 n 0 = get2 (@zero Rops) r n 1) by (rewrite VR1, VR by (auto; lia); reflexivity).
    assert (W2 : get2 (@zero Rops) r1 n 1 = get2 (@zero Rops) r n 2) by (rewrite VR1, VR by (auto; lia); reflexivity).
    unfold get2 in W0, W1, W2. change (@zero Rops) with 0 in W0, W1, W2. rewrite <- W0, <- W1, <- W2.
    destruct (nth n r0 []) as [|a [|? ?]]; try discriminate. destruct (nth n r1 []) as [|b [|c [|? ?]]]; try discriminate. now split.
  Qed.
  Lemma solves_split u x y : split3 u x y -> shaped (length pts) 3 u -> (solves p1 [pts] [u] <-> solves p2 [pts; pts] [x; y]).
  Proof.
    intros SP SU. destruct (both_residual pts u eq_refl SU x y SP) as (r & r0 & r1 & ER & ER2 & SR & SPR).
    destruct one_make as (f & p1' & B & E1 & EP1 & WF1 & IV1). rewrite P1 in E1. injection E1 as <-. destruct two_make as (f0 & f1 & p2' & B0 & B1 & E2 & EP2 & WF2 & IV2). rewrite P2 in E2. injection E2 as <-.
    pose proof (built_points _ _ _ _ _ _ _ _ _ _ _ B) as PE. pose proof (built_vec _ _ _ _ _ _ _ _ _ _ _ B) as VE.
    pose proof (built_vec _ _ _ _ _ _ _ _ _ _ _ B0) as VE0. pose proof (built_vec _ _ _ _ _ _ _ _ _ _ _ B1) as VE1.
    assert (EP0 : points f0 = pts) by exact (built_points _ _ _ _ _ _ _ _ _ _ _ B0). assert (EPP1 : points f1 = pts) by exact (built_points _ _ _ _ _ _ _ _ _ _ _ B1).
    destruct SU as [LU RU]. destruct SR as [LR RR]. destruct SP as (LX & LY & RXY). destruct SPR as (LX' & LY' & RXY').
    assert (F1 : fes p1 = [f]) by now rewrite EP1. assert (F2 : fes p2 = [f0; f1]) by now rewrite EP2.
    split.
    - intros (_ & res & EC & EQ). rewrite ER in EC. injection EC as <-. unfold fe_of in EQ. rewrite F1 in EQ. split.
      + split; [now rewrite F2|]. unfold fe_of. rewrite F2. cbn [length]. intros [|[|v]] Hv; [| |lia]; cbn [nth].
        * rewrite EP0, VE0. split; [now rewrite LX|]. intros row Hr. apply (In_nth _ _ []) in Hr as (n & Hn & <-). rewrite LX in Hn. now rewrite (proj1 (RXY n Hn)).
        * rewrite EPP1, VE1. split; [now rewrite LY|]. intros row Hr. apply (In_nth _ _ []) in Hr as (n & Hn & <-). rewrite LY in Hn. now rewrite (proj2 (RXY n Hn)).
      + exists [r0; r1]. split; [exact ER2|]. unfold fe_of. rewrite F2. cbn [length]. intros [|[|v]] n j Hv Hn Hj; [| |lia]; cbn [nth] in *.
        * rewrite EP0 in Hn. rewrite VE0 in Hj. assert (j = 0%nat) as -> by lia. specialize (EQ 0%nat n 0%nat). cbn [nth length] in EQ. rewrite PE, VE in EQ. specialize (EQ ltac:(lia) Hn ltac:(lia)).
          rewrite (one_held f n 0 B Hn) in EQ by lia. rewrite (two_held0 f0 n B0 Hn). unfold get2 in *. rewrite (proj1 (RXY n ltac:(lia))), (proj1 (RXY' n ltac:(lia))). exact EQ.
        * rewrite EPP1 in Hn. rewrite VE1 in Hj. specialize (EQ 0%nat n (S j)). cbn [length] in EQ. cbn [nth] in EQ. rewrite PE, VE in EQ. specialize (EQ ltac:(lia) Hn ltac:(lia)).
          rewrite (one_held f n (S j) B Hn) in EQ by lia. rewrite (two_held1 f1 n j B1 Hn Hj). unfold get2 in *. rewrite (proj2 (RXY n ltac:(lia))), (proj2 (RXY' n ltac:(lia))). destruct j as [|[|j]]; [exact EQ|exact EQ|lia].
    - intros (_ & res & EC & EQ). rewrite ER2 in EC. injection EC as <-. unfold fe_of in EQ. rewrite F2 in EQ. split.
      + split; [now rewrite F1|]. unfold fe_of. rewrite F1. cbn [length]. intros v Hv. assert (v = 0%nat) as -> by lia. cbn [nth]. rewrite PE, VE. now split.
      + exists [r]. split; [exact ER|]. unfold fe_of. rewrite F1. cbn [length]. intros v n j Hv Hn Hj. assert (v = 0%nat) as -> by lia. cbn [nth] in *. rewrite PE in Hn. rewrite VE in Hj. rewrite (one_held f n j B Hn Hj).
        destruct j as [|j].
        * specialize (EQ 0%nat n 0%nat). cbn [nth length] in EQ. rewrite EP0, VE0 in EQ. specialize (EQ ltac:(lia) Hn ltac:(lia)). rewrite (two_held0 f0 n B0 Hn) in EQ. unfold get2 in *. rewrite (proj1 (RXY n ltac:(lia))), (proj1 (RXY' n ltac:(lia))) in EQ. exact EQ.
        * specialize (EQ 1%nat n j). cbn [nth length] in EQ. rewrite EPP1, VE1 in EQ. specialize (EQ ltac:(lia) Hn ltac:(lia)). rewrite (two_held1 f1 n j B1 Hn) in EQ by lia. unfold get2 in *. rewrite (proj2 (RXY n ltac:(lia))), (proj2 (RXY' n ltac:(lia))) in EQ.
          destruct j as [|[|j]]; [exact EQ|exact EQ|lia].
  Qed.
  Lemma split_exists u : shaped (length pts) 3 u -> exists x y, split3 u x y.
  Proof.
    intros _. exists (map (fun row => [nth 0 row 0]) u), (map (fun row => [nth 1 row 0; nth 2 row 0]) u). split; [now rewrite map_length|]. split; [now rewrite map_length|]. intros n Hn. split.
    - rewrite (nth_indep _ [] [nth 0 [] 0]) by (now rewrite map_length). exact (map_nth (fun row => [nth 0 row 0]) u [] n).
    - rewrite (nth_indep _ [] [nth 1 [] 0; nth 2 [] 0]) by (now rewrite map_length). exact (map_nth (fun row => [nth 1 row 0; nth 2 row 0]) u [] n).
  Qed.
  Lemma joined_exists x y : shaped (length pts) 1 x -> shaped (length pts) 2 y -> exists u, shaped (length pts) 3 u /\ split3 u x y.
  Proof.
    intros [LX RX] [LY RY]. exists (map2 (@app Rops) x y). assert (L : length (map2 (@app Rops) x y) = length pts) by (unfold map2; rewrite map_length, combine_length; lia).
    assert (E : forall n, (n < length pts)%nat -> nth n (map2 (@app Rops) x y) [] = nth n x [] ++ nth n y []) by (intros n Hn; apply nth_map2; lia).
    split; [split; [exact L|]|split; [lia|]; split; [lia|]].
    - intros row Hr. apply (In_nth _ _ []) in Hr as (n & Hn & <-). rewrite L in Hn. rewrite E by auto. rewrite app_length, (RX (nth n x [])), (RY (nth n y [])) by (apply nth_In; lia). reflexivity.
    - intros n Hn. rewrite L in Hn. rewrite E by auto. pose proof (RX (nth n x []) ltac:(apply nth_In; lia)) as Q0. pose proof (RY (nth n y []) ltac:(apply nth_In; lia)) as Q1.
      destruct (nth n x []) as [|a [|? ?]]; try discriminate. destruct (nth n y []) as [|b [|c [|? ?]]]; try discriminate. now split.
  Qed.
  Lemma solves_two sol : solves p2 [pts; pts] sol -> exists u x y, sol = [x; y] /\ shaped (length pts) 3 u /\ split3 u x y /\ solves p1 [pts] [u].
  Proof.
    intros SO. destruct SO as (SH & REST) eqn:EQ. clear EQ. destruct two_make as (f0 & f1 & p2' & B0 & B1 & E2 & EP2 & WF2 & IV2). rewrite P2 in E2. injection E2 as <-. destruct SH as [LS SH]. unfold fe_of in SH. rewrite EP2 in LS, SH. cbn [fes length] in LS, SH.
    destruct sol as [|x [|y [|? ?]]]; try discriminate. pose proof (SH 0%nat ltac:(lia)) as SX. pose proof (SH 1%nat ltac:(lia)) as SY. cbn [nth] in SX, SY.
    rewrite (built_points _ _ _ _ _ _ _ _ _ _ _ B0), (built_vec _ _ _ _ _ _ _ _ _ _ _ B0) in SX. rewrite (built_points _ _ _ _ _ _ _ _ _ _ _ B1), (built_vec _ _ _ _ _ _ _ _ _ _ _ B1) in SY.
    destruct (joined_exists x y SX SY) as (u & SU & SP). exists u, x, y. split; [reflexivity|]. split; [exact SU|]. split; [exact SP|]. now apply (solves_split u x y).
  Qed.
  Lemma solves_one sol : solves p1 [pts] sol -> exists u, sol = [u] /\ shaped (length pts) 3 u.
  Proof.
    intros ([LS SH] & _). destruct one_make as (f & p1' & B & E1 & EP1 & _). rewrite P1 in E1. injection E1 as <-. unfold fe_of in SH. rewrite EP1 in LS, SH. cbn [fes length] in LS, SH.
    destruct sol as [|u [|? ?]]; try discriminate. exists u. split; [reflexivity|]. specialize (SH 0%nat ltac:(lia)). cbn [nth] in SH. now rewrite (built_points _ _ _ _ _ _ _ _ _ _ _ B), (built_vec _ _ _ _ _ _ _ _ _ _ _ B) in SH.
  Qed.
  Lemma solves_same : (forall u x y, shaped (length pts) 3 u -> split3 u x y -> (solves p1 [pts] [u] <-> solves p2 [pts; pts] [x; y])) /\
    (forall sol, solves p1 [pts] sol -> exists u x y, sol = [u] /\ shaped (length pts) 3 u /\ split3 u x y /\ solves p2 [pts; pts] [x; y]) /\
    (forall sol, solves p2 [pts; pts] sol -> exists u x y, sol = [x; y] /\ shaped (length pts) 3 u /\ split3 u x y /\ solves p1 [pts] [u]).
  Proof.
    split; [intros u x y SU SP; now apply solves_split|]. split; [|exact solves_two]. intros sol SS. destruct (solves_one sol SS) as (u & -> & SU). destruct (split_exists u SU) as (x & y & SP). exists u, x, y. split; [reflexivity|]. split; [exact SU|]. split; [exact SP|]. now apply (solves_split u x y SP SU).
  Qed.
End Problems.
