(** Lemmas for C104: a case that meets the hypotheses. *)
From Coq Require Import Reals String List Arith Lia Lra Bool.
From Verif Require Import Num Arr ArrFacts Fe Problem SpecAssembly BatchFacts ProblemFacts Basis SpecBasis SpecFe FeFacts GeomFacts SolverBc SpecBc BcFacts SpecSelect SelectFacts SpecWeak KernelFacts SpecEnergy EnergyFacts
  ElasticFacts SpecLinear SpecPosed Mesh SpecMesh MeshFacts MeshMain MeshFe FractureUse Init SpecInit InitFacts Lagrangian LaserHeat DiffMesh SpecDiffMesh DiffMeshMain DiffMeshRun DiffMeshEnd DiffMeshPick DiffMeshFd.
Import ListNotations.
Local Open Scope R_scope.

Lemma two_good : good_rule two_by_two.
Proof.
  split.
  - destruct (two_sharp 1 1 0 sqrt ([], []) (fun _ _ => 0) ltac:(lia) ltac:(lia)) as [(E & _)|[(_ & H)|(E & _)]]; [discriminate E|exact H|destruct E as [E|E]; discriminate E].
  - intros q Hq. split; [|exact (two_pos 1 1 ltac:(lia) ltac:(lia) q Hq)]. change (q < 4)%nat in Hq. destruct q as [|[|[|[|q]]]]; [..|lia]; cbn; lra.
Qed.
(** The solver for problems with N nodes all of which are prescribed: it returns the prescribed values. *)
Definition prescribed_solver (N : nat) (p : problem Rops unit) : result (list (list (list Rops))) :=
  match fes p with
  | [f] => if (length (points f) =? N)%nat && forallb (fun n => match prescribed f n 0 with Some _ => true | None => false end) (seq 0 (length (points f))) then
             Ok [map (fun n => [match prescribed f n 0 with Some b => b | None => 0 end]) (seq 0 (length (points f)))]
           else Err RuntimeErr
  | _ => Err RuntimeErr
  end.
Section Met.
  Variables (Nx Ny : nat) (HX : (0 < Nx)%nat) (HY : (0 < Ny)%nat).
  Let M := rectangle_mesh Nx Ny 1 1.
  Let P0 : list (list Rops) := m_points M.
  Variables (quad fquad : list (list Rops) * list Rops) (normals : nat -> nat -> Rops).
  Let mk := new_problem quad fquad normals (m_cells M).
  Lemma prescribed_exact : exact_solver mk (prescribed_solver (length P0)).
  Proof.
    intros pts p sol B S. unfold prescribed_solver in S. destruct (problem_inv _ _ _ _ _ _ _ _ _ _ _ _ _ B) as (f0 & EF & _ & EP & _). rewrite EP in S. cbn [fes] in S.
    destruct (length (points f0) =? length P0)%nat eqn:EL; [|discriminate]. apply Nat.eqb_eq in EL. rewrite (built_points _ _ _ _ _ _ _ _ _ _ _ EF) in *.
    destruct (forallb _ _) eqn:EA; [|discriminate]. injection S as <-. rewrite forallb_forall in EA.
    destruct (dm_inv Nx Ny HX HY quad fquad normals pts p EL B) as (f & EF' & E & MP & WF & IV & LB). assert (f = f0) as -> by (pose proof (eq_trans (eq_sym EF') EF) as W; now injection W).
    pose proof (built_vec _ _ _ _ _ _ _ _ _ _ _ EF) as VE. pose proof (built_dim _ _ _ _ _ _ _ _ _ _ _ EF) as DE. pose proof (built_points _ _ _ _ _ _ _ _ _ _ _ EF) as PE.
    set (x := map (fun n => [match prescribed f0 n 0 with Some b => b | None => 0 end]) (seq 0 (length pts))).
    assert (SH : sol_ok p [x]).
    { split; [now rewrite E|]. intros v Hv. rewrite E in Hv. cbn in Hv. assert (v = 0%nat) as -> by lia. unfold fe_of. rewrite E. cbn [nth]. rewrite PE, VE. split; [unfold x; now rewrite map_length, seq_length|].
      intros r Hr. unfold x in Hr. apply in_map_iff in Hr as (n & <- & _). reflexivity. }
    assert (NC : (0 < p_num_cells p)%nat). { unfold p_num_cells, fe0. rewrite E. cbn [hd]. unfold num_cells. rewrite (built_cells _ _ _ _ _ _ _ _ _ _ _ EF).
      assert (LC : (0 < length (m_cells M))%nat); [|exact LC]. destruct (m_cells M) as [|c l] eqn:EC; [|cbn; lia]. exfalso. assert (I : In (quad_of Ny 0 0) (m_cells M)) by (apply rect_in; auto; exists 0%nat, 0%nat; auto). rewrite EC in I. exact I. }
    assert (STD : standard_problem p f0). { split; [exact E|]. rewrite MP. split; [reflexivity|]. split; [reflexivity|]. split; [left; discriminate|]. cbn. now rewrite LB. }
    assert (MA : maps_ok (vec f0) (dim f0) (maps p)) by (rewrite VE, DE, MP; exact dm_maps_ok).
    destruct (residual_weak Rops_ring sqrt p f0 pts x WF NC STD SH IV MA) as (r & ER & _). split; [exact SH|]. exists [r]. split; [exact ER|].
    intros v n j Hv Hn Hj. rewrite E in Hv. cbn in Hv. assert (v = 0%nat) as -> by lia. unfold fe_of in *. rewrite E in *. cbn [nth] in *. rewrite VE in Hj. assert (j = 0%nat) as -> by lia. rewrite PE in Hn.
    specialize (EA n (proj2 (in_seq _ _ _) (conj (Nat.le_0_l n) Hn))). destruct (prescribed f0 n 0) as [b|] eqn:EB; [|discriminate].
    unfold get2, x. rewrite (nth_indep _ [] [match prescribed f0 0 0 with Some b => b | None => 0 end]) by (rewrite map_length, seq_length; exact Hn).
    rewrite (map_nth (fun n => [match prescribed f0 n 0 with Some b => b | None => 0 end])). rewrite seq_nth by exact Hn. cbn [nth Nat.add]. now rewrite EB.
  Qed.
End Met.
Section Narrow.
  Variables (Ny : nat) (HY : (0 < Ny)%nat).
  Let M := rectangle_mesh 1 Ny 1 1.
  Let P0 : list (list Rops) := m_points M.
  Variables (quad fquad : list (list Rops) * list Rops) (normals : nat -> nat -> Rops).
  Let mk := new_problem quad fquad normals (m_cells M).
  Lemma narrow_ok t p : mk (moved P0 0 1 t) = Ok p -> exists sol, prescribed_solver (length P0) p = Ok sol.
  Proof.
    intros B. assert (H1 : (0 < 1)%nat) by lia. destruct (dm_inv 1 Ny H1 HY quad fquad normals _ p (moved_length _ _ _ _) B) as (f & EF & E & _). unfold prescribed_solver. rewrite E.
    rewrite (built_points _ _ _ _ _ _ _ _ _ _ _ EF). fold M. fold P0. rewrite moved_length, Nat.eqb_refl. cbn [andb]. match goal with |- context [forallb ?g ?l] => assert (A : forallb g l = true); [|rewrite A; eauto] end.
    apply forallb_forall. intros n Hn. apply in_seq in Hn. destruct Hn as (_ & Hn). cbn [Nat.add] in Hn. rewrite (u_prescribed 1 Ny quad fquad normals _ f n 0 EF). unfold dirichlet_value. cbn [length seq fold_left nth loc_holds Nat.eqb]. fold M. fold P0. rewrite moved_length.
    assert ((n <? length P0)%nat = true) as -> by (apply Nat.ltb_lt; exact Hn). cbn [andb].
    assert (C : nth 0 (nth n (moved P0 0 1 t) []) 0 = nth 0 (nth n P0 []) 0).
    { destruct (Nat.eq_dec n 0) as [->|D]; [|now rewrite moved_other]. rewrite moved_same by exact Hn. destruct (nth 0 P0 []); reflexivity. }
    assert (D : dm_left (nth n (moved P0 0 1 t) []) = true \/ dm_right (nth n (moved P0 0 1 t) []) = true).
    { unfold dm_left, dm_right. rewrite C. destruct (rect_point_inv 1 Ny 1 1 H1 HY n Hn) as (i & j & Hi & Hj & ->).
      assert (X : nth (i * (Ny + 1) + j) P0 [] = [INR i * 1 / INR 1; INR j * 1 / INR Ny]) by exact (rect_point 1 Ny 1 1 H1 HY i j Hi Hj). rewrite X. cbn [nth].
      destruct i as [|[|i]]; [left|right|lia]; apply isclose_true; cbn [INR].
      - replace (0 * 1 / 1 - 0) with 0 by field. rewrite !Rabs_R0. lra.
      - replace (1 * 1 / 1 - 1) with 0 by field. rewrite Rabs_R0, Rabs_R1. lra. }
    destruct (dm_top _), (dm_right _), (dm_left _); try reflexivity. destruct D; discriminate.
  Qed.
  Lemma narrow_run eps : Rabs eps <= / 10 ^ 3 -> exists r, dm_main quad fquad normals (prescribed_solver (length P0)) 1 Ny eps = Ok r.
  Proof.
    intros T. assert (H1 : (0 < 1)%nat) by lia. destruct (dm_built 1 Ny H1 HY quad fquad normals P0 eq_refl) as (p & f & EP & _). change (mk P0 = Ok p) in EP.
    destruct (fresh 1 Ny H1 HY quad fquad normals p 0 eps ltac:(lia) T EP) as (pp & EPP & BP & _). destruct (fresh 1 Ny H1 HY quad fquad normals p 0 (- eps) ltac:(lia) (abs_opp _ _ T) EP) as (pm & EM & BM & _).
    destruct (one_list0 1 Ny H1 HY quad fquad normals p EP) as (b & Eb). rewrite Eb in BP, BM. cbn [Nat.mul] in *. destruct (narrow_ok _ _ EPP) as (sp & SP). destruct (narrow_ok _ _ EM) as (sm & SM).
    unfold dm_main. fold M. fold P0. fold mk. rewrite EP. cbn [bind]. unfold P0 at 1, M at 1. rewrite (pick_narrow Ny HY). cbn [bind]. unfold gold_fd_two_independent_problems.
    pose proof (node_axis 1 Ny H1 HY 0 ltac:(lia)) as NA. cbn [Nat.mul] in NA. fold M in NA. fold P0 in NA. rewrite NA. cbn [bind]. fold M in EM, EPP. fold P0 in EM, EPP. fold mk in EM, EPP.
    rewrite EM. cbn [bind]. rewrite SM. cbn [bind]. rewrite EPP. cbn [bind]. rewrite SP. cbn [bind fst snd]. rewrite BP, BM. cbn [bind]. rewrite Eb, Nat.eqb_refl. cbn. eauto.
  Qed.
End Narrow.
