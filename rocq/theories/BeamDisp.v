(** Lemmas for C112: the balance of the displacement controlled beam. *)
From Coq Require Import Reals String List Arith Lia Lra Bool.
From Verif Require Import Num Arr ArrFacts BatchFacts Fe FeFacts GeomFacts Basis SpecBasis SpecFe Problem SpecAssembly AssemblyFacts ProblemFacts ResidualFacts SpecWeak KernelFacts ElasticFacts SolverBc SpecBc BcFacts BcMain
  SpecLinear Lagrangian Plasticity HyperElastic Beam SpecBeam BeamMain BeamRun.
Import ListNotations.
Local Open Scope R_scope.

Lemma disp_main : forall s (f : fe Rops) P grad p b1 lam sol, built_element s 2 f -> vec f = 2%nat -> (0 < num_cells f)%nat -> plane_map (beam_stress grad) -> bc_ok f ->
  displacement_problem grad f = Ok p -> boundary_inds_list p = [b1] -> shaped (length (points f)) 2 sol ->
  exists r res, disp_balance P p lam sol = Ok r /\ length r = (length (points f) * 2)%nat /\ compute_residual sqrt p [P] [sol] = Ok [res] /\
    (forall n k, (n < length (points f))%nat -> (k < 2)%nat -> nth (n * 2 + k) r 0 = match prescribed f n k with Some v => get2 (@zero Rops) sol n k - lam * v | None => get2 (@zero Rops) res n k end) /\
    (length P = length (points f) -> (forall i, (i < length (points f) * 2)%nat -> nth i r 0 = 0) ->
     let held k := sum_n (K := Rops) (length (points f)) (fun n => match prescribed f n k with Some _ => get2 (@zero Rops) res n k | None => 0 end) in
     held 0%nat = 0 /\ held 1%nat = / 10 ^ 5 * faces_length P f b1).
Proof.
  intros s f P grad p b1 lam sol B V2 NC PM BC EP EB SH. rewrite disp_is in EP. injection EP as <-. injection EB as <-. set (b1 := faces_at f location_midspan_bottom). set (p := const_problem f (beam_stress grad) [b1] [imp]).
  assert (IN : forall b c fc, In b [b1] -> In (c, fc) b -> (c < num_cells f)%nat) by (intros b c fc [<-|[]]; exact (in1 s f B c fc)).
  destruct (c_residual s f P (beam_stress grad) [b1] [imp] B V2 NC PM eq_refl IN sol SH) as (res & E & SR & HR). fold p in E.
  pose proof (fun LP k Hk => c_total s f P (beam_stress grad) [b1] [imp] B V2 NC PM eq_refl IN sol SH LP res k Hk E) as T.
  assert (BCS : bcs_ok p) by (intros g [<-|[]]; exact BC). pose proof (shapes1 f grad V2 res SR) as HSR. pose proof (shapes1 f grad V2 sol SH) as HSS.
  match type of HSR with has_shapes ?g _ => set (gs := g) in * end. assert (GS : gs = [(length (points f), 2%nat)]) by exact (gs_is f grad V2).
  assert (LR : length (ravel [res]) = all_dofs gs) by (rewrite all_dofs_total; now apply ravel_length). assert (LS : length (ravel [sol]) = all_dofs gs) by (rewrite all_dofs_total; now apply ravel_length).
  destruct (apply_bc_vec_ring Rops_ring p BCS (ravel [res]) (ravel [sol]) (lam : Rops) LR LS) as (LA & HA).
  unfold disp_balance. rewrite E. cbn [bind]. eexists _, res. split; [reflexivity|]. split; [etransitivity; [exact LA|]; change (all_dofs gs = (length (points f) * 2)%nat); rewrite GS; unfold all_dofs; cbn; lia|]. split; [reflexivity|].
  assert (HB : forall n k, (n < length (points f))%nat -> (k < 2)%nat -> nth (n * 2 + k) (apply_bc_vec (ravel [res]) (ravel [sol]) p (lam : Rops)) 0 = match prescribed f n k with Some v => get2 (@zero Rops) sol n k - lam * v | None => get2 (@zero Rops) res n k end).
  { intros n k Hn Hk. pose proof (valid_is f grad V2 NC n k Hn Hk) as VD. fold gs in VD. specialize (HA 0%nat n k VD). change (global_shapes p) with gs in HA. pose proof (dof_is f grad V2 n k) as DI. fold gs in DI. rewrite DI in HA. change (fe_of p 0) with f in HA.
    assert (NS : nth (n * 2 + k) (ravel [sol]) 0 = get2 (@zero Rops) sol n k) by (rewrite <- DI; exact (nth_ravel_dof 0 gs [sol] 0 n k HSS VD)).
    assert (NR : nth (n * 2 + k) (ravel [res]) 0 = get2 (@zero Rops) res n k) by (rewrite <- DI; exact (nth_ravel_dof 0 gs [res] 0 n k HSR VD)).
    etransitivity; [exact HA|]. destruct (prescribed f n k) as [v|]; [|exact NR]. transitivity (nth (n * 2 + k) (ravel [sol]) 0 - lam * v); [reflexivity|]. now rewrite NS. }
  split; [exact HB|]. intros LP Z. set (held := fun k => sum_n (K := Rops) (length (points f)) (fun n => match prescribed f n k with Some _ => get2 (@zero Rops) res n k | None => 0 end)). change (held 0%nat = 0 /\ held 1%nat = / 10 ^ 5 * faces_length P f b1).
  assert (H : forall k, (k < 2)%nat -> held k = sum_n (K := Rops) (length (points f)) (fun n => get2 (@zero Rops) res n k)).
  { intros k Hk. apply Rsum_ext. intros n Hn. specialize (HB n k Hn Hk). rewrite (Z (n * 2 + k)%nat) in HB by nia. destruct (prescribed f n k); [reflexivity|exact HB]. }
  rewrite !H by lia. split; (etransitivity; [apply (T LP); lia|]).
  - transitivity (0 * faces_length P f b1 + 0); [reflexivity|req; ring].
  - transitivity (/ 10 ^ 5 * faces_length P f b1 + 0); [reflexivity|req; ring].
Qed.
