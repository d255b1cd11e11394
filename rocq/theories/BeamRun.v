(** Lemmas for C112: the balance of the force controlled beam. *)
From Coq Require Import Reals String List Arith Lia Lra Bool Sorting.Sorted.
From Verif Require Import Num Arr ArrFacts BatchFacts Fe FeFacts GeomFacts Basis SpecBasis SpecFe Problem SpecAssembly AssemblyFacts ProblemFacts ResidualFacts SpecWeak KernelFacts ElasticFacts SolverBc SpecBc BcFacts BcMain
  SpecSelect SelectFacts InitFacts SpecLinear Lagrangian LaserHeat Plasticity HyperElastic Beam SpecBeam BeamMain.
Import ListNotations.
Local Open Scope R_scope.
Local Notation sum := (sum_n (K := Rops)).

(** the same variable without Dirichlet conditions *)
Definition bare (f : fe Rops) : fe Rops :=
  mkFe (points f) (cells f) (vec f) (dim f) (num_quads f) (num_nodes f) (num_faces f) (num_face_quads f) (shape_vals f) (shape_grads_ref f) (quad_weights f)
    (face_shape_vals f) (face_shape_grads_ref f) (face_quad_weights f) (face_normals f) (face_inds f) [] [] [].
Lemma bare_init sq s qd fq nm p0 cl v d dir (f : fe Rops) : fe_init (K := Rops) sq s qd fq nm p0 cl v d dir = Ok f -> fe_init (K := Rops) sq s qd fq nm p0 cl v d None = Ok (bare f).
Proof.
  intros B. destruct (built_inv _ _ _ _ _ _ _ _ _ _ _ B) as (info & fi & [[ns vs] ws] & HI & HFI & HD & Hf). unfold fe_init. rewrite HI, HFI. cbn [Dirichlet_boundary_conditions]. rewrite Hf. reflexivity.
Qed.
Lemma bare_element s d (f : fe Rops) : built_element s d f -> built_element s d (bare f).
Proof. intros (LAG & DIM & MESH & sq & qd & fq & nm & p0 & cl & v & dr & BB). split; [exact LAG|]. split; [exact DIM|]. split; [exact MESH|]. exists sq, qd, fq, nm, p0, cl, v, None. exact (bare_init _ _ _ _ _ _ _ _ _ _ _ BB). Qed.

Definition faces_at (f : fe Rops) (g : list Rops -> bool) : list (nat * nat) := argwhere2 (boundary_flags f (fun x _ => g x)).
Lemma faces_at_spec s d (f : fe Rops) g : built_element s d f -> faces_selected f (Loc1 g) (faces_at f g).
Proof.
  intros (LAG & DIM & MESH & sq & qd & fq & nm & p0 & cl & v & dr & BB). destruct (boundary_spec f [Loc1 g] (built_faces_ok _ _ _ _ _ _ _ _ _ _ _ BB MESH)) as (_ & S). destruct (S eq_refl) as (bs & E & L & FS).
  assert (bs = [faces_at f g]) as -> by (injection E as <-; reflexivity). exact (FS 0%nat ltac:(cbn; lia)).
Qed.

Section Beam.
  Variables (s : string) (f : fe Rops) (P : list (list Rops)) (grad : (tensor -> R) -> tensor -> tensor).
  Hypothesis B : built_element s 2 f.
  Hypothesis V2 : vec f = 2%nat.
  Hypothesis NC : (0 < num_cells f)%nat.
  Hypothesis PM : plane_map (beam_stress grad).
  Let b1 := faces_at f location_midspan_bottom.
  Let b2 := faces_at f location_right.
  Definition imp (k : nat) : R := nth k [0; / 10 ^ 5] 0.
  Definition pull (T : R) (k : nat) : R := nth k [T; 0] 0.
  Lemma force_is : force_problem grad f = Ok (const_problem f (beam_stress grad) [b1; b2] [imp; pull 5]).
  Proof. reflexivity. Qed.
  Lemma counter_is : counter_problem (bare f) = Ok (const_problem (bare f) (fun _ _ _ => 0) [b2] [pull (- (5))]).
  Proof. reflexivity. Qed.
  Lemma disp_is : displacement_problem grad f = Ok (const_problem f (beam_stress grad) [b1] [imp]).
  Proof. reflexivity. Qed.
  Lemma in1 c fc : In (c, fc) b1 -> (c < num_cells f)%nat. Proof. intros H. now apply (faces_at_spec s 2 f _ B) in H as (H & _). Qed.
  Lemma in2 c fc : In (c, fc) b2 -> (c < num_cells f)%nat. Proof. intros H. now apply (faces_at_spec s 2 f _ B) in H as (H & _). Qed.
  Lemma in12 b c fc : In b [b1; b2] -> In (c, fc) b -> (c < num_cells f)%nat.
  Proof. intros [<-|[<-|[]]]; [apply in1|apply in2]. Qed.

  (** the problems differ from loaded_beam in the presentation of the constants only *)
  Lemma loaded_residual T sol : shaped (length (points f)) 2 sol -> exists res, compute_residual sqrt (loaded_beam f (beam_stress grad) b1 b2 T) [P] [sol] = Ok [res] /\ shaped (length (points f)) 2 res /\
    forall n k, (n < length (points f))%nat -> (k < 2)%nat -> get2 (@zero Rops) res n k = internal P f (beam_stress grad) sol n k + (imp k * edge_load P f b1 n + pull T k * edge_load P f b2 n).
  Proof.
    intros SH. destruct (c_residual s f P (beam_stress grad) [b1; b2] [fun k => match k with 1%nat => / 10 ^ 5 | _ => 0 end; fun k => match k with 0%nat => T | _ => 0 end] B V2 NC PM eq_refl in12 sol SH) as (res & E & S & HR).
    exists res. split; [exact E|]. split; [exact S|]. intros n k Hn Hk. rewrite (HR n k Hn Hk). f_equal.
    transitivity ((match k with 1%nat => / 10 ^ 5 | _ => 0 end) * edge_load P f b1 n + ((match k with 0%nat => T | _ => 0 end) * edge_load P f b2 n + 0)); [reflexivity|].
    destruct k as [|[|k]]; [| |lia]; unfold imp, pull; cbn [nth]; req; ring.
  Qed.
  Lemma loaded_total (LP : length P = length (points f)) T sol res : shaped (length (points f)) 2 sol -> compute_residual sqrt (loaded_beam f (beam_stress grad) b1 b2 T) [P] [sol] = Ok [res] ->
    sum (length (points f)) (fun n => get2 (@zero Rops) res n 0) = T * faces_length P f b2 /\ sum (length (points f)) (fun n => get2 (@zero Rops) res n 1) = / 10 ^ 5 * faces_length P f b1.
  Proof.
    intros SH E. pose proof (fun k Hk => c_total s f P (beam_stress grad) [b1; b2] [fun k => match k with 1%nat => / 10 ^ 5 | _ => 0 end; fun k => match k with 0%nat => T | _ => 0 end] B V2 NC PM eq_refl in12 sol SH LP res k Hk E) as C.
    split; [etransitivity; [exact (C 0%nat ltac:(lia))|]|etransitivity; [exact (C 1%nat ltac:(lia))|]].
    - transitivity (0 * faces_length P f b1 + (T * faces_length P f b2 + 0)); [reflexivity|req; ring].
    - transitivity (/ 10 ^ 5 * faces_length P f b1 + (0 * faces_length P f b2 + 0)); [reflexivity|req; ring].
  Qed.

  Let p := const_problem f (beam_stress grad) [b1; b2] [imp; pull 5].
  Let gs := global_shapes p.
  Lemma gs_is : gs = [(length (points f), 2%nat)].
  Proof. unfold gs, p, const_problem, global_shapes. cbn [fes map]. now rewrite V2. Qed.
  Lemma dof_is n k : dof_number gs 0 n k = (n * 2 + k)%nat.
  Proof. rewrite gs_is. reflexivity. Qed.
  Lemma valid_is n k : (n < length (points f))%nat -> (k < 2)%nat -> valid_dof gs 0 n k.
  Proof. intros Hn Hk. rewrite gs_is. split; [cbn; lia|]. split; [exact Hn|exact Hk]. Qed.
  Lemma shapes1 (x : list (list Rops)) : shaped (length (points f)) 2 x -> has_shapes gs [x].
  Proof. intros (L & R). rewrite gs_is. constructor; [|constructor]. split; [exact L|]. apply Forall_forall. exact R. Qed.

  (** get_q_vec of the counter load *)
  Lemma q_spec : exists q, beam_q P (const_problem (bare f) (fun _ _ _ => 0) [b2] [pull (- (5))]) = Ok q /\ length q = all_dofs gs /\
    forall n k, (n < length (points f))%nat -> (k < 2)%nat -> nth (n * 2 + k) q 0 = - (pull 5 k * edge_load P f b2 n).
  Proof.
    set (pc := const_problem (bare f) (fun _ _ _ => 0) [b2] [pull (- (5))]).
    assert (ES : sol_shapes pc = [(length (points f), 2%nat)]) by (unfold sol_shapes, pc, const_problem; cbn [fes map bare]; unfold num_total_nodes; cbn [points vec bare]; now rewrite V2).
    assert (US : has_shapes (sol_shapes pc) (unravel (sol_shapes pc) (zeros (K := Rops) (num_total_dofs_all_vars pc)))) by (apply unravel_shapes; unfold zeros, num_total_dofs_all_vars; now rewrite repeat_length).
    unfold beam_q. destruct (unravel (sol_shapes pc) (zeros (num_total_dofs_all_vars pc))) as [|x [|y l]]; rewrite ES in US; inversion US as [|a b c d SX SL]; subst; [|inversion SL].
    destruct SX as (L & F). assert (SHX : shaped (length (points (bare f))) 2 x) by (split; [exact L|exact (proj1 (Forall_forall _ _) F)]).
    destruct (c_residual s (bare f) P (fun _ _ _ => 0) [b2] [pull (- (5))] (bare_element s 2 f B) V2 NC (fun G G' H i j Hi Hj => eq_refl) eq_refl ltac:(intros b c fc [<-|[]]; apply in2) x SHX) as (res & E & SR & HR).
    fold pc in E. rewrite E. cbn [bind]. exists (ravel [res]). split; [reflexivity|]. change (points (bare f)) with (points f) in *.
    pose proof (shapes1 res SR) as HS. split; [rewrite all_dofs_total; now apply ravel_length|]. intros n k Hn Hk. rewrite <- dof_is.
    etransitivity; [exact (nth_ravel_dof 0 gs [res] 0 n k HS (valid_is n k Hn Hk))|]. cbn [nth]. etransitivity; [exact (HR n k Hn Hk)|].
    assert (Z : internal P (bare f) (fun _ _ _ => 0) x n k = 0).
    { unfold internal. apply (sum_n_zero_ext Rops_ring). intros c0 _. apply (sum_n_zero_ext Rops_ring). intros a _. destruct (_ =? _)%nat; [|reflexivity]. apply (sum_n_zero_ext Rops_ring). intros q _.
      etransitivity; [refine (f_equal (fun z => z * get_JxW P (bare f) c0 q) (_ : _ = 0))|exact (Rmult_0_l _)]. apply (sum_n_zero_ext Rops_ring). intros j _. exact (Rmult_0_l _). }
    rewrite Z. transitivity (0 + (pull (- (5)) k * edge_load P f b2 n + 0)); [reflexivity|]. destruct k as [|[|k]]; [| |lia]; unfold pull; cbn [nth]; req; ring.
  Qed.
  (** res_vec + load_term *)
  Lemma balance_spec q lam sol : bc_ok f -> shaped (length (points f)) 2 sol -> length q = all_dofs gs ->
    (forall n k, (n < length (points f))%nat -> (k < 2)%nat -> nth (n * 2 + k) q 0 = - (pull 5 k * edge_load P f b2 n)) ->
    exists r, beam_balance P p q lam sol = Ok r /\ length r = (length (points f) * 2)%nat /\ forall n k, (n < length (points f))%nat -> (k < 2)%nat ->
      nth (n * 2 + k) r 0 = match prescribed f n k with
        | Some v => get2 (@zero Rops) sol n k - v
        | None => internal P f (beam_stress grad) sol n k + (imp k * edge_load P f b1 n + pull (lam * 5) k * edge_load P f b2 n) end.
  Proof.
    intros BC SH LQ HQ. destruct (c_residual s f P (beam_stress grad) [b1; b2] [imp; pull 5] B V2 NC PM eq_refl in12 sol SH) as (res & E & SR & HR). fold p in E.
    assert (BCS : bcs_ok p) by (intros g [<-|[]]; exact BC). pose proof (shapes1 res SR) as HSR. pose proof (shapes1 sol SH) as HSS.
    assert (LR : length (ravel [res]) = all_dofs gs) by (rewrite all_dofs_total; now apply ravel_length). assert (LS : length (ravel [sol]) = all_dofs gs) by (rewrite all_dofs_total; now apply ravel_length).
    destruct (apply_bc_vec_ring Rops_ring p BCS (ravel [res]) (ravel [sol]) (1 : Rops) LR LS) as (LA & HA). destruct (assign_zeros_bc_spec p BCS q LQ) as (LZ & HZ).
    unfold beam_balance. rewrite E. cbn [bind]. eexists. split; [reflexivity|]. unfold vadd, vscale. split.
    { rewrite length_map2, map_length. fold gs in LA, LZ. etransitivity; [exact (f_equal2 Nat.min LA LZ)|]. rewrite Nat.min_id, gs_is. unfold all_dofs. cbn. lia. }
    intros n k Hn Hk. pose proof (valid_is n k Hn Hk) as VD. pose proof (dof_number_lt gs 0 n k VD) as LT. rewrite dof_is in LT. fold gs in LA, LZ.
    rewrite (nth_map2 _ _ _ _ (0 : Rops) (0 : Rops)) by (rewrite ?map_length; lia). rewrite (nth_map_in _ _ _ (0 : Rops)) by lia.
    specialize (HA 0%nat n k VD). specialize (HZ 0%nat n k VD). fold gs in HA, HZ. rewrite dof_is in HA, HZ. change (fe_of p 0) with f in HA, HZ.
    transitivity (nth (n * 2 + k) (apply_bc_vec (ravel [res]) (ravel [sol]) p (1 : Rops)) 0 + (1 - lam) * nth (n * 2 + k) (assign_zeros_bc q p) 0); [reflexivity|].
    etransitivity; [exact (f_equal2 (fun a b => a + (1 - lam) * b) HA HZ)|].
    assert (NS : nth (n * 2 + k) (ravel [sol]) 0 = get2 (@zero Rops) sol n k) by (rewrite <- dof_is; exact (nth_ravel_dof 0 gs [sol] 0 n k HSS VD)).
    assert (NR : nth (n * 2 + k) (ravel [res]) 0 = get2 (@zero Rops) res n k) by (rewrite <- dof_is; exact (nth_ravel_dof 0 gs [res] 0 n k HSR VD)).
    destruct (prescribed f n k) as [v|].
    - transitivity (nth (n * 2 + k) (ravel [sol]) 0 - 1 * v + (1 - lam) * 0); [reflexivity|]. rewrite NS. req. ring.
    - transitivity (nth (n * 2 + k) (ravel [res]) 0 + (1 - lam) * nth (n * 2 + k) q 0); [reflexivity|]. rewrite NR, (HQ n k Hn Hk). etransitivity; [exact (f_equal (fun z => z + _) (HR n k Hn Hk))|].
      transitivity (internal P f (beam_stress grad) sol n k + (imp k * edge_load P f b1 n + (pull 5 k * edge_load P f b2 n + 0)) + (1 - lam) * - (pull 5 k * edge_load P f b2 n)); [reflexivity|].
      destruct k as [|[|k]]; [| |lia]; unfold pull, imp; cbn [nth]; req; ring.
  Qed.
End Beam.
