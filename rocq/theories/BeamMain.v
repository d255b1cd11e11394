(** Lemmas for C112: residuals of problems with constant surface loads. *)
From Coq Require Import Reals String List Arith Lia Lra Bool Sorting.Sorted.
From Verif Require Import Num Arr ArrFacts BatchFacts Fe FeFacts GeomFacts Basis SpecBasis SpecFe Problem SpecAssembly AssemblyFacts ProblemFacts ResidualFacts SpecWeak KernelFacts ElasticFacts SolverBc SpecBc BcFacts BcMain
  SpecSelect SelectFacts InitFacts SpecLinear Lagrangian LaserHeat LaserBox Plasticity HyperElastic Beam SpecBeam.
Import ListNotations.
Local Open Scope R_scope.
Local Notation sum := (sum_n (K := Rops)).

Definition const_map (t : nat -> R) : smap := fun _ _ _ k => t k.
Definition const_problem (f : fe Rops) (S : tensor -> tensor) (inds : list (list (nat * nat))) (ts : list (nat -> R)) : problem Rops unit :=
  mkProblem [f] inds (beam_maps S (map const_map ts)) [] (map (fun _ => []) inds).
(** the internal force of the stress and the load of a unit traction on the faces b *)
Definition internal (P : list (list Rops)) (f : fe Rops) (S : tensor -> tensor) (sol : list (list Rops)) (n k : nat) : R :=
  sum (num_cells f) (fun c => sum (num_nodes f) (fun a => if (cell_node f c a =? n)%nat then
    sum (num_quads f) (fun q => sum (dim f) (fun j => S (sol_to_grad P f sol c q) k j * get_shape_grads P f c q a j) * get_JxW P f c q) else 0)).
Definition edge_load (P : list (list Rops)) (f : fe Rops) (b : list (nat * nat)) (n : nat) : R :=
  sum (length b) (fun e => let c := fst (nth e b (0, 0)%nat) in let fc := snd (nth e b (0, 0)%nat) in
    sum (num_nodes f) (fun a => if (cell_node f c a =? n)%nat then sum (num_face_quads f) (fun q => face_shape_vals f fc q a * nanson_scale sqrt P f c fc q) else 0)).

Section Const.
  Variables (s : string) (f : fe Rops) (P : list (list Rops)) (S : tensor -> tensor) (inds : list (list (nat * nat))) (ts : list (nat -> R)).
  Hypothesis B : built_element s 2 f.
  Hypothesis V2 : vec f = 2%nat.
  Hypothesis NC : (0 < num_cells f)%nat.
  Hypothesis PM : plane_map S.
  Hypothesis LEN : length ts = length inds.
  Hypothesis IN : forall b c fc, In b inds -> In (c, fc) b -> (c < num_cells f)%nat.
  Let p := const_problem f S inds ts.
  Lemma c_dim : dim f = 2%nat.
  Proof. destruct B as (_ & _ & _ & sq & qd & fq & nm & p0 & cl & v & dr & E). exact (built_dim _ _ _ _ _ _ _ _ _ _ _ E). Qed.
  Lemma c_wf : wf_problem p.
  Proof.
    destruct B as (_ & _ & MESH & _). split.
    - intros g [<-|[]]. reflexivity.
    - intros g cell [<-|[]] HI. apply (In_nth _ _ []) in HI as (c & Hc & <-). exact (proj1 (MESH c Hc)).
    - intros g cell n [<-|[]] HI Hn. apply (In_nth _ _ []) in HI as (c & Hc & <-). exact (proj2 (MESH c Hc) n Hn).
    - intros b c fc Hb Hc. exact (IN b c fc Hb Hc).
  Qed.
  Lemma c_std : standard_problem p f.
  Proof. split; [reflexivity|]. split; [reflexivity|]. split; [reflexivity|]. split; [left; discriminate|]. cbn. now rewrite map_length. Qed.
  Lemma c_ivs : ivs_ok p.
  Proof.
    split; [intros iv []|]. split; [cbn; now rewrite map_length|]. intros i iv Hi HI. exfalso. cbn [p const_problem internal_vars_surfaces boundary_inds_list] in *.
    rewrite (nth_map_in _ _ _ []) in HI by exact Hi. destruct HI.
  Qed.
  Lemma c_maps : maps_ok (vec f) (dim f) (maps p).
  Proof.
    rewrite V2, c_dim. split; [|split].
    - intros tm E. injection E as <-. intros g g' iv H k j Hk Hj. exact (PM g g' H k j Hk Hj).
    - intros mm E. discriminate E.
    - intros sms sm E HI. injection E as <-. apply in_map_iff in HI as (t & <- & _). intros u u' x x' iv _ _ k _. reflexivity.
  Qed.
  Variable sol : list (list Rops).
  Hypothesis SOL : shaped (length (points f)) 2 sol.
  Lemma c_sol : sol_ok p [sol].
  Proof. split; [reflexivity|]. intros v Hv. assert (v = 0%nat) as -> by (cbn in Hv; lia). change (fe_of p 0) with f. cbn [nth]. now rewrite V2. Qed.
  Lemma c_surface i e a k : (i < length inds)%nat -> surface_term sqrt p f P sol i e a k
    = nth i ts (fun _ => 0) k * (let c := fst (nth e (nth i inds []) (0, 0)%nat) in let fc := snd (nth e (nth i inds []) (0, 0)%nat) in sum (num_face_quads f) (fun q => face_shape_vals f fc q a * nanson_scale sqrt P f c fc q)).
  Proof.
    intros Hi. cbn zeta. rewrite <- Rsum_mul. unfold surface_term. cbn zeta. apply Rsum_ext. intros q _. unfold traction. cbn [p const_problem maps beam_maps surface_maps boundary_inds_list].
    rewrite nth_error_map. rewrite (nth_error_nth' ts (fun _ => 0)) by lia. cbn [option_map]. unfold const_map. exact (Rmult_assoc _ _ _).
  Qed.
  Lemma c_volume c a k : volume_term p f P sol c a k = sum (num_quads f) (fun q => sum (dim f) (fun j => S (sol_to_grad P f sol c q) k j * get_shape_grads P f c q a j) * get_JxW P f c q).
  Proof.
    unfold volume_term. apply Rsum_ext. intros q _. unfold source, stress. cbn [p const_problem maps beam_maps tensor_map mass_map].
    refine (f_equal (fun z => z * get_JxW P f c q) _). etransitivity; [exact (f_equal (fun z => _ + z) (Rmult_0_l _))|]. exact (Rplus_0_r _).
  Qed.
  Lemma c_residual : exists res, compute_residual sqrt p [P] [sol] = Ok [res] /\ shaped (length (points f)) 2 res /\
    forall n k, (n < length (points f))%nat -> (k < 2)%nat -> get2 (@zero Rops) res n k = internal P f S sol n k + sum (length inds) (fun i => nth i ts (fun _ => 0) k * edge_load P f (nth i inds []) n).
  Proof.
    destruct (residual_weak Rops_ring sqrt p f P sol c_wf NC c_std c_sol c_ivs c_maps) as (res & E & SH & HR). rewrite V2 in *. exists res. split; [exact E|]. split; [exact SH|]. intros n k Hn Hk. rewrite (HR n k Hn Hk).
    apply (f_equal2 Rplus).
    - unfold internal. apply Rsum_ext. intros c _. apply Rsum_ext. intros a _. destruct (_ =? _)%nat; [apply c_volume|reflexivity].
    - apply Rsum_ext. intros i Hi. unfold edge_load. rewrite <- Rsum_mul. apply Rsum_ext. intros e _. cbn zeta. rewrite <- Rsum_mul. apply Rsum_ext. intros a _. change (face_cell p i e) with (fst (nth e (nth i inds []) (0, 0)%nat)).
      destruct (_ =? _)%nat; [exact (c_surface i e a k Hi)|symmetry; exact (Rmult_0_r _)].
  Qed.
  (** the total force *)
  Lemma c_total (LP : length P = length (points f)) res k : (k < 2)%nat -> compute_residual sqrt p [P] [sol] = Ok [res] ->
    sum (length (points f)) (fun n => get2 (@zero Rops) res n k) = sum (length inds) (fun i => nth i ts (fun _ => 0) k * faces_length P f (nth i inds [])).
  Proof.
    intros Hk E. pose proof (tested Rops_ring sqrt p f P sol c_wf NC c_std c_sol c_ivs c_maps res (fun _ => 1) k ltac:(now rewrite V2) E) as T.
    transitivity (sum (length (points f)) (fun n => 1 * get2 (@zero Rops) res n k)); [apply Rsum_ext; intros n _; symmetry; exact (Rmult_1_l _)|]. etransitivity; [exact T|].
    destruct B as (LAG & DIM & MESH & sq & qd & fq & nm & p0 & cl & v & dr & BB).
    transitivity (0 + sum (length inds) (fun i => nth i ts (fun _ => 0) k * faces_length P f (nth i inds []))); [|exact (Rplus_0_l _)]. apply (f_equal2 Rplus).
    - transitivity (sum (num_cells f) (fun _ => 0)); [|apply (sum_n_zero_ext Rops_ring); reflexivity]. apply Rsum_ext. intros c _.
      transitivity (sum (num_nodes f) (fun a => sum (num_quads f) (fun q => sum (dim f) (fun j => (S (sol_to_grad P f sol c q) k j * get_JxW P f c q) * get_shape_grads P f c q a j)))).
      { apply Rsum_ext. intros a _. etransitivity; [exact (Rmult_1_l _)|]. rewrite c_volume. apply Rsum_ext. intros q _. rewrite Rmult_comm, <- Rsum_mul. apply Rsum_ext. intros j _. req. ring. }
      rewrite Rsum_swap. apply (sum_n_zero_ext Rops_ring). intros q _. rewrite Rsum_swap. apply (sum_n_zero_ext Rops_ring). intros j Hj. rewrite Rsum_mul.
      pose proof (phys_grads_sum Rops_field _ _ _ _ _ _ _ _ _ _ _ BB LAG DIM P LP c q j ltac:(now rewrite c_dim in Hj)) as Z. etransitivity; [exact (f_equal (fun z => _ * z) Z)|]. exact (Rmult_0_r _).
    - apply Rsum_ext. intros i Hi. unfold faces_length. rewrite <- Rsum_mul. apply Rsum_ext. intros e _.
      transitivity (nth i ts (fun _ => 0) k * sum (num_nodes f) (fun a => sum (num_face_quads f) (fun q => face_shape_vals f (snd (nth e (nth i inds []) (0, 0)%nat)) q a * nanson_scale sqrt P f (fst (nth e (nth i inds []) (0, 0)%nat)) (snd (nth e (nth i inds []) (0, 0)%nat)) q))).
      { rewrite <- Rsum_mul. apply Rsum_ext. intros a _. etransitivity; [exact (Rmult_1_l _)|]. exact (c_surface i e a k Hi). }
      f_equal. rewrite Rsum_swap. apply Rsum_ext. intros q _.
      transitivity (nanson_scale sqrt P f (fst (nth e (nth i inds []) (0, 0)%nat)) (snd (nth e (nth i inds []) (0, 0)%nat)) q * sum (num_nodes f) (fun a => face_shape_vals f (snd (nth e (nth i inds []) (0, 0)%nat)) q a)).
      { rewrite <- Rsum_mul. apply Rsum_ext. intros a _. exact (Rmult_comm _ _). }
      pose proof (face_vals_sum Rops_ring _ _ _ _ _ _ _ _ _ _ _ BB LAG (snd (nth e (nth i inds []) (0, 0)%nat)) q) as U. etransitivity; [exact (f_equal (fun z => _ * z) U)|]. exact (Rmult_1_r _).
  Qed.
End Const.

(** ** the selections *)
Lemma left_iff x : location_left x = true <-> left_end (nth 0 x 0) (nth 1 x 0).
Proof. unfold location_left, left_end. rewrite isclose_true. rewrite Rabs_R0, Rminus_0_r, Rmult_0_r, Rplus_0_r. reflexivity. Qed.
Lemma right_iff x : location_right x = true <-> right_end (nth 0 x 0) (nth 1 x 0).
Proof. unfold location_right, right_end, beam_Lx. rewrite isclose_true. rewrite (Rabs_right 50) by lra. split; intros H; lra. Qed.
Lemma ltb_iff x y : Rltb x y = true <-> x < y.
Proof. unfold Rltb. destruct (Rlt_dec x y); split; auto; discriminate. Qed.
Lemma middle_iff x : location_midspan_bottom x = true <-> middle_below (nth 0 x 0) (nth 1 x 0).
Proof.
  unfold location_midspan_bottom, middle_below, beam_Lx. rewrite !andb_true_iff, !ltb_iff, isclose_true. rewrite Rabs_R0, Rminus_0_r, Rmult_0_r, Rplus_0_r. split; [intros ((H1 & H2) & H3)|intros (H1 & H2 & H3)]; repeat split; auto; lra.
Qed.
Lemma selects_of (f : fe Rops) g (region : R -> R -> Prop) b : (forall x, g x = true <-> region (nth 0 x 0) (nth 1 x 0)) -> faces_selected f (Loc1 g) b -> selects f region b.
Proof.
  intros HG (SS & HS). split; [exact (LaserBox.lex_nodup b SS)|]. intros c fc. rewrite HS. unfold face_holds, face_in_region. cbn [loc_holds]. split; intros (H1 & H2 & H3); split; auto; split; auto; intros a Ha; apply HG, H3, Ha.
Qed.
