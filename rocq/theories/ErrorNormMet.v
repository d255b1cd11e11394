(** Lemmas for C105: cases that meet the hypotheses. *)
From Coq Require Import Reals String List Arith Lia Lra Bool.
From Verif Require Import Num Arr ArrFacts BatchFacts Fe Problem SpecAssembly Basis SpecBasis SpecFe FeFacts GeomFacts SpecBc BcFacts SpecSelect SelectFacts SpecWeak KernelFacts SpecEnergy EnergyFacts ElasticFacts SpecLinear
  SpecSecond Init SpecInit InitFacts Lagrangian LaserHeat DiffMeshMain ErrorNorm SpecErrorNorm Complete CompleteMain ErrorNormMain ErrorNormRun.
Import ListNotations.
Local Open Scope R_scope.
Local Notation sum := (sum_n (K := Rops)).

(** the reference tetrahedron of the element s, one quadrature point *)
Definition ref_points (s : string) : list (list Rops) := map (fun r => map (fun n => INR n * / 2) r) (mesh_nodes2 s).
Definition one_cell (s : string) : list (list nat) := [seq 0 (node_count s)].
Definition one_point : list (list Rops) * list Rops := ([[/ 4; / 4; / 4]], [/ 6]).
Definition squares (s : string) : list (list Rops) := map (fun x => [nth 0 x 0 * nth 0 x 0]) (ref_points s).
Definition square_fn (x : list R) : list R := [nth 0 x 0 * nth 0 x 0].
Lemma ref_built s : s = "TET4"%string \/ s = "TET10"%string -> exists f, fe_init (K := Rops) sqrt s one_point ([], []) (fun _ _ => 0) (ref_points s) (one_cell s) 1 3 None = Ok f.
Proof. intros [-> | ->]; eexists; reflexivity. Qed.
Lemma ref_mesh s f : s = "TET4"%string \/ s = "TET10"%string -> fe_init (K := Rops) sqrt s one_point ([], []) (fun _ _ => 0) (ref_points s) (one_cell s) 1 3 None = Ok f -> built_element s 3 f /\ affine_mesh s (ref_points s) f 3 /\ positive_measures (ref_points s) f.
Proof.
  intros S B. pose proof (built_cells _ _ _ _ _ _ _ _ _ _ _ B) as CE. pose proof (built_points _ _ _ _ _ _ _ _ _ _ _ B) as PE. pose proof (built_nodes _ _ _ _ _ _ _ _ _ _ _ B) as NE.
  assert (NN : In s nine_names) by (destruct S as [-> | ->]; cbn; tauto).
  assert (DM : 3%nat = element_dim s) by (destruct S as [-> | ->]; reflexivity).
  assert (MO : mesh_ok f).
  { intros c Hc. rewrite CE in *. cbn [one_cell length] in Hc. assert (c = 0%nat) as -> by lia. cbn [one_cell nth]. split; [now rewrite seq_length, NE|]. intros n Hn. apply in_seq in Hn as (_ & Hn). rewrite PE. unfold ref_points. rewrite map_length. destruct S as [-> | ->]; exact Hn. }
  assert (AM : affine_cell (K := Rops) (/ 2) s (ref_points s) f 3 0 (fun i j => if (i =? j)%nat then 1 else 0) (fun _ => 0)).
  { intros a i Ha Hi. rewrite CE. cbn [one_cell nth]. rewrite seq_nth by exact Ha. cbn [Nat.add]. unfold affine.
    assert (E : nth i (nth a (ref_points s) []) 0 = ref_coord (K := Rops) (/ 2) s a i).
    { destruct S as [-> | ->].
      - change (node_count "TET4") with 4%nat in Ha. destruct a as [|[|[|[|a]]]]; [..|lia]; (destruct i as [|[|[|i]]]; [..|lia]); cbv -[Rmult Rplus Rinv IZR Ropp]; ring.
      - change (node_count "TET10") with 10%nat in Ha. do 10 (destruct a as [|a]; [(destruct i as [|[|[|i]]]; [..|lia]); cbv -[Rmult Rplus Rinv IZR Ropp]; ring|]). lia. }
    etransitivity; [exact E|]. symmetry. etransitivity; [exact (Rplus_0_r _)|]. exact (Rsum_delta 3 i (fun m => ref_coord (K := Rops) (/ 2) s a m) Hi). }
  split; [|split].
  - split; [exact NN|]. split; [exact DM|]. split; [exact MO|]. exists sqrt, one_point, ([], []), (fun _ _ => 0), (ref_points s), (one_cell s), 1%nat, None. exact B.
  - intros c Hc. unfold num_cells in Hc. rewrite CE in Hc. cbn in Hc. assert (c = 0%nat) as -> by lia. eexists _, _. exact AM.
  - intros c q Hc Hq. unfold num_cells in Hc. rewrite CE in Hc. cbn in Hc. assert (c = 0%nat) as -> by lia. rewrite (built_quads _ _ _ _ _ _ _ _ _ _ _ B) in Hq. cbn in Hq. assert (q = 0%nat) as -> by lia.
    assert (HALF : add (o := Rops) (/ 2) (/ 2) = one) by (change (/ 2 + / 2 = 1); lra). assert (HC : (0 < length (cells f))%nat) by (rewrite CE; cbn; lia).
    assert (E : get_JxW (ref_points s) f 0 0 = mul (o := Rops) (det_dim (K := Rops) 3 (fun i j => if (i =? j)%nat then 1 else 0)) (quad_weights f 0)) by (eapply (jxw_aff Rops_ring); eauto; now rewrite PE).
    assert (0 < mul (o := Rops) (det_dim (K := Rops) 3 (fun i j => if (i =? j)%nat then 1 else 0)) (quad_weights f 0)); [|rewrite E; assumption].
    rewrite (built_weights _ _ _ _ _ _ _ _ _ _ _ B). cbn. lra.
Qed.
Lemma squares_sampled s : s = "TET4"%string \/ s = "TET10"%string -> samples_quadratic (K := Rops) 3 1 (fun _ => 0) (fun _ _ => 0) (fun _ i j => if (i =? 0)%nat && (j =? 0)%nat then 1 else 0) (ref_points s) (squares s).
Proof.
  intros _. split; [unfold squares; now rewrite map_length|]. intros n k Hn Hk. assert (k = 0%nat) as -> by lia. unfold squares.
  rewrite (nth_indep _ [] ((fun x : list Rops => [nth 0 x 0 * nth 0 x 0]) [])) by (rewrite map_length; exact Hn). rewrite (map_nth (fun x : list Rops => [nth 0 x 0 * nth 0 x 0])). cbn [nth].
  cbv [quadratic_field sum_n sum_over seq fold_right map Nat.eqb andb add mul zero one Rops]. req. cbn. ring.
Qed.
Lemma square_form x : nth 0 (square_fn x) 0 = quadratic_field (K := Rops) 3 0 (fun _ => 0) (fun i j => if (i =? 0)%nat && (j =? 0)%nat then 1 else 0) (fun i => nth i x 0).
Proof. cbv [quadratic_field sum_n sum_over seq fold_right map Nat.eqb andb add mul zero one Rops]. cbn. ring. Qed.

Lemma tet10_exact : exists f, fe_init (K := Rops) sqrt "TET10" one_point ([], []) (fun _ _ => 0) (ref_points "TET10") (one_cell "TET10") 1 3 None = Ok f /\
  compute_l2_norm_error (ref_points "TET10") f (squares "TET10") square_fn = Some 0.
Proof.
  destruct (ref_built "TET10" (or_intror eq_refl)) as (f & B). exists f. split; [exact B|]. destruct (ref_mesh _ f (or_intror eq_refl) B) as (BE & AM & PM).
  assert (PE : length (ref_points "TET10") = length (points f)) by now rewrite (built_points _ _ _ _ _ _ _ _ _ _ _ B).
  assert (VE : vec f = 1%nat) by exact (built_vec _ _ _ _ _ _ _ _ _ _ _ B).
  refine (proj1 (quadratic_exact "TET10" 3 f _ BE PE (fun _ => 0) (fun _ _ => 0) (fun _ i j => if (i =? 0)%nat && (j =? 0)%nat then 1 else 0) _ square_fn _ AM _ _)).
  - cbn. tauto.
  - rewrite VE. now apply squares_sampled; right.
  - intros x k _ Hk. rewrite VE in Hk. assert (k = 0%nat) as -> by lia. apply square_form.
Qed.
Lemma tet4_inexact : exists f e, fe_init (K := Rops) sqrt "TET4" one_point ([], []) (fun _ _ => 0) (ref_points "TET4") (one_cell "TET4") 1 3 None = Ok f /\
  compute_l2_norm_error (ref_points "TET4") f (squares "TET4") square_fn = Some e /\ 0 < e.
Proof.
  destruct (ref_built "TET4" (or_introl eq_refl)) as (f & B). exists f. destruct (ref_mesh _ f (or_introl eq_refl) B) as (BE & AM & PM).
  destruct (l2_norm (ref_points "TET4") f (squares "TET4") square_fn (pos_nonneg _ _ PM)) as (e & E & P & _). exists e. split; [exact B|]. split; [exact E|].
  destruct P as [P|P]; [exact P|]. exfalso. rewrite <- P in E. apply (l2_zero _ _ _ _ PM) with (c := 0%nat) (q := 0%nat) (k := 0%nat) in E.
  - revert E. injection B as <-. intros E.
    cbv -[Rplus Rmult Rminus Ropp Rinv IZR sqrt] in E. lra.
  - unfold num_cells. rewrite (built_cells _ _ _ _ _ _ _ _ _ _ _ B). cbn. lia.
  - rewrite (built_quads _ _ _ _ _ _ _ _ _ _ _ B). cbn. lia.
  - rewrite (built_vec _ _ _ _ _ _ _ _ _ _ _ B). lia.
Qed.

(** ** The problem of the example on the reference tetrahedron: every node is prescribed *)
Definition tet_problem hessian := cr_problem hessian "TET4" one_point ([], []) (fun _ _ => 0) (one_cell "TET4") (ref_points "TET4").
Definition tet_values : list (list Rops) := map (fun x => [dirichlet_val x]) (ref_points "TET4").
Lemma tet_cells cell : In cell (one_cell "TET4") -> length cell = node_count "TET4" /\ forall n, In n cell -> (n < length (ref_points "TET4"))%nat.
Proof. intros [<-|[]]. split; [reflexivity|]. intros n Hn. apply in_seq in Hn as (_ & Hn). exact Hn. Qed.
Lemma tet_solved hessian p : tet_problem hessian = Ok p -> solves p [ref_points "TET4"] [tet_values].
Proof.
  intros B. destruct (cr_built hessian "TET4" one_point ([], []) (fun _ _ => 0) (one_cell "TET4") (ref_points "TET4") ltac:(cbn; tauto) tet_cells) as (p' & f & B' & BF & EF & MP & WF & IV & LB).
  unfold tet_problem in B. rewrite B in B'. injection B' as <-.
  pose proof (built_vec _ _ _ _ _ _ _ _ _ _ _ BF) as VE. pose proof (built_dim _ _ _ _ _ _ _ _ _ _ _ BF) as DE. pose proof (built_points _ _ _ _ _ _ _ _ _ _ _ BF) as PE. pose proof (built_cells _ _ _ _ _ _ _ _ _ _ _ BF) as CE.
  assert (SH : sol_ok p [tet_values]).
  { split; [now rewrite EF|]. intros v Hv. rewrite EF in Hv. cbn in Hv. assert (v = 0%nat) as -> by lia. unfold fe_of. rewrite EF. cbn [nth]. rewrite PE, VE. split; [reflexivity|]. intros r Hr. cbn in Hr. repeat (destruct Hr as [<-|Hr]; [reflexivity|]). destruct Hr. }
  assert (CS : (0 < p_num_cells p)%nat). { unfold p_num_cells, fe0. rewrite EF. cbn [hd]. unfold num_cells. rewrite CE. cbn. lia. }
  assert (STD : standard_problem p f). { split; [exact EF|]. rewrite MP. split; [reflexivity|]. split; [reflexivity|]. split; [left; discriminate|]. cbn. now rewrite LB. }
  assert (MA : maps_ok (vec f) (dim f) (maps p)) by (rewrite VE, DE, MP; apply cr_maps_ok).
  destruct (residual_weak Rops_ring sqrt p f (ref_points "TET4") tet_values WF CS STD SH IV MA) as (r & ER & _). split; [exact SH|]. exists [r]. split; [exact ER|].
  intros v n j Hv Hn Hj. rewrite EF in Hv. cbn in Hv. assert (v = 0%nat) as -> by lia. unfold fe_of in *. rewrite EF in *. cbn [nth] in *. rewrite VE in Hj. assert (j = 0%nat) as -> by lia. rewrite PE in Hn.
  rewrite (cr_prescribed _ _ _ _ _ _ f n BF Hn). pose proof (near_dec (nth n (ref_points "TET4") [])) as ND.
  assert (NS : near_surface (nth n (ref_points "TET4") [])).
  { change (n < 4)%nat in Hn. assert (Z : Rabs (INR 0 * / 2) <= / 10 ^ 5) by (cbn [INR]; rewrite Rmult_0_l, Rabs_R0; lra).
    destruct n as [|[|[|[|n]]]]; [..|lia]; [exists 0%nat|exists 1%nat|exists 0%nat|exists 0%nat]; split; try lia; left; exact Z. }
  apply ND in NS. rewrite NS. unfold get2, tet_values. rewrite (nth_indep _ [] ((fun x => [dirichlet_val x]) [])) by (rewrite map_length; exact Hn). rewrite (map_nth (fun x => [dirichlet_val x])). reflexivity.
Qed.
