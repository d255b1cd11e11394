(** Lemmas for C103: every pass poses a problem of the kind the theorems speak of. *)
From Coq Require Import String Reals List Arith Lia Lra Psatz Bool.
From Verif Require Import Num Arr ArrFacts Fe SpecFe FeFacts GeomFacts Problem SpecAssembly BatchFacts ProblemFacts AssemblyFacts DerivFacts Basis SpecBasis BasisFacts SpecSelect SelectFacts SpecWeak KernelFacts SpecEnergy EnergyFacts Init SpecInit InitFacts Mesh MeshMain MeshFe
  SpecPatch PatchFacts Elastic ElasticFacts Plasticity SpecEigen FractureLoop FractureUse Lagrangian LaserHeat HyperElastic SpecHyper HyperFacts HyperMain HyperUse HyperEnd Contact SpecContact ContactRot ContactMain ContactMore ContactRun ContactEnd Spectral3.
Import ListNotations.
Local Open Scope R_scope.
Local Notation sum := (sum_n (K := Rops)).

Section Posed.
  Variables (k : nat) (Hk : (0 < k)%nat).
  Let M := contact_mesh k.
  Variables (sqrtK : R -> R) (quad fquad : list (list Rops) * list Rops) (normals : nat -> nat -> Rops)
    (dir : option (list (location_fn Rops) * list nat * list (list Rops -> Rops))) (f : fe Rops).
  Hypothesis BUILT : fe_init (K := Rops) sqrtK "QUAD4" quad fquad normals (m_points M) (m_cells M) 2 2 dir = Ok f.
  Hypothesis CEN : centred (fst quad).
  Variables (eigh : tensor -> (nat -> R) * tensor) (grad : (tensor -> R) -> tensor -> tensor) (noise : tensor).
  Hypothesis EO : eigh_ok 3 eigh.
  Hypothesis GC : contact_grad_correct eigh grad.
  Let P := m_points M.
  Variables (f' : fe Rops) (u : list (list Rops)).
  Hypothesis RB : rebound f f'.
  Hypothesis SH : shaped (length P) 2 u.
  Hypothesis POS : forall c q, (c < num_cells f)%nat -> (q < num_quads f)%nat -> 0 < det (K := Rops) 2 (strained noise P f u c q).
  Let p := mkProblem [f'] [] (contact_maps eigh grad noise) [contact_thetas P f; contact_post eigh noise P f u] [].
  Lemma met_cells : num_cells f = ((20 * k + 1) * (10 * k))%nat. Proof. exact (rect_num_cells (20 * k + 1) (10 * k) _ _ ltac:(lia) ltac:(lia) _ _ _ _ _ _ f BUILT). Qed.
  Lemma met_same : num_cells f' = num_cells f /\ num_quads f' = num_quads f /\ vec f' = vec f /\ dim f' = dim f /\ points f' = points f /\ cells f' = cells f /\ num_nodes f' = num_nodes f /\ strained noise P f' u = strained noise P f u.
  Proof. destruct RB as (? & ? & ? & ->). repeat split; reflexivity. Qed.
  Lemma met_quads : (0 < num_quads f)%nat.
  Proof. rewrite (built_quads _ _ _ _ _ _ _ _ _ _ _ BUILT). destruct CEN as [N _]. destruct (fst quad); [contradiction|cbn; lia]. Qed.
  Lemma posed : wf_problem p /\ (0 < p_num_cells p)%nat /\ ivs_ok p /\ sol_ok p [u] /\ maps_ok (vec f') (dim f') (maps p) /\
    contact_problem eigh grad noise p f' (fun c _ => if in_solid k (c / (10 * k)) (c mod (10 * k)) then 1 else 0)
      (fun c _ => average (num_quads f) (fun q => swing_cos (strained noise P f u c q))) (fun c _ => average (num_quads f) (fun q => swing_sin (strained noise P f u c q))).
  Proof.
    destruct met_same as (E1 & E2 & E3 & E4 & E5 & E6 & E7 & E8). pose proof (built_vec _ _ _ _ _ _ _ _ _ _ _ BUILT) as VE. pose proof (built_dim _ _ _ _ _ _ _ _ _ _ _ BUILT) as DE.
    assert (NCP : p_num_cells p = num_cells f) by exact E1. pose proof (rect_mesh_ok (20 * k + 1) (10 * k) _ _ ltac:(lia) ltac:(lia) _ _ _ _ _ _ f BUILT) as MO.
    assert (MOK : maps_ok (vec f') (dim f') (maps p)) by (rewrite E3, E4, VE, DE; exact (maps_good eigh grad noise GC)).
    split; [|split; [|split; [|split; [|split]]]].
    - constructor.
      + intros g [<-|[]]. rewrite E6, NCP. reflexivity.
      + intros g cell [<-|[]] I. rewrite E6 in I. apply In_nth with (d := []) in I as (c & Hc & <-). rewrite E7. exact (proj1 (MO c Hc)).
      + intros g cell n [<-|[]] I J. rewrite E6 in I. apply In_nth with (d := []) in I as (c & Hc & <-). unfold num_total_nodes. rewrite E5. apply (proj2 (MO c Hc)). exact J.
      + intros b c fc [].
    - rewrite NCP, met_cells. nia.
    - split; [|split; [reflexivity|intros s iv H; cbn in H; lia]]. intros iv [<-|[<-|[]]]; rewrite NCP; [rewrite met_cells; exact (thetas_length k Hk _ _ _ _ _ _ f BUILT)|apply post_length].
    - split; [reflexivity|]. intros v Hv. cbn in Hv. assert (v = 0%nat) as -> by lia. cbn. rewrite E5, E3, VE. unfold P in SH. rewrite (built_points _ _ _ _ _ _ _ _ _ _ _ BUILT). exact SH.
    - exact MOK.
    - split; [|split; [now rewrite E3|split; [now rewrite E4|split; [reflexivity|]]]].
      + split; [reflexivity|]. split; [reflexivity|]. split; [reflexivity|]. split; [left; discriminate|reflexivity].
      + intros c q Hc Hq. rewrite NCP in Hc. rewrite E2 in Hq. pose proof Hc as Hc'. rewrite met_cells in Hc'.
        destruct (post_form eigh noise P f u EO c Hc met_quads (fun q H => POS c q Hc H)) as (Rm & PE & PS & _). exists Rm. split; [|exact PS].
        assert (T : (c / (10 * k) < 20 * k + 1)%nat) by (apply Nat.div_lt_upper_bound; [lia|rewrite Nat.mul_comm; exact Hc']). assert (T2 : (c mod (10 * k) < 10 * k)%nat) by (apply Nat.mod_upper_bound; lia).
        pose proof (theta_form k Hk _ _ _ _ _ _ f BUILT CEN _ _ T T2) as TF. replace (c / (10 * k) * (10 * k) + c mod (10 * k))%nat with c in TF by (rewrite Nat.mul_comm; apply Nat.div_mod; lia).
        unfold iv_at, p. cbn [internal_vars flat_map]. unfold P in *. unfold M in *. rewrite TF, PE. reflexivity.
  Qed.
End Posed.
(** ** The first pass *)
Lemma two_centred : centred (fst two_by_two).
Proof. split; [discriminate|]. intros k Hk. unfold average. assert (k = 0%nat \/ k = 1%nat) as [->| ->] by lia; cbn; req; lra. Qed.
Lemma simple_same F F' : same 2 F F' -> simple_spectrum F' -> simple_spectrum F.
Proof.
  intros H. unfold simple_spectrum. cbv zeta. assert (E : same 2 (product 2 (transposed F) F) (product 2 (transposed F') F')) by (apply product_ext; [intros i j Hi Hj; exact (H j i Hj Hi)|exact H]).
  rewrite (E 0 0)%nat, (E 0 1)%nat, (E 1 1)%nat by lia. tauto.
Qed.
Section FirstMet.
  Variables (k : nat) (Hk : (0 < k)%nat) (n : nat -> R).
  Hypothesis N0 : -1 < n 0%nat.
  Hypothesis N1 : -1 < n 1%nat.
  Hypothesis ND : n 0%nat <> n 1%nat /\ n 0%nat <> 0 /\ n 1%nat <> 0.
  Variables (sqrtK : R -> R) (fquad : list (list Rops) * list Rops) (normals : nat -> nat -> Rops).
  Variables (eigh : tensor -> (nat -> R) * tensor) (grad : (tensor -> R) -> tensor -> tensor) (scale : R).
  Hypothesis EO : eigh_ok 3 eigh.
  Hypothesis GC : contact_grad_correct eigh grad.
  Let P := m_points (contact_mesh k).
  Let one := repeat (repeat 1 2) (length P).
  Lemma first_met : exists (f f' : fe Rops) (p : problem Rops cval) res,
    fe_init (K := Rops) sqrtK "QUAD4" two_by_two fquad normals P (m_cells (contact_mesh k)) 2 2 (Some contact_bc) = Ok f /\
    update_Dirichlet_boundary_conditions f (Some (bc_locs, [0; 1; 1]%nat, bc_values scale)) = Ok f' /\
    p = mkProblem [f'] [] (contact_maps eigh grad (diag_of n)) [contact_thetas P f; contact_post eigh (diag_of n) P f one] [] /\
    wf_problem p /\ (0 < p_num_cells p)%nat /\ ivs_ok p /\ sol_ok p [one] /\ regular_state (diag_of n) p f' P one /\
    contact_problem eigh grad (diag_of n) p f' (fun c _ => if in_solid k (c / (10 * k)) (c mod (10 * k)) then 1 else 0) (fun _ _ => 1) (fun _ _ => 0) /\
    compute_residual sqrtK p [P] [one] = Ok [res].
  Proof.
    assert (exists bc, Dirichlet_boundary_conditions (K := Rops) P (Some contact_bc) = Ok bc) as (bc & BC).
    { destruct (dirichlet_spec (K := Rops) P bc_locs [0; 1; 1]%nat (bc_values 0)) as (_ & _ & D). destruct (D eq_refl eq_refl eq_refl) as (ns & vs & ws & E & _). eexists. exact E. }
    assert (exists f, fe_init (K := Rops) sqrtK "QUAD4" two_by_two fquad normals P (m_cells (contact_mesh k)) 2 2 (Some contact_bc) = Ok f) as (f & B).
    { unfold fe_init. assert (exists inf fi, get_elements "QUAD4" = Ok inf /\ reorder_inds (facets (basix_ele inf)) (re_order inf) = Ok fi) as (inf & fi & -> & ->) by (do 2 eexists; split; reflexivity).
      rewrite BC. eexists. reflexivity. }
    destruct (bc_possible f scale) as (f' & UP). pose proof (update_rebound f _ f' UP) as RB.
    pose proof (rect_num_cells (20 * k + 1) (10 * k) _ _ ltac:(lia) ltac:(lia) _ _ _ _ _ _ f B) as NCF. pose proof (rect_element (20 * k + 1) (10 * k) _ _ ltac:(lia) ltac:(lia) _ _ _ _ _ _ f B) as BE.
    pose proof (built_vec _ _ _ _ _ _ _ _ _ _ _ B) as VE. pose proof (built_dim _ _ _ _ _ _ _ _ _ _ _ B) as DE. pose proof (built_points _ _ _ _ _ _ _ _ _ _ _ B) as PE. pose proof (built_quads _ _ _ _ _ _ _ _ _ _ _ B) as QE.
    assert (PL : length P = num_total_nodes f) by (unfold num_total_nodes; now rewrite PE).
    assert (OE : one = repeat (repeat 1 (vec f)) (num_total_nodes f)) by (unfold one; now rewrite VE, PL).
    assert (NZ : forall c q, (c < num_cells f)%nat -> (q < num_quads f)%nat -> get_JxW P f c q <> 0).
    { intros c q Hc Hq. rewrite NCF in Hc. unfold P, contact_mesh. rewrite (rect_JxW (20 * k + 1) (10 * k) _ _ ltac:(lia) ltac:(lia) _ _ _ _ _ _ f B c q Hc).
      rewrite side_x, side_y by exact Hk. assert (0 < 50 / INR k) by (apply Rmult_lt_0_compat; [lra|]; apply Rinv_0_lt_compat; now apply lt_0_INR).
      apply Rmult_integral_contrapositive_currified; [nra|]. rewrite (built_weights _ _ _ _ _ _ _ _ _ _ _ B). rewrite QE in Hq. cbn in Hq. destruct q as [|[|[|[|q]]]]; [| | | |lia]; cbn; lra. }
    assert (BE' : built_element "QUAD4" (dim f) f) by (rewrite DE; exact BE).
    pose proof (fun c q Hc Hq => ones_strained n P f "QUAD4" BE' DE VE PL c q Hc (NZ c q Hc Hq)) as OS. rewrite <- OE in OS.
    pose proof (fun c q Hc Hq => diag_facts n P f DE VE PL N0 N1 _ (OS c q Hc Hq)) as DF.
    assert (SH : shaped (length P) 2 one) by (split; [apply repeat_length|intros row I; apply repeat_spec in I; subst row; reflexivity]).
    destruct (posed k Hk sqrtK two_by_two fquad normals (Some contact_bc) f B two_centred eigh grad (diag_of n) EO GC f' one RB SH (fun c q Hc Hq => proj1 (DF c q Hc Hq))) as (WF & NC & IV & SO & MO & CP).
    set (p := mkProblem [f'] [] (contact_maps eigh grad (diag_of n)) [contact_thetas (m_points (contact_mesh k)) f; contact_post eigh (diag_of n) (m_points (contact_mesh k)) f one] []) in *.
    assert (SD : standard_problem p f') by exact (proj1 CP). destruct (std_residual sqrtK p f' P WF NC SD IV MO _ SO) as (res & CR & _).
    assert (E : num_cells f' = num_cells f /\ num_quads f' = num_quads f /\ strained (diag_of n) P f' one = strained (diag_of n) P f one) by (destruct RB as (? & ? & ? & ->); repeat split; reflexivity). destruct E as (E1 & E2 & E3).
    exists f, f', p, res. do 7 (split; [auto; fail|]). split; [|split; [|exact CR]].
    - intros c q Hc Hq. change (p_num_cells p) with (num_cells f') in Hc. rewrite E1 in Hc. rewrite E2 in Hq. rewrite E3. split; [exact (proj1 (DF c q Hc Hq))|]. apply (simple_same _ _ (OS c q Hc Hq)). now apply simple_rest.
    - destruct CP as (C1 & C2 & C3 & C4 & C5). do 4 (split; [assumption|]). intros c q Hc Hq. destruct (C5 c q Hc Hq) as (Rm & IE & SM). exists Rm. split; [exact IE|]. intros i j Hi Hj. rewrite (SM i j Hi Hj).
      change (p_num_cells p) with (num_cells f') in Hc. rewrite E1 in Hc. assert (NQ : INR (num_quads f) <> 0) by (apply not_0_INR; rewrite QE; cbn; lia). change (m_points (contact_mesh k)) with P. unfold average.
      rewrite (Rsum_ext _ (fun q0 => swing_cos (strained (diag_of n) P f one c q0)) (fun _ => 1)) by (intros q0 H; exact (proj1 (proj2 (DF c q0 Hc H)))). rewrite (Rsum_ext _ (fun q0 => swing_sin (strained (diag_of n) P f one c q0)) (fun _ => 0)) by (intros q0 H; exact (proj2 (proj2 (DF c q0 Hc H)))). rewrite !rsum_const.
      replace (INR (num_quads f) * 1 / INR (num_quads f)) with 1 by (field; exact NQ). replace (INR (num_quads f) * 0 / INR (num_quads f)) with 0 by (field; exact NQ). reflexivity.
  Qed.
End FirstMet.
