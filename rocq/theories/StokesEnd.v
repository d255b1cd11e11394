(** Proofs for C82: equations and symmetry, and two example meshes. *)
From Coq Require Import String Reals List Arith Lia Lra Bool.
From Verif Require Import Num Arr ArrFacts Fe Problem SpecAssembly Basis SpecBasis SpecFe FeFacts GeomFacts SpecBc SpecWeak SpecEnergy ElasticFacts SpecWave LinAlg SpecLinear SpecPosed
  Init SpecInit InitFacts Wave Stokes SpecStokes SpecCoupled CoupledFacts CoupledLinear StokesFacts StokesMain PosedMain.
Import ListNotations.
Local Open Scope R_scope.

Section Equations.
  Context {V : Type}.
  Variables (Pu Pp : list (list Rops)) (fu fp : fe Rops) (p : problem Rops V).
  Hypothesis ST : stokes_problem p fu fp.
  Hypothesis WF : wf_problem p.
  Hypothesis NC : (0 < p_num_cells p)%nat.
  Local Notation zr := (@zero Rops).
  Let KR : ring_laws Rops := Rops_ring.
  Let CP := stokes_is_coupled KR p fu fp ST.
  Local Notation F := (stokes_form (K := Rops) (V := V)).
  Lemma momentum_nil u w N m : momentum (K := Rops) p fu fp Pu u w (nil_field N m) = 0.
  Proof.
    unfold momentum. apply over_zero. intros c q Hc Hq. assert (GZ : forall k j, sol_to_grad Pu fu (nil_field N m) c q k j = 0) by (intros; apply zero_grad; intros; apply nil_cell).
    unfold dot2, divergence. cbn [sum_n seq fold_right]. cbn. rewrite !GZ. req; ring.
  Qed.
  Lemma continuity_nil u N m : continuity (K := Rops) p fu fp Pu Pp u (nil_field N m) = 0.
  Proof. unfold continuity. apply over_zero. intros c q Hc Hq. rewrite (zero_val fp) by (intros; apply nil_cell). cbn; req; ring. Qed.
  Theorem stokes_solves u w : solves p [Pu; Pp] [u; w] <->
    sol_ok p [u; w] /\
    (forall n k b, (n < List.length (points fu))%nat -> (k < 2)%nat -> prescribed fu n k = Some b -> get2 zr u n k = b) /\
    (forall n b, (n < List.length (points fp))%nat -> prescribed fp n 0 = Some b -> get2 zr w n 0 = b) /\
    (forall v, shaped (List.length (points fu)) 2 v -> held_zero fu v -> momentum (K := Rops) p fu fp Pu u w v = 0) /\
    (forall z, shaped (List.length (points fp)) 1 z -> held_zero fp z -> continuity (K := Rops) p fu fp Pu Pp u z = 0).
  Proof.
    assert (V2 : vec fu = 2%nat) by apply ST. assert (V1 : vec fp = 1%nat) by apply ST.
    assert (SF : forall v z, sol_ok p [v; z] <-> shaped (List.length (points fu)) 2 v /\ shaped (List.length (points fp)) 1 z) by (intros; rewrite <- V2, <- V1; exact (c_fields p fu fp F CP NC _ _)).
    pose proof (solves_weak p fu fp F Pu Pp CP WF NC (stokes_ok p fu fp ST) (stokes_ivs p fu fp ST) u w) as SW. rewrite SW. clear SW. rewrite V2, V1. split.
    - intros (SO & H0 & H1 & H). split; [exact SO|]. split; [exact H0|]. split; [intros n b Hn; apply (H1 n 0%nat b Hn); lia|]. split.
      + intros v Sv Hv. specialize (H v (nil_field (List.length (points fp)) 1)). rewrite (stokes_work KR p fu fp ST), continuity_nil in H.
        refine (eq_trans (eq_sym (Rplus_0_r _)) _). apply H; auto; [apply SF; split; auto; apply fld_shaped|].
        intros n k b Hn Hk _. rewrite V1 in Hk. now apply nil_get.
      + intros z Sz Hz. specialize (H (nil_field (List.length (points fu)) 2) z). rewrite (stokes_work KR p fu fp ST), momentum_nil in H.
        refine (eq_trans (eq_sym (Rplus_0_l _)) _). apply H; auto; [apply SF; split; auto; apply fld_shaped|].
        intros n k b Hn Hk _. rewrite V2 in Hk. now apply nil_get.
    - intros (SO & H0 & H1 & HM & HC). split; [exact SO|]. split; [exact H0|]. split; [intros n k b Hn Hk; assert (k = 0)%nat as -> by lia; now apply H1|].
      intros v z SV Hv Hz. apply SF in SV as (Sv & Sz). rewrite (stokes_work KR p fu fp ST). rewrite HM, HC by auto. cbn; req; ring.
  Qed.
  Theorem stokes_symmetric quad u w v z : taylor_hood quad Pu Pp fu fp ->
    momentum (K := Rops) p fu fp Pu u w v + continuity (K := Rops) p fu fp Pu Pp u z = momentum (K := Rops) p fu fp Pu v z u + continuity (K := Rops) p fu fp Pu Pp v w.
  Proof.
    intros TH. unfold continuity. rewrite !(same_JxW quad Pu Pp fu fp p ST WF TH). unfold momentum, over_cells. cbn [add Rops]. rewrite <- !Rsum_plus. apply Rsum_ext. intros c _.
    rewrite <- !Rsum_plus. apply Rsum_ext. intros q _. unfold dot2, divergence. cbn. req; ring.
  Qed.
  Lemma stokes_kernels kf : kernels_ok p kf.
  Proof.
    split; [exact (proj1 (cp_kernels p fu fp F CP NC))|]. intros s Hs. replace (boundary_inds_list p) with (@nil (list (nat * nat))) in Hs by (symmetry; apply ST). cbn in Hs. lia.
  Qed.
  Lemma stokes_ivs_ok : ivs_ok p.
  Proof. exact (cp_ivs p fu fp F CP (stokes_ivs p fu fp ST)). Qed.
End Equations.

(** ** The unit square in two triangles *)
Definition rule3 : list (list Rops) * list Rops := ([[/ 6; / 6]; [/ 6; 2 / 3]; [2 / 3; / 6]], [/ 6; / 6; / 6]).
Lemma rule3_degree : degree_two rule3.
Proof.
  unfold degree_two, rule_sum. split.
  - intros q Hq. change (q < 3)%nat in Hq. destruct q as [|[|[|q]]]; [cbn; lra..|lia].
  - cbn. repeat split; field.
Qed.
Definition square_p : list (list Rops) := [[0; 0]; [1; 0]; [1; 1]; [0; 1]].
Definition square_u : list (list Rops) := square_p ++ [[/ 2; 0]; [1; / 2]; [/ 2; / 2]; [/ 2; 1]; [0; / 2]].
Definition square_cp : list (list nat) := [[0; 1; 2]; [0; 2; 3]]%nat.
Definition square_cu : list (list nat) := [[0; 1; 2; 4; 5; 6]; [0; 2; 3; 6; 7; 8]]%nat.
Section Square.
  Context {V : Type}.
  Variables (fquad : list (list Rops) * list Rops) (normals : nat -> nat -> Rops) (f0 g0 : fe Rops).
  Hypothesis BU : fe_init (K := Rops) sqrt "TRI6" rule3 fquad normals square_u square_cu 2 2 None = Ok f0.
  Hypothesis BP : fe_init (K := Rops) sqrt "TRI3" rule3 fquad normals square_p square_cp 1 2 None = Ok g0.
  (** the velocity held at node 0, the pressure too *)
  Let fu := set_bc f0 [[0%nat]; [0%nat]] [[0%nat]; [1%nat]] [[0]; [0]].
  Let fp := set_bc g0 [[0%nat]] [[0%nat]] [[1]].
  Definition square_problem : problem Rops V := mkProblem [fu; fp] [] (stokes_maps [fu; fp]) [] [].
  Let pu : points f0 = square_u := built_points _ _ _ _ _ _ _ _ _ _ _ BU.
  Let cu : cells f0 = square_cu := built_cells _ _ _ _ _ _ _ _ _ _ _ BU.
  Let pp : points g0 = square_p := built_points _ _ _ _ _ _ _ _ _ _ _ BP.
  Let cp : cells g0 = square_cp := built_cells _ _ _ _ _ _ _ _ _ _ _ BP.
  Lemma sq_eu : element_of "TRI6" rule3 fu. Proof. repeat eexists. exact BU. Qed.
  Lemma sq_ep : element_of "TRI3" rule3 fp. Proof. repeat eexists. exact BP. Qed.
  Lemma sq_stokes : stokes_problem square_problem fu fp.
  Proof.
    repeat split; cbn.
    - exact (built_vec _ _ _ _ _ _ _ _ _ _ _ BU).
    - exact (built_dim _ _ _ _ _ _ _ _ _ _ _ BU).
    - exact (built_vec _ _ _ _ _ _ _ _ _ _ _ BP).
    - now rewrite (built_quads _ _ _ _ _ _ _ _ _ _ _ BU), (built_quads _ _ _ _ _ _ _ _ _ _ _ BP).
  Qed.
  Lemma sq_wf : wf_problem square_problem.
  Proof.
    assert (NU : num_nodes fu = 6%nat) by (destruct (elem_facts _ _ _ sq_eu) as (? & _ & H & _); exact H).
    assert (NP : num_nodes fp = 3%nat) by (destruct (elem_facts _ _ _ sq_ep) as (? & _ & H & _); exact H).
    constructor; cbn [fes square_problem boundary_inds_list p_num_cells fe0 hd].
    - intros f [<-|[<-|[]]]; unfold p_num_cells, num_cells, fe0; cbn; now rewrite ?cu, ?cp.
    - intros f cell [<-|[<-|[]]]; [rewrite NU|rewrite NP]; cbn; rewrite ?cu, ?cp; cbn; intros [<-|[<-|[]]]; reflexivity.
    - intros f cell n [<-|[<-|[]]]; unfold num_total_nodes; cbn; rewrite ?cu, ?cp, ?pu, ?pp; cbn; intros [<-|[<-|[]]]; cbn; intros H; repeat destruct H as [<-|H]; try destruct H; lia.
    - intros b c fc [].
  Qed.
  Lemma sq_hood : taylor_hood rule3 square_u square_p fu fp.
  Proof.
    split; [exact sq_eu|]. split; [exact sq_ep|]. split; [exact rule3_degree|]. split; [split; [|split]|].
    - cbn. now rewrite pu.
    - cbn. now rewrite pp.
    - intros c i Hc Hi. unfold num_cells in Hc. cbn in Hc. rewrite cu in Hc. cbn in Hc. unfold vx. cbn [cells fu fp set_bc]. rewrite cu, cp. split; intros a Ha.
      + destruct c as [|[|c]]; [| |lia]; (destruct a as [|[|[|a]]]; [| | |lia]); reflexivity.
      + destruct c as [|[|c]]; [| |lia]; (destruct a as [|[|[|[|[|[|a]]]]]]; [lia|lia|lia| | | |lia]); (destruct i as [|[|i]]; [| |lia]); cbn; field.
    - intros c Hc. unfold num_cells in Hc. cbn in Hc. rewrite cu in Hc. cbn in Hc. unfold area2, vx. cbn [cells fu fp set_bc]. rewrite cp. destruct c as [|[|c]]; [| |lia]; cbn; lra.
  Qed.
  Lemma sq_bcs : bcs_ok square_problem.
  Proof.
    intros f [<-|[<-|[]]] i Hi; cbn in *.
    - destruct i as [|[|i]]; [| |lia]; cbn; repeat split; auto; repeat constructor; intros [].
    - destruct i as [|i]; [|lia]; cbn; repeat split; auto; repeat constructor; intros [].
  Qed.
  Lemma sq_anchored : anchored fu.
  Proof.
    intros n k Hn Hk. exists 0%nat, 0. change (vec fu) with (vec f0) in Hk. rewrite (built_vec _ _ _ _ _ _ _ _ _ _ _ BU) in Hk. change (points fu) with (points f0) in *. rewrite pu in *. cbn in Hn. split; [cbn; lia|].
    split; [destruct k as [|[|k]]; [reflexivity..|lia]|]. change (cells fu) with (cells f0). rewrite cu.
    assert (L : linked square_cu 2 0) by (apply (linked_one _ [0; 1; 2; 4; 5; 6]%nat); cbn; tauto).
    do 9 (destruct n as [|n]; [first [apply (linked_one _ [0; 1; 2; 4; 5; 6]%nat); cbn; tauto|apply (linked_one _ [0; 2; 3; 6; 7; 8]%nat); cbn; tauto]|]). lia.
  Qed.
  Lemma sq_edge n A : (n = 4 /\ A = 1 \/ n = 6 /\ A = 2 \/ n = 8 /\ A = 3)%nat -> free_edge fu fp A 0.
  Proof.
    intros H. exists n. unfold midpoint_of, cell_node, num_cells. cbn [cells points fu fp set_bc]. rewrite cu, cp, pu. split; [cbn; lia|]. split; [split|].
    - destruct H as [(-> & _)|[(-> & _)|(-> & _)]]; [exists 0%nat, 3%nat|exists 0%nat, 5%nat|exists 1%nat, 5%nat]; cbn; repeat split; lia.
    - intros c a Hc Ha E. cbn in Hc. destruct c as [|[|c]]; [| |lia]; (destruct a as [|[|[|[|[|[|a]]]]]]; [..|lia]); cbn in E; subst n; cbn; lia.
    - destruct H as [(-> & _)|[(-> & _)|(-> & _)]]; split; reflexivity.
  Qed.
  Lemma sq_pressure : pressure_anchored fu fp.
  Proof.
    intros A HA. change (points fp) with (points g0) in *. rewrite pp in *. cbn in HA. exists 0%nat, 1. split; [cbn; lia|]. split; [reflexivity|].
    destruct A as [|[|[|[|A]]]]; [constructor|..|lia]; (eapply joined_step; [|constructor]).
    - apply (sq_edge 4). tauto.
    - apply (sq_edge 6). tauto.
    - apply (sq_edge 8). tauto.
  Qed.
End Square.
Lemma square_built fquad normals : exists f0 g0, fe_init (K := Rops) sqrt "TRI6" rule3 fquad normals square_u square_cu 2 2 None = Ok f0 /\
  fe_init (K := Rops) sqrt "TRI3" rule3 fquad normals square_p square_cp 1 2 None = Ok g0.
Proof.
  destruct (fe_init_ok sqrt 2 (mkVar (K := Rops) square_u square_cu 2 "TRI6" rule3 fquad normals None)) as (f0 & E0).
  { split; [cbn; tauto|]. split; [|exact I]. cbn. intros cell [<-|[<-|[]]]; (split; [reflexivity|]); intros n H; cbn in H; repeat destruct H as [<-|H]; try destruct H; lia. }
  destruct (fe_init_ok sqrt 2 (mkVar (K := Rops) square_p square_cp 1 "TRI3" rule3 fquad normals None)) as (g0 & E1).
  { split; [cbn; tauto|]. split; [|exact I]. cbn. intros cell [<-|[<-|[]]]; (split; [reflexivity|]); intros n H; cbn in H; repeat destruct H as [<-|H]; try destruct H; lia. }
  exists f0, g0. split; [exact E0|exact E1].
Qed.

(** ** The unit square in four triangles around its centre: no corner lies in one triangle only *)
Definition fan_cells : list (list nat) := [[0; 1; 4; 5; 10; 9]; [1; 2; 4; 6; 11; 10]; [2; 3; 4; 7; 12; 11]; [3; 0; 4; 8; 9; 12]]%nat.
Definition fan_points : list (list Rops) :=
  [[0; 0]; [1; 0]; [1; 1]; [0; 1]; [/ 2; / 2]; [/ 2; 0]; [1; / 2]; [/ 2; 1]; [0; / 2]; [/ 4; / 4]; [3 / 4; / 4]; [3 / 4; 3 / 4]; [/ 4; 3 / 4]].
Lemma nodup_order : set_order (nodup Nat.eq_dec).
Proof. intros l. split; [apply NoDup_nodup|intros x; apply nodup_In]. Qed.
Lemma fan_alone cell a c : alone fan_cells cell a c <-> exists i, (i < 4)%nat /\ cell = nth i fan_cells [] /\ a = 3%nat /\ c = (5 + i)%nat.
Proof.
  split.
  - intros (I & La & <- & C). cbn in I. destruct I as [<-|[<-|[<-|[<-|[]]]]]; cbn in La; (destruct a as [|[|[|[|[|[|a]]]]]]; [..|lia]); cbn in C; try discriminate; [exists 0%nat|exists 1%nat|exists 2%nat|exists 3%nat]; repeat split; lia.
  - intros (i & Hi & -> & -> & ->). destruct i as [|[|[|[|i]]]]; [..|lia]; (repeat split; [cbn; tauto|cbn; lia]).
Qed.
Lemma fan_boundary n : on_boundary fan_cells n <-> (n < 9 /\ n <> 4)%nat.
Proof.
  split.
  - intros (cell & a & c & AL & Ha & Hn). apply fan_alone in AL as (i & Hi & -> & -> & ->). destruct i as [|[|[|[|i]]]]; [..|lia]; cbn in Hn; lia.
  - intros (H1 & H2).
    assert (W : forall i, (i < 4)%nat -> forall m, m = (5 + i)%nat \/ m = nth 0 (nth i fan_cells []) 0%nat \/ m = nth 1 (nth i fan_cells []) 0%nat -> on_boundary fan_cells m).
    { intros i Hi m Hm. exists (nth i fan_cells []), 3%nat, (5 + i)%nat. split; [apply fan_alone; eauto|]. split; [lia|exact Hm]. }
    do 9 (destruct n as [|n]; [first [lia|apply (W 0%nat ltac:(lia)); cbn; lia|apply (W 1%nat ltac:(lia)); cbn; lia|apply (W 2%nat ltac:(lia)); cbn; lia|apply (W 3%nat ltac:(lia)); cbn; lia]|]). lia.
Qed.
Lemma fan_built fquad normals : exists f, fe_init (K := Rops) sqrt "TRI6" rule3 fquad normals fan_points fan_cells 2 2 None = Ok f /\ mesh_ok f /\ num_nodes f = 6%nat.
Proof.
  destruct (fe_init_ok sqrt 2 (mkVar (K := Rops) fan_points fan_cells 2 "TRI6" rule3 fquad normals None)) as (f & E).
  { split; [cbn; tauto|]. split; [|exact I]. cbn. intros cell [<-|[<-|[<-|[<-|[]]]]]; (split; [reflexivity|]); intros n H; cbn in H; repeat destruct H as [<-|H]; try destruct H; lia. }
  exists f. split; [exact E|]. assert (N6 : num_nodes f = 6%nat) by (apply (built_nodes _ _ _ _ _ _ _ _ _ _ _ E); cbn; tauto). split; [|exact N6].
  intros c Hc. rewrite N6, (built_points _ _ _ _ _ _ _ _ _ _ _ E). rewrite (built_cells _ _ _ _ _ _ _ _ _ _ _ E) in *. cbn in Hc.
  destruct c as [|[|[|[|c]]]]; [..|lia]; (split; [reflexivity|]); intros n H; cbn in H; repeat destruct H as [<-|H]; try destruct H; cbn; lia.
Qed.
