(** Proofs for C83: three-node triangles held by rollers. *)
From Coq Require Import String Reals List Arith Lia Lra Bool.
From Verif Require Import Num Arr ArrFacts Fe Problem SpecAssembly ProblemFacts Basis SpecBasis FeFacts GeomFacts SpecFe SpecWeak KernelFacts SpecBc SpecEnergy Elastic ElasticFacts LinAlg SpecLinear SpecPosed
  PosedFacts FieldFacts SolveBox Init SpecInit InitFacts Wave Stokes SpecStokes SpecCoupled CoupledFacts CoupledLinear StokesMain StokesEnd ThermoMech SpecThermoMech ThermoMechFacts ThermoMechMain ThermoMechRun.
Import ListNotations.
Local Open Scope R_scope.
Local Notation V := (nat -> nat -> Rops).

Section Tri.
  Variables (quad : list (list Rops) * list Rops) (f : fe Rops).
  Hypothesis E : element_of "TRI3" quad f.
  Hypothesis MO : mesh_ok f.
  Local Notation P := (points f).
  Local Notation X c b i := (vx P f c b i).
  Lemma tr_nodes : num_nodes f = 3%nat. Proof. destruct (elem_facts _ _ _ E) as (? & _ & H & _). exact H. Qed.
  Lemma tr_dim : dim f = 2%nat. Proof. destruct (elem_facts _ _ _ E) as (? & _ & _ & H & _). exact H. Qed.
  Lemma tr_quads : num_quads f = List.length (fst quad). Proof. destruct (elem_facts _ _ _ E) as (? & _ & _ & _ & H & _). exact H. Qed.
  Lemma tr_coo c a i : (c < num_cells f)%nat -> (a < 3)%nat -> coo P f c a i = X c a i.
  Proof. intros Hc Ha. destruct (MO c Hc) as (LC & N). rewrite tr_nodes in LC. unfold coo, vx, cell_node. rewrite gather_in; [reflexivity|]. apply N, nth_In. lia. Qed.
  Lemma tr_jac c q i j : (c < num_cells f)%nat -> (i < 2)%nat -> (j < 2)%nat -> jacobian_dx_deta P f c q i j = X c (S j) i - X c 0 i.
  Proof.
    intros Hc Hi Hj. destruct (elem_facts _ _ _ E) as (info & HI & EN & _ & _ & _ & SG & _). unfold jacobian_dx_deta. rewrite EN. change (node_count "TRI3") with 3%nat.
    rewrite (Rsum_ext 3 _ (fun a => X c a i * dlam a j)) by (intros a Ha; rewrite SG, tr_coo by auto; rewrite (tri3_grads info _ a j HI Ha Hj); reflexivity).
    destruct j as [|[|j]]; [| |lia]; cbn; req; ring.
  Qed.
  Lemma tr_det c q : (c < num_cells f)%nat -> det (K := Rops) 2 (jacobian_dx_deta P f c q) = area2 P f c.
  Proof. intros Hc. rewrite (det_det2 Rops_ring). unfold det2, area2. rewrite !tr_jac by (auto; lia). cbn; req; ring. Qed.
  Lemma tr_JxW c q : (c < num_cells f)%nat -> get_JxW P f c q = area2 P f c * nth q (snd quad) 0.
  Proof. intros Hc. unfold get_JxW. rewrite tr_dim, tr_det by auto. destruct (elem_facts _ _ _ E) as (info & _ & _ & _ & _ & EW & _). now rewrite EW. Qed.
  Lemma tr_vals q : sum_n (K := Rops) (num_nodes f) (fun a => shape_vals f q a) = 1.
  Proof.
    destruct (elem_facts _ _ _ E) as (info & HI & EN & _ & _ & _ & _ & SV). rewrite tr_nodes. rewrite (Rsum_ext 3 _ (fun a => lam (nth q (fst quad) []) a)) by (intros a Ha; rewrite SV; exact (tri3_vals info _ a HI Ha)).
    cbn; req; ring.
  Qed.
  Lemma tr_grads c q j : sum_n (K := Rops) (num_nodes f) (fun a => get_shape_grads P f c q a j) = 0.
  Proof.
    destruct (elem_facts _ _ _ E) as (info & HI & EN & _ & _ & _ & SG & _). rewrite tr_nodes. unfold get_shape_grads. rewrite tr_dim. set (m := inv_mat 2 _).
    rewrite (Rsum_ext 3 _ (fun a => sum_n (K := Rops) 2 (fun i => dlam a i * m i j))) by (intros a Ha; apply Rsum_ext; intros i Hi; rewrite SG, (tri3_grads info _ a i HI Ha Hi); reflexivity).
    cbn. req; ring.
  Qed.
  (** gradient along the edges *)
  Lemma tr_slope d c q k b : (c < num_cells f)%nat -> 0 < area2 P f c -> (b < 3)%nat ->
    cell_sol_at f d c b k - cell_sol_at f d c 0 k = sol_to_grad P f d c q k 0 * (X c b 0 - X c 0 0) + sol_to_grad P f d c q k 1 * (X c b 1 - X c 0 1).
  Proof.
    intros Hc A Hb. destruct b as [|b]; [req; ring|]. destruct (elem_facts _ _ _ E) as (info & HI & EN & _ & _ & _ & SG & _).
    assert (DET : det (dim f) (jacobian_dx_deta P f c q) <> 0) by (rewrite tr_dim, tr_det by auto; lra).
    pose proof (pull f P d c q (or_introl tr_dim) DET k b ltac:(rewrite tr_dim; lia)) as PL. rewrite tr_dim in PL. unfold refgrad in PL. rewrite tr_nodes in PL.
    rewrite (Rsum_ext 3 _ (fun a => cell_sol_at f d c a k * dlam a b)) in PL by (intros a Ha; rewrite SG, (tri3_grads info _ a b HI Ha ltac:(lia)); reflexivity).
    rewrite (Rsum_ext 2 _ (fun j => sol_to_grad P f d c q k j * (X c (S b) j - X c 0 j))) in PL by (intros j Hj; rewrite tr_jac by (auto; lia); reflexivity).
    destruct b as [|[|b]]; [| |lia]; cbn in PL |- *; change (car Rops) with R in *; lra.
  Qed.
End Tri.

(** rigid motions that agree at two distinct points are equal *)
Lemma rigid_two a b o a' b' o' x1 y1 x2 y2 : a - o * y1 = a' - o' * y1 -> b + o * x1 = b' + o' * x1 -> a - o * y2 = a' - o' * y2 -> b + o * x2 = b' + o' * x2 ->
  (x1 <> x2 \/ y1 <> y2) -> a = a' /\ b = b' /\ o = o'.
Proof.
  intros E1 E2 E3 E4 D. assert (EO : o = o').
  { destruct D as [D|D].
    - assert (Z : (o - o') * (x1 - x2) = 0) by lra. apply Rmult_integral in Z as [Z|Z]; lra.
    - assert (Z : (o - o') * (y1 - y2) = 0) by lra. apply Rmult_integral in Z as [Z|Z]; lra. }
  subst o'. repeat split; lra.
Qed.

Section Mesh.
  Variables (M : material) (p : problem Rops V) (quad : list (list Rops) * list Rops) (fu fT : fe Rops).
  Hypothesis TP : tm_problem M p fu fT.
  Hypothesis WF : wf_problem p.
  Hypothesis TR : tm_triangles quad fu fT.
  Local Notation P := (points fu).
  Local Notation zr := (@zero Rops).
  Lemma EU : element_of "TRI3" quad fu. Proof. exact (proj1 TR). Qed.
  Lemma ET : element_of "TRI3" quad fT. Proof. exact (proj1 (proj2 TR)). Qed.
  Lemma m_fes : fes p = [fu; fT]. Proof. apply TP. Qed.
  Lemma m_cells : p_num_cells p = num_cells fu. Proof. unfold p_num_cells, fe0. now rewrite m_fes. Qed.
  Lemma m_mesh f : In f (fes p) -> mesh_ok f.
  Proof.
    intros I c Hc. assert (IC : In (nth c (cells f) []) (cells f)) by now apply nth_In. split; [exact (wf_cell_len p WF f _ I IC)|]. intros n Hn. exact (wf_cell_node p WF f _ n I IC Hn).
  Qed.
  Lemma m_mu : mesh_ok fu. Proof. apply m_mesh. rewrite m_fes. now left. Qed.
  Lemma m_mt : mesh_ok fT. Proof. apply m_mesh. rewrite m_fes. right. now left. Qed.
  Lemma m_nct : num_cells fT = num_cells fu. Proof. unfold num_cells. now rewrite (proj1 (proj2 (proj2 (proj2 TR)))). Qed.
  Lemma m_area c : (c < num_cells fu)%nat -> 0 < area2 P fu c. Proof. apply TR. Qed.
  Lemma m_areaT c : area2 (points fT) fT c = area2 P fu c.
  Proof. pose proof TR as (_ & _ & EP & EC & _). unfold area2, vx. now rewrite EP, EC. Qed.
  Lemma m_measure : same_measure p fu fT.
  Proof.
    intros c q Hc Hq. rewrite m_cells in Hc. rewrite (tr_JxW quad fu EU m_mu c q Hc), (tr_JxW quad fT ET m_mt c q ltac:(rewrite m_nct; exact Hc)), m_areaT. split; [reflexivity|].
    apply Rmult_lt_0_compat; [now apply m_area|]. rewrite (tr_quads quad fu EU) in Hq. now apply TR.
  Qed.
  Lemma m_const : constants_exact p fT.
  Proof. intros c q Hc Hq. split; [exact (tr_vals quad fT ET q)|]. intros j Hj. exact (tr_grads quad fT ET c q j). Qed.
  Lemma m_quad : (0 < List.length (fst quad))%nat.
  Proof. pose proof TR as (_ & _ & _ & _ & NE & _). destruct (fst quad); [now elim NE|cbn; lia]. Qed.
  Lemma m_node (f : fe Rops) d n m k c a : mesh_ok f -> shaped (List.length (points f)) m d -> (c < num_cells f)%nat -> (a < num_nodes f)%nat -> n = nth a (nth c (cells f) []) 0%nat ->
    get2 zr d n k = cell_sol_at f d c a k.
  Proof.
    intros MO [L S] Hc Ha ->. destruct (MO c Hc) as (LC & N). unfold cell_sol_at, get2, cell_node. rewrite gather_in; [reflexivity|]. rewrite L. apply N, nth_In. lia.
  Qed.
  (** one triangle without strain moves rigidly *)
  Definition moves (d : list (list Rops)) (a b o : R) (n : nat) : Prop :=
    get2 zr d n 0 = a - o * nth 1 (nth n P []) 0 /\ get2 zr d n 1 = b + o * nth 0 (nth n P []) 0.
  Lemma m_rigid d l : shaped (List.length P) 2 d -> (forall c q i j, (c < p_num_cells p)%nat -> (q < num_quads fu)%nat -> (i < dim fu)%nat -> (j < dim fu)%nat -> strain (sol_to_grad P fu d c q) i j = 0) ->
    In l (cells fu) -> exists a b o, forall n, In n l -> moves d a b o n.
  Proof.
    intros SD NS IL. apply (In_nth _ _ []) in IL as (c & Hc & <-). change (c < num_cells fu)%nat in Hc. destruct (m_mu c Hc) as (LC & _). rewrite (tr_nodes quad fu EU) in LC.
    assert (HQ : (0 < num_quads fu)%nat) by (rewrite (tr_quads quad fu EU); exact m_quad). pose proof (m_area c Hc) as HA. pose proof Hc as Hc'. rewrite <- m_cells in Hc'.
    set (G := sol_to_grad P fu d c 0). assert (S0 : forall i j, (i < 2)%nat -> (j < 2)%nat -> strain G i j = 0) by (intros; apply NS; auto; now rewrite (tr_dim quad fu EU)).
    pose proof (S0 0 0 ltac:(lia) ltac:(lia))%nat as S00. pose proof (S0 1 1 ltac:(lia) ltac:(lia))%nat as S11. pose proof (S0 0 1 ltac:(lia) ltac:(lia))%nat as S01. unfold strain in S00, S11, S01.
    set (U := fun a k => cell_sol_at fu d c a k).
    exists (U 0%nat 0%nat - G 0%nat 1%nat * vx P fu c 0 1), (U 0%nat 1%nat + G 0%nat 1%nat * vx P fu c 0 0), (- G 0%nat 1%nat).
    intros n Hn. apply (In_nth _ _ 0%nat) in Hn as (a & Ha & En). rewrite LC in Ha. unfold moves.
    rewrite !(m_node fu d n 2 _ c a m_mu SD Hc ltac:(rewrite (tr_nodes quad fu EU); exact Ha) (eq_sym En)).
    pose proof (tr_slope quad fu EU m_mu d c 0 0 a Hc HA Ha) as T0. pose proof (tr_slope quad fu EU m_mu d c 0 1 a Hc HA Ha) as T1. fold G in T0, T1. fold (U a 0%nat) (U a 1%nat) (U 0%nat 0%nat) (U 0%nat 1%nat) in T0, T1 |- *.
    assert (XE : forall i, nth i (nth n P []) 0 = vx P fu c a i) by (intros i; rewrite <- En; reflexivity). rewrite !XE.
    assert (G00 : G 0%nat 0%nat = 0) by lra. assert (G11 : G 1%nat 1%nat = 0) by lra. assert (G10 : G 1%nat 0%nat = - G 0%nat 1%nat) by lra. rewrite G00 in T0. rewrite G11, G10 in T1.
    split; lra.
  Qed.
  Lemma m_distinct l n m : In l (cells fu) -> In n l -> In m l -> n <> m -> nth 0 (nth n P []) 0 <> nth 0 (nth m P []) 0 \/ nth 1 (nth n P []) 0 <> nth 1 (nth m P []) 0.
  Proof.
    intros IL IN IM NE. apply (In_nth _ _ []) in IL as (c & Hc & <-). change (c < num_cells fu)%nat in Hc. destruct (m_mu c Hc) as (LC & _). rewrite (tr_nodes quad fu EU) in LC.
    apply (In_nth _ _ 0%nat) in IN as (a & Ha & En). apply (In_nth _ _ 0%nat) in IM as (b & Hb & Em). rewrite LC in Ha, Hb. pose proof (m_area c Hc) as HA. unfold area2 in HA.
    assert (XN : forall i, nth i (nth n P []) 0 = vx P fu c a i) by (intros i; rewrite <- En; reflexivity). assert (XM : forall i, nth i (nth m P []) 0 = vx P fu c b i) by (intros i; rewrite <- Em; reflexivity).
    rewrite !XN, !XM. destruct (Req_dec (vx P fu c a 0) (vx P fu c b 0)) as [E0|]; [|now left]. destruct (Req_dec (vx P fu c a 1) (vx P fu c b 1)) as [E1|]; [|now right]. exfalso.
    assert (a <> b) by (intros ->; congruence). clear XN XM En Em LC.
    destruct a as [|[|[|a]]]; [| | |lia]; (destruct b as [|[|[|b]]]; [| | |lia]); try lia; rewrite ?E0, ?E1, <- ?E0, <- ?E1 in HA; (revert HA; apply Rle_not_lt; right; req; ring).
  Qed.
  Lemma m_linked d l1 l2 a b o : shaped (List.length P) 2 d -> (forall c q i j, (c < p_num_cells p)%nat -> (q < num_quads fu)%nat -> (i < dim fu)%nat -> (j < dim fu)%nat -> strain (sol_to_grad P fu d c q) i j = 0) ->
    In l1 (cells fu) -> edge_linked (cells fu) l1 l2 -> (forall n, In n l1 -> moves d a b o n) -> forall n, In n l2 -> moves d a b o n.
  Proof.
    intros SD NS I1 L. induction L as [|l1 l2 l3 I2 (n & m & NE & N1 & M1 & N2 & M2) L IH]; auto. intros H. apply IH; auto.
    destruct (m_rigid d l2 SD NS I2) as (a' & b' & o' & H'). destruct (H n N1) as (A1 & A2). destruct (H m M1) as (A3 & A4). destruct (H' n N2) as (B1 & B2). destruct (H' m M2) as (B3 & B4).
    destruct (rigid_two a b o a' b' o' (nth 0 (nth n P []) 0) (nth 1 (nth n P []) 0) (nth 0 (nth m P []) 0) (nth 1 (nth m P []) 0)) as (-> & -> & ->); auto; try (etransitivity; [symmetry; eassumption|assumption]).
    exact (m_distinct l2 n m I2 N2 M2 NE).
  Qed.
  Lemma m_strain : rollers fu -> no_free_strain p fu.
  Proof.
    intros ((n & m & bn & bm & Hn & Hm & Pn & Pm & DY) & n1 & b1 & Hn1 & P1) d SD HZ NS. assert (V2 : vec fu = 2%nat) by (destruct TP as (_ & _ & _ & _ & H & _); rewrite H; exact (tr_dim quad fu EU)).
    pose proof TR as (_ & _ & _ & _ & _ & _ & _ & LK & CV). rewrite V2 in SD. destruct (CV n Hn) as (l0 & I0 & _). destruct (m_rigid d l0 SD NS I0) as (a & b & o & H0).
    assert (ALL : forall k, (k < List.length P)%nat -> moves d a b o k) by (intros k Hk; destruct (CV k Hk) as (l & IL & IK); exact (m_linked d l0 l a b o SD NS I0 (LK l0 l I0 IL) H0 k IK)).
    pose proof (HZ n 0%nat bn Hn ltac:(lia) Pn) as Z1. pose proof (HZ m 0%nat bm Hm ltac:(lia) Pm) as Z2. pose proof (HZ n1 1%nat b1 Hn1 ltac:(lia) P1) as Z3.
    destruct (ALL n Hn) as (A1 & _). destruct (ALL m Hm) as (A2 & _). destruct (ALL n1 Hn1) as (_ & A3). rewrite Z1 in A1. rewrite Z2 in A2. rewrite Z3 in A3.
    assert (O : o = 0). { assert (Z : o * (nth 1 (nth n P []) 0 - nth 1 (nth m P []) 0) = 0) by lra. apply Rmult_integral in Z as [Z|Z]; auto. exfalso. apply DY. lra. }
    subst o. assert (a = 0) by lra. assert (b = 0) by lra. subst a b. intros k i Hk Hi. rewrite V2 in Hi. destruct (ALL k Hk) as (B1 & B2). destruct i as [|[|i]]; [| |lia]; [rewrite B1|rewrite B2]; req; ring.
  Qed.
  Lemma m_seen : temperature_seen p fT.
  Proof.
    intros d SD HZ H n Hn. pose proof TR as (_ & _ & EP & EC & _ & _ & _ & _ & CV). rewrite EP in Hn. destruct (CV n Hn) as (l & IL & IN). rewrite <- EC in IL.
    apply (In_nth _ _ []) in IL as (c & Hc & <-). change (c < num_cells fT)%nat in Hc. destruct (m_mt c Hc) as (LC & _). rewrite (tr_nodes quad fT ET) in LC.
    assert (HQ : (0 < num_quads fT)%nat) by (rewrite (tr_quads quad fT ET); exact m_quad). pose proof Hc as Hc'. rewrite m_nct in Hc'. pose proof (m_area c Hc') as HA. rewrite <- m_areaT in HA. rewrite <- m_cells in Hc'.
    destruct (H c 0%nat Hc' HQ) as (V0 & G0). rewrite (tr_dim quad fT ET) in G0.
    apply (In_nth _ _ 0%nat) in IN as (a & Ha & En). rewrite LC in Ha.
    rewrite (m_node fT d n 1 _ c a m_mt SD Hc ltac:(rewrite (tr_nodes quad fT ET); exact Ha) (eq_sym En)).
    assert (EQ : forall b, (b < 3)%nat -> cell_sol_at fT d c b 0 = cell_sol_at fT d c 0 0).
    { intros b Hb. pose proof (tr_slope quad fT ET m_mt d c 0 0 b Hc HA Hb) as TS. rewrite !G0 in TS by lia. lra. }
    rewrite EQ by auto. unfold convert_from_dof_to_quad in V0. rewrite (Rsum_ext _ _ (fun b => cell_sol_at fT d c 0 0 * shape_vals fT 0 b)) in V0 by (intros b Hb; rewrite (tr_nodes quad fT ET) in Hb; now rewrite EQ).
    rewrite Rsum_mul, (tr_vals quad fT ET) in V0. lra.
  Qed.
End Mesh.
Lemma aluminium_ok : physical aluminium /\ 0 < kappa aluminium.
Proof. unfold physical, aluminium. cbn. repeat split; lra. Qed.
