(** Proofs for C83: the bound on whole runs, and an example mesh. *)
From Coq Require Import String Reals List Arith Lia Lra Bool.
From Verif Require Import Num Arr ArrFacts Fe Problem SpecAssembly ProblemFacts Basis SpecBasis FeFacts GeomFacts SpecFe SpecWeak KernelFacts SpecBc SpecEnergy Elastic ElasticFacts LinAlg SpecLinear SpecPosed
  PosedFacts FieldFacts Init SpecInit InitFacts Wave Stokes SpecStokes SpecCoupled CoupledFacts CoupledLinear StokesMain StokesEnd ThermoMech SpecThermoMech ThermoMechFacts ThermoMechMain ThermoMechRun ThermoMechTri.
Import ListNotations.
Local Open Scope R_scope.
Local Notation V := (nat -> nat -> Rops).
Local Notation zr := (@zero Rops).

Lemma loop_prefix solve k dts : forall i p u w l, tm_loop solve dts i p u w = Ok l -> tm_loop solve (firstn k dts) i p u w = Ok (firstn k l).
Proof.
  revert dts. induction k as [|k IH]; intros dts i p u w l E; [reflexivity|]. destruct dts as [|dt dts]; [injection E as <-; reflexivity|].
  apply loop_inv in E as (p' & u' & w' & l' & SP & SV & EL & ->). cbn [firstn tm_loop]. rewrite SP. cbn [bind]. rewrite SV. cbn [bind]. rewrite (IH _ _ _ _ _ _ EL). reflexivity.
Qed.
Lemma in_firstn {A} (x : A) k l : In x (firstn k l) -> In x l.
Proof. intros H. rewrite <- (firstn_skipn k l). apply in_or_app. now left. Qed.
Section Bound.
  Variables (M : material) (fu fT : fe Rops) (p : problem Rops V).
  Hypothesis PH : physical M.
  Hypothesis RO : run_ok M fu fT p.
  Hypothesis CE : constants_exact p fT.
  Hypothesis Hd : (0 < dim fu)%nat.
  Local Notation Pu := (points fu).
  Local Notation PT := (points fT).
  Theorem run_bounded theta solve dts u w l i : (forall dt, In dt dts -> 0 < dt) -> (forall n b, (n < List.length PT)%nat -> prescribed fT n 0 = Some b -> b = theta) ->
    state_ok fu fT u w -> tm_loop solve dts i p u w = Ok l -> all_solved fu fT l -> forall k,
    C M / (2 * T0 M) * over_cells (K := Rops) p fu Pu (fun c q => (temperature fT (snd (final_state u w (firstn k l))) c q - theta) ^ 2)
      + run_loss M p fu fT u w (firstn k dts) (firstn k l)
    <= free_energy M p fu fT theta u w + (kappa M * theta) ^ 2 / (2 * (lmbda M + 2 * mu M / INR (dim fu))) * volume p fu.
  Proof.
    intros POS PT0 ST E AS k. pose proof RO as (TP & WF & NC & SM).
    destruct (run_energy M fu fT PH theta solve (firstn k dts) (fun dt H => POS dt (in_firstn _ _ _ H)) PT0 i p u w (firstn k l) RO CE ST (loop_prefix solve k dts i p u w l E) (fun a b c H => AS a b c (in_firstn _ _ _ H))) as (_ & EN & _).
    pose proof (energy_below M p fu fT PH SM theta (fst (final_state u w (firstn k l))) (snd (final_state u w (firstn k l))) Hd) as EB. lra.
  Qed.
End Bound.
(** fields of zeros *)
Lemma zero_cell (f : fe Rops) N m c a k : cell_sol_at f (zeros2 zr N m) c a k = 0.
Proof. exact (get2_zeros2 zr N m _ k). Qed.
Lemma zero_shaped N m : shaped N m (zeros2 zr N m).
Proof. split; [unfold zeros2; now rewrite repeat_length|]. intros row H. apply repeat_spec in H as ->. now rewrite repeat_length. Qed.
Lemma Rsum_0 n (a : nat -> R) : (forall i, (i < n)%nat -> a i = 0) -> sum_n (K := Rops) n a = 0.
Proof. intros H. transitivity (sum_n (K := Rops) n (fun _ => 0 * 0)); [|rewrite Rsum_mul; req; ring]. apply Rsum_ext. intros i Hi. rewrite H by auto. req; ring. Qed.
Lemma zero_energy M p fu fT theta N m N' m' : free_energy M p fu fT theta (zeros2 zr N m) (zeros2 zr N' m') = C M / (2 * T0 M) * theta ^ 2 * volume p fu.
Proof.
  unfold free_energy, volume. rewrite over_mul. apply over_ext. intros c q Hc Hq.
  assert (G : forall k j, sol_to_grad (points fu) fu (zeros2 zr N m) c q k j = 0) by (intros; apply zero_grad; intros; apply zero_cell).
  assert (T : temperature fT (zeros2 zr N' m') c q = 0) by (apply zero_val; intros; apply zero_cell). rewrite T.
  assert (DI : dilation fu (zeros2 zr N m) c q = 0) by (unfold dilation, trace; apply Rsum_0; intros; apply G).
  assert (S : forall i j, strain (sol_to_grad (points fu) fu (zeros2 zr N m) c q) i j = 0) by (intros; unfold strain; rewrite !G; req; field).
  assert (ED : strain_energy_density (lmbda M) (mu M) (dim fu) (sol_to_grad (points fu) fu (zeros2 zr N m) c q) = 0).
  { rewrite density_ebil. unfold ebil, trace. rewrite (Rsum_0 (dim fu) (fun i => strain _ i i)) by (intros; apply S).
    rewrite (Rsum_0 (dim fu) (fun i => sum_n _ _)) by (intros; apply Rsum_0; intros; rewrite S; req; ring). req; ring. }
  rewrite DI, ED. req; ring.
Qed.
(** a plate of triangles on rollers, from rest *)
Section Plate.
  Variables (M : material) (fu fT : fe Rops) (p : problem Rops V) (quad : list (list Rops) * list Rops).
  Hypothesis PH : physical M.
  Hypothesis TP : tm_problem M p fu fT.
  Hypothesis WF : wf_problem p.
  Hypothesis NC : (0 < p_num_cells p)%nat.
  Hypothesis TR : tm_triangles quad fu fT.
  Local Notation Pu := (points fu).
  Local Notation N := (List.length (points fu)).
  Lemma plate_ok : run_ok M fu fT p.
  Proof. exact (conj TP (conj WF (conj NC (m_measure M p quad fu fT TP WF TR)))). Qed.
  Lemma plate_dim : dim fu = 2%nat. Proof. exact (tr_dim quad fu (EU quad fu fT TR)). Qed.
  Lemma plate_vec : vec fu = 2%nat. Proof. rewrite <- plate_dim. apply TP. Qed.
  Lemma plate_start : (forall n k b, (n < N)%nat -> (k < 2)%nat -> prescribed fu n k = Some b -> b = 0) -> state_ok fu fT (zeros2 zr N 2) (zeros2 zr N 1).
  Proof.
    intros H0. assert (EP : points fT = points fu) by apply TR. split; [|split].
    - rewrite plate_vec. apply zero_shaped.
    - rewrite EP. apply zero_shaped.
    - intros n k b Hn Hk PB. rewrite plate_vec in Hk. rewrite get2_zeros2. symmetry. exact (H0 n k b Hn Hk PB).
  Qed.
  Theorem plate_bounded theta solve dts l : (forall dt, In dt dts -> 0 < dt) -> (forall n k b, (n < N)%nat -> (k < 2)%nat -> prescribed fu n k = Some b -> b = 0) ->
    (forall n b, (n < N)%nat -> prescribed fT n 0 = Some b -> b = theta) -> tm_run solve dts p N = Ok l -> all_solved fu fT l ->
    List.length l = List.length dts /\ forall k, let z2 := zeros2 zr N 2 in let z1 := zeros2 zr N 1 in
    C M / (2 * T0 M) * over_cells (K := Rops) p fu Pu (fun c q => (temperature fT (snd (final_state z2 z1 (firstn k l))) c q - theta) ^ 2)
      + run_loss M p fu fT z2 z1 (firstn k dts) (firstn k l)
    <= (C M / (2 * T0 M) + (kappa M) ^ 2 / (2 * (lmbda M + mu M))) * theta ^ 2 * volume p fu.
  Proof.
    intros POS U0 T1 E AS. assert (EP : points fT = points fu) by apply TR. rewrite <- EP in T1. pose proof (m_const p quad fu fT TR) as CE. split.
    - exact (proj1 (run_energy M fu fT PH theta solve dts POS T1 0 p _ _ l plate_ok CE (plate_start U0) E AS)).
    - intros k z2 z1. pose proof (run_bounded M fu fT p PH plate_ok CE ltac:(rewrite plate_dim; lia) theta solve dts z2 z1 l 0 POS T1 (plate_start U0) E AS k) as B.
      change (free_energy M p fu fT theta z2 z1) with (free_energy M p fu fT theta (zeros2 zr N 2) (zeros2 zr N 1)) in B. rewrite zero_energy, plate_dim in B. eapply Rle_trans; [exact B|]. right. destruct PH as (L0 & M0 & T00 & _). cbn [INR]. field. repeat split; lra.
  Qed.
End Plate.

(** ** The unit square in two triangles, on rollers on the left and the lower side, heated at one corner *)
Section Square.
  Variables (fquad : list (list Rops) * list Rops) (normals : nat -> nat -> Rops) (f0 g0 : fe Rops) (M : material).
  Hypothesis BU : fe_init (K := Rops) sqrt "TRI3" rule3 fquad normals square_p square_cp 2 2 None = Ok f0.
  Hypothesis BT : fe_init (K := Rops) sqrt "TRI3" rule3 fquad normals square_p square_cp 1 2 None = Ok g0.
  Definition plate_u := set_bc f0 [[0; 3]%nat; [0; 1]%nat] [[0; 0]%nat; [1; 1]%nat] [[0; 0]; [0; 0]].
  Definition plate_T := set_bc g0 [[0%nat]] [[0%nat]] [[10]].
  Local Notation fu := plate_u.
  Local Notation fT := plate_T.
  Definition plate_problem : problem Rops V := mkProblem [fu; fT] [] (tm_maps M [fu; fT]) [] [].
  Let pu : points f0 = square_p := built_points _ _ _ _ _ _ _ _ _ _ _ BU.
  Let cu : cells f0 = square_cp := built_cells _ _ _ _ _ _ _ _ _ _ _ BU.
  Let pt : points g0 = square_p := built_points _ _ _ _ _ _ _ _ _ _ _ BT.
  Let ct : cells g0 = square_cp := built_cells _ _ _ _ _ _ _ _ _ _ _ BT.
  Lemma pl_eu : element_of "TRI3" rule3 fu. Proof. repeat eexists. exact BU. Qed.
  Lemma pl_et : element_of "TRI3" rule3 fT. Proof. repeat eexists. exact BT. Qed.
  Lemma pl_problem : tm_problem M plate_problem fu fT.
  Proof.
    repeat split; cbn.
    - now rewrite (built_vec _ _ _ _ _ _ _ _ _ _ _ BU), (built_dim _ _ _ _ _ _ _ _ _ _ _ BU).
    - exact (built_vec _ _ _ _ _ _ _ _ _ _ _ BT).
    - now rewrite (built_dim _ _ _ _ _ _ _ _ _ _ _ BU), (built_dim _ _ _ _ _ _ _ _ _ _ _ BT).
    - now rewrite (built_quads _ _ _ _ _ _ _ _ _ _ _ BU), (built_quads _ _ _ _ _ _ _ _ _ _ _ BT).
  Qed.
  Lemma pl_wf : wf_problem plate_problem.
  Proof.
    assert (NU : num_nodes fu = 3%nat) by (destruct (elem_facts _ _ _ pl_eu) as (? & _ & H & _); exact H).
    assert (NP : num_nodes fT = 3%nat) by (destruct (elem_facts _ _ _ pl_et) as (? & _ & H & _); exact H).
    constructor; cbn [fes plate_problem boundary_inds_list p_num_cells fe0 hd].
    - intros f [<-|[<-|[]]]; unfold p_num_cells, num_cells, fe0; cbn; now rewrite ?cu, ?ct.
    - intros f cell [<-|[<-|[]]]; [rewrite NU|rewrite NP]; cbn; rewrite ?cu, ?ct; cbn; intros [<-|[<-|[]]]; reflexivity.
    - intros f cell n [<-|[<-|[]]]; unfold num_total_nodes; cbn; rewrite ?cu, ?ct, ?pu, ?pt; cbn; intros [<-|[<-|[]]]; cbn; intros H; repeat destruct H as [<-|H]; try destruct H; lia.
    - intros b c fc [].
  Qed.
  Lemma pl_cells : (0 < p_num_cells plate_problem)%nat.
  Proof. unfold p_num_cells, fe0, num_cells. cbn. rewrite cu. cbn. lia. Qed.
  Lemma pl_triangles : tm_triangles rule3 fu fT.
  Proof.
    split; [exact pl_eu|]. split; [exact pl_et|]. split; [cbn; now rewrite pu, pt|]. split; [cbn; now rewrite cu, ct|]. split; [discriminate|]. split; [|split; [|split]].
    - intros q Hq. cbn in Hq. destruct q as [|[|[|q]]]; [cbn; lra..|lia].
    - intros c Hc. unfold num_cells in Hc. cbn in Hc. rewrite cu in Hc. cbn in Hc. unfold area2, vx. cbn [cells points plate_u set_bc]. rewrite cu, pu. destruct c as [|[|c]]; [| |lia]; cbn; lra.
    - cbn [cells plate_u set_bc]. rewrite cu. assert (S : forall a b, In a square_cp -> In b square_cp -> share_edge a b).
      { intros a b Ha Hb. exists 0%nat, 2%nat. split; [discriminate|]. cbn in Ha, Hb. destruct Ha as [<-|[<-|[]]], Hb as [<-|[<-|[]]]; cbn; tauto. }
      intros l1 l2 H1 H2. eapply edge_step; [exact H2|now apply S|constructor].
    - cbn [cells points plate_u set_bc]. rewrite cu, pu. cbn. intros n Hn. destruct n as [|[|[|[|n]]]]; [| | | |lia].
      + exists [0; 1; 2]%nat. cbn; tauto.
      + exists [0; 1; 2]%nat. cbn; tauto.
      + exists [0; 1; 2]%nat. cbn; tauto.
      + exists [0; 2; 3]%nat. cbn; tauto.
  Qed.
  Lemma pl_bcs : bcs_ok plate_problem.
  Proof.
    intros f [<-|[<-|[]]] i Hi; cbn in *.
    - destruct i as [|[|i]]; [| |lia]; cbn; repeat split; auto; repeat constructor; cbn; intuition discriminate.
    - destruct i as [|i]; [|lia]; cbn; repeat split; auto; repeat constructor; intros [].
  Qed.
  Lemma pl_rollers : rollers fu.
  Proof.
    split.
    - exists 0%nat, 3%nat, 0, 0. cbn [points plate_u set_bc]. rewrite pu. repeat split; try (cbn; lia). cbn. lra.
    - exists 0%nat, 0. cbn [points plate_u set_bc]. rewrite pu. split; [cbn; lia|reflexivity].
  Qed.
  Lemma pl_held n k b : (n < List.length (points fu))%nat -> (k < 2)%nat -> prescribed fu n k = Some b -> b = 0.
  Proof.
    cbn [points plate_u set_bc]. rewrite pu. cbn [List.length square_p]. intros Hn Hk.
    destruct n as [|[|[|[|n]]]]; [| | | |lia]; (destruct k as [|[|k]]; [| |lia]); cbn; intros E; now injection E as <- || discriminate.
  Qed.
  Lemma pl_heat n b : (n < List.length (points fu))%nat -> prescribed fT n 0 = Some b -> b = 10.
  Proof.
    cbn [points plate_u set_bc]. rewrite pu. cbn [List.length square_p]. intros Hn.
    destruct n as [|[|[|[|n]]]]; [| | | |lia]; cbn; intros E; now injection E as <- || discriminate.
  Qed.
End Square.
Lemma plate_built fquad normals : exists f0 g0, fe_init (K := Rops) sqrt "TRI3" rule3 fquad normals square_p square_cp 2 2 None = Ok f0 /\
  fe_init (K := Rops) sqrt "TRI3" rule3 fquad normals square_p square_cp 1 2 None = Ok g0.
Proof.
  destruct (fe_init_ok sqrt 2 (mkVar (K := Rops) square_p square_cp 2 "TRI3" rule3 fquad normals None)) as (f0 & E0).
  { split; [cbn; tauto|]. split; [|exact I]. cbn. intros cell [<-|[<-|[]]]; (split; [reflexivity|]); intros n H; cbn in H; repeat destruct H as [<-|H]; try destruct H; lia. }
  destruct (fe_init_ok sqrt 2 (mkVar (K := Rops) square_p square_cp 1 "TRI3" rule3 fquad normals None)) as (g0 & E1).
  { split; [cbn; tauto|]. split; [|exact I]. cbn. intros cell [<-|[<-|[]]]; (split; [reflexivity|]); intros n H; cbn in H; repeat destruct H as [<-|H]; try destruct H; lia. }
  exists f0, g0. split; [exact E0|exact E1].
Qed.
