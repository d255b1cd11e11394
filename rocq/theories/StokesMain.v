(** Proofs for C82: Stokes flow with Taylor-Hood elements has exactly one solution. *)
From Coq Require Import String Reals List Arith Lia Lra Bool.
From Verif Require Import Num Arr ArrFacts Fe Problem SpecAssembly BatchFacts ProblemFacts Basis SpecBasis SpecFe FeFacts GeomFacts SpecBc SpecWeak KernelFacts
  SpecEnergy EnergyFacts ElasticFacts LinAlg SolveBox SpecLinear SpecPosed PosedFacts FieldFacts SpecCoupled CoupledFacts CoupledLinear Wave Stokes SpecStokes StokesFacts.
Import ListNotations.
Local Open Scope R_scope.

(** ** Rules of degree two *)
Section Rule.
  Variable quad : list (list Rops) * list Rops.
  Hypothesis DT : degree_two quad.
  Lemma rule_lin (a0 a1 a2 a3 a4 a5 : R) :
    rule_sum quad (fun x y => a0 + a1 * x + a2 * y + a3 * (x * x) + a4 * (x * y) + a5 * (y * y)) = a0 / 2 + a1 / 6 + a2 / 6 + a3 / 12 + a4 / 24 + a5 / 12.
  Proof.
    destruct DT as (_ & M0 & M1 & M2 & M3 & M4 & M5).
    transitivity (a0 * rule_sum quad (fun _ _ => 1) + a1 * rule_sum quad (fun x _ => x) + a2 * rule_sum quad (fun _ y => y) + a3 * rule_sum quad (fun x _ => x * x)
      + a4 * rule_sum quad (fun x y => x * y) + a5 * rule_sum quad (fun _ y => y * y)); [|rewrite M0, M1, M2, M3, M4, M5; field].
    unfold rule_sum. rewrite <- !Rsum_mul, <- !Rsum_plus. apply Rsum_ext. intros q _. cbn; req; ring.
  Qed.
  Lemma rule_ext g h : (forall q, (q < List.length (fst quad))%nat -> g (nth 0 (nth q (fst quad) []) 0) (nth 1 (nth q (fst quad) []) 0) = h (nth 0 (nth q (fst quad) []) 0) (nth 1 (nth q (fst quad) []) 0)) ->
    rule_sum quad g = rule_sum quad h.
  Proof. intros H. unfold rule_sum. apply Rsum_ext. intros q Hq. now rewrite H. Qed.
  (** an affine function that is zero at the points of the rule is zero *)
  Lemma rule_affine a b c : (forall q, (q < List.length (fst quad))%nat -> a + b * nth 0 (nth q (fst quad) []) 0 + c * nth 1 (nth q (fst quad) []) 0 = 0) -> a = 0 /\ b = 0 /\ c = 0.
  Proof.
    intros H.
    assert (Z : forall h, rule_sum quad (fun x y => (a + b * x + c * y) * h x y) = 0).
    { intros h. unfold rule_sum. transitivity (sum_n (K := Rops) (List.length (fst quad)) (fun _ => 0 * 0)); [|rewrite Rsum_mul; req; ring]. apply Rsum_ext. intros q Hq. rewrite H by auto. cbn; req; ring. }
    pose proof (Z (fun _ _ => 1)) as Z0. pose proof (Z (fun x _ => x)) as Z1. pose proof (Z (fun _ y => y)) as Z2.
    rewrite (rule_ext _ (fun x y => a + b * x + c * y + 0 * (x * x) + 0 * (x * y) + 0 * (y * y))) in Z0 by (intros; ring).
    rewrite (rule_ext _ (fun x y => 0 + a * x + 0 * y + b * (x * x) + c * (x * y) + 0 * (y * y))) in Z1 by (intros; ring).
    rewrite (rule_ext _ (fun x y => 0 + 0 * x + a * y + 0 * (x * x) + b * (x * y) + c * (y * y))) in Z2 by (intros; ring).
    rewrite rule_lin in Z0, Z1, Z2. lra.
  Qed.
End Rule.

(** ** The reference triangle *)
Lemma tri6_grads info (x : list Rops) (U : nat -> R) i : get_elements "TRI6" = Ok info -> (i < 2)%nat ->
  sum_n (K := Rops) 6 (fun a => U a * shape_grad info x a i) =
  (if (i =? 0)%nat then - 3 * U 0%nat - U 1%nat + 4 * U 3%nat else - 3 * U 0%nat - U 2%nat + 4 * U 5%nat)
  + (if (i =? 0)%nat then 4 * U 0%nat + 4 * U 1%nat - 8 * U 3%nat else 4 * U 0%nat - 4 * U 3%nat + 4 * U 4%nat - 4 * U 5%nat) * nth 0 x 0
  + (if (i =? 0)%nat then 4 * U 0%nat - 4 * U 3%nat + 4 * U 4%nat - 4 * U 5%nat else 4 * U 0%nat + 4 * U 2%nat - 8 * U 5%nat) * nth 1 x 0.
Proof.
  intros E Hi. injection E as <-. destruct i as [|[|i]]; [| |lia]; destruct x as [|x0 [|x1 xr]]; unfold shape_grad, pt; cbn; req; ring.
Qed.
Lemma tri6_constant info quad (U : nat -> R) : get_elements "TRI6" = Ok info -> degree_two quad ->
  (forall q i, (q < List.length (fst quad))%nat -> (i < 2)%nat -> sum_n (K := Rops) 6 (fun a => U a * shape_grad info (nth q (fst quad) []) a i) = 0) ->
  forall a, (a < 6)%nat -> U a = U 0%nat.
Proof.
  intros E DT S.
  assert (G : forall i, (i < 2)%nat -> _) by (intros i Hi; exact (rule_affine quad DT _ _ _ (fun q Hq => eq_trans (eq_sym (tri6_grads info (nth q (fst quad) []) U i E Hi)) (S q i Hq Hi)))).
  destruct (G 0%nat ltac:(lia)) as (A0 & B0 & C0). destruct (G 1%nat ltac:(lia)) as (A1 & B1 & C1). cbn in A0, B0, C0, A1, B1, C1. clear G S E.
  intros a Ha. do 6 (destruct a as [|a]; [lra|]). lia.
Qed.
(** shape functions of the two elements at a point *)
Definition lam (x : list Rops) (b : nat) : R := match b with O => 1 - nth 0 x 0 - nth 1 x 0 | S O => nth 0 x 0 | _ => nth 1 x 0 end.
Lemma tri3_vals info (x : list Rops) b : get_elements "TRI3" = Ok info -> (b < 3)%nat -> shape_value info x b = lam x b.
Proof. intros E Hb. injection E as <-. destruct x as [|x0 [|x1 xr]]; do 3 (destruct b as [|b]; [unfold shape_value, pt; cbn; first [reflexivity | req; ring]|]); lia. Qed.
Definition dlam (b i : nat) : R := match b, i with O, _ => -1 | S O, O => 1 | S (S O), S O => 1 | _, _ => 0 end.
Lemma tri3_grads info (x : list Rops) b i : get_elements "TRI3" = Ok info -> (b < 3)%nat -> (i < 2)%nat -> shape_grad info x b i = dlam b i.
Proof.
  intros E Hb Hi. injection E as <-. destruct i as [|[|i]]; [| |lia]; (do 3 (destruct b as [|b]; [unfold shape_grad, pt; cbn; req; ring|])); lia.
Qed.
Lemma tri6_mid info (x : list Rops) a i : get_elements "TRI6" = Ok info -> (3 <= a < 6)%nat -> (i < 2)%nat ->
  shape_grad info x a i = 4 * (dlam (fst (edge_ends a)) i * lam x (snd (edge_ends a)) + lam x (fst (edge_ends a)) * dlam (snd (edge_ends a)) i).
Proof.
  intros E Ha Hi. injection E as <-. destruct i as [|[|i]]; [| |lia];
    (do 3 (destruct a as [|a]; [lia|])); (do 3 (destruct a as [|a]; [destruct x as [|x0 [|x1 xr]]; unfold shape_grad, pt; cbn; req; ring|])); lia.
Qed.

(** ** Triangles *)
Lemma elem_facts s quad f : element_of s quad f -> exists info, get_elements s = Ok info /\ num_nodes f = node_count s /\ dim f = element_dim s /\
  num_quads f = List.length (fst quad) /\ (forall q, quad_weights f q = nth q (snd quad) 0) /\
  (forall q a i, shape_grads_ref f q a i = shape_grad info (nth q (fst quad) []) a i) /\ (forall q a, shape_vals f q a = shape_value info (nth q (fst quad) []) a).
Proof.
  intros (sqrtK & fquad & normals & pts & cls & v & dir & f0 & ns & vs & ws & B & ->).
  pose proof (built_quads _ _ _ _ _ _ _ _ _ _ _ B) as EQ. pose proof (built_dim _ _ _ _ _ _ _ _ _ _ _ B) as ED. pose proof (built_nodes _ _ _ _ _ _ _ _ _ _ _ B) as EN.
  pose proof (built_weights _ _ _ _ _ _ _ _ _ _ _ B) as EW.
  destruct (built_inv _ _ _ _ _ _ _ _ _ _ _ B) as (info & fi & [[ns' vs'] ws'] & HI & HFI & HD & Ef).
  exists info. split; [exact HI|]. unfold set_bc. cbn [num_nodes dim num_quads quad_weights shape_grads_ref shape_vals]. repeat (split; [assumption|]).
  split; intros; rewrite Ef; reflexivity.
Qed.
Lemma inv2 (m : nat -> nat -> Rops) : det (K := Rops) 2 m <> 0 ->
  inv_mat (K := Rops) 2 m 0%nat 0%nat = m 1%nat 1%nat / det (K := Rops) 2 m /\ inv_mat (K := Rops) 2 m 0%nat 1%nat = - m 0%nat 1%nat / det (K := Rops) 2 m /\
  inv_mat (K := Rops) 2 m 1%nat 0%nat = - m 1%nat 0%nat / det (K := Rops) 2 m /\ inv_mat (K := Rops) 2 m 1%nat 1%nat = m 0%nat 0%nat / det (K := Rops) 2 m.
Proof.
  intros D. unfold inv_mat. set (d := det 2 m) in *. clearbody d. cbn [Nat.sub det]. unfold minor, Fe.skip. cbn. repeat split; req; field; exact D.
Qed.
Section Cells.
  Variables (quad : list (list Rops) * list Rops) (Pu Pp : list (list Rops)) (fu fp : fe Rops).
  Hypothesis TH : taylor_hood quad Pu Pp fu fp.
  Hypothesis MU : mesh_ok fu.
  Hypothesis MP : mesh_ok fp.
  Hypothesis NCE : num_cells fp = num_cells fu.
  Local Notation X c b i := (vx Pp fp c b i).
  Lemma coo_u c a i : (c < num_cells fu)%nat -> (a < num_nodes fu)%nat -> coo Pu fu c a i = vx Pu fu c a i.
  Proof.
    intros Hc Ha. destruct TH as (_ & _ & _ & (L & _) & _). destruct (MU c Hc) as (LC & N). unfold coo, vx, cell_node. rewrite gather_in; [reflexivity|].
    rewrite L. apply N, nth_In. lia.
  Qed.
  Lemma coo_p c a i : (c < num_cells fu)%nat -> (a < num_nodes fp)%nat -> coo Pp fp c a i = vx Pp fp c a i.
  Proof.
    intros Hc Ha. destruct TH as (_ & _ & _ & (_ & L & _) & _). rewrite <- NCE in Hc. destruct (MP c Hc) as (LC & N). unfold coo, vx, cell_node. rewrite gather_in; [reflexivity|].
    rewrite L. apply N, nth_In. lia.
  Qed.
  Lemma nodes_u : num_nodes fu = 6%nat. Proof. destruct TH as (E & _). destruct (elem_facts _ _ _ E) as (? & _ & H & _). exact H. Qed.
  Lemma nodes_p : num_nodes fp = 3%nat. Proof. destruct TH as (_ & E & _). destruct (elem_facts _ _ _ E) as (? & _ & H & _). exact H. Qed.
  Lemma dim_u : dim fu = 2%nat. Proof. destruct TH as (E & _). destruct (elem_facts _ _ _ E) as (? & _ & _ & H & _). exact H. Qed.
  Lemma dim_p : dim fp = 2%nat. Proof. destruct TH as (_ & E & _). destruct (elem_facts _ _ _ E) as (? & _ & _ & H & _). exact H. Qed.
  Lemma quads_u : num_quads fu = List.length (fst quad). Proof. destruct TH as (E & _). destruct (elem_facts _ _ _ E) as (? & _ & _ & _ & H & _). exact H. Qed.
  Lemma quads_p : num_quads fp = List.length (fst quad). Proof. destruct TH as (_ & E & _). destruct (elem_facts _ _ _ E) as (? & _ & _ & _ & H & _). exact H. Qed.
  Lemma jac_u c q i j : (c < num_cells fu)%nat -> (i < 2)%nat -> (j < 2)%nat -> jacobian_dx_deta Pu fu c q i j = X c (S j) i - X c 0 i.
  Proof.
    intros Hc Hi Hj. destruct TH as (E & _ & _ & (_ & _ & G) & _). destruct (elem_facts _ _ _ E) as (info & HI & EN & _ & _ & _ & SG & _). destruct (G c i Hc Hi) as (G1 & G2).
    unfold jacobian_dx_deta. rewrite EN. change (node_count "TRI6") with 6%nat.
    rewrite (Rsum_ext 6 _ (fun a => vx Pu fu c a i * shape_grad info (nth q (fst quad) []) a j)) by (intros a Ha; rewrite SG, coo_u by (rewrite ?nodes_u; auto); reflexivity).
    rewrite (tri6_grads info _ (fun a => vx Pu fu c a i) j HI Hj). rewrite (G1 0%nat), (G1 1%nat), (G1 2%nat), (G2 3%nat), (G2 4%nat), (G2 5%nat) by lia. destruct j as [|[|j]]; [| |lia]; cbn [Nat.eqb edge_ends fst snd]; req; field.
  Qed.
  Lemma jac_p c q i j : (c < num_cells fu)%nat -> (i < 2)%nat -> (j < 2)%nat -> jacobian_dx_deta Pp fp c q i j = X c (S j) i - X c 0 i.
  Proof.
    intros Hc Hi Hj. destruct TH as (_ & E & _ & _ & _). destruct (elem_facts _ _ _ E) as (info & HI & EN & _ & _ & _ & SG & _).
    unfold jacobian_dx_deta. rewrite EN. change (node_count "TRI3") with 3%nat.
    rewrite (Rsum_ext 3 _ (fun a => vx Pp fp c a i * dlam a j)) by (intros a Ha; rewrite SG, coo_p by (rewrite ?nodes_p; auto); rewrite (tri3_grads info _ a j HI Ha Hj); reflexivity).
    destruct j as [|[|j]]; [| |lia]; cbn; req; ring.
  Qed.
  Lemma det_u c q : (c < num_cells fu)%nat -> det (K := Rops) 2 (jacobian_dx_deta Pu fu c q) = area2 Pp fp c.
  Proof. intros Hc. rewrite (det_det2 Rops_ring). unfold det2, area2. rewrite !jac_u by (auto; lia). cbn; req; ring. Qed.
  Lemma JxW_u c q : (c < num_cells fu)%nat -> get_JxW Pu fu c q = area2 Pp fp c * nth q (snd quad) 0.
  Proof.
    intros Hc. unfold get_JxW. rewrite dim_u, det_u by auto. destruct TH as (E & _). destruct (elem_facts _ _ _ E) as (info & _ & _ & _ & _ & EW & _). now rewrite EW.
  Qed.
  Lemma JxW_p c q : (c < num_cells fu)%nat -> get_JxW Pp fp c q = area2 Pp fp c * nth q (snd quad) 0.
  Proof.
    intros Hc. unfold get_JxW. rewrite dim_p, (det_det2 Rops_ring). destruct TH as (_ & E & _). destruct (elem_facts _ _ _ E) as (info & _ & _ & _ & _ & EW & _). rewrite EW.
    f_equal. unfold det2, area2. rewrite !jac_p by (auto; lia). cbn; req; ring.
  Qed.
  Lemma JxW_pos c q : (c < num_cells fu)%nat -> (q < num_quads fu)%nat -> 0 < get_JxW Pu fu c q.
  Proof.
    intros Hc Hq. rewrite JxW_u by auto. rewrite quads_u in Hq. destruct TH as (_ & _ & (W & _) & _ & A). apply Rmult_lt_0_compat; auto.
  Qed.
  Lemma area_pos c : (c < num_cells fu)%nat -> 0 < area2 Pp fp c.
  Proof. apply TH. Qed.
  (** a field without gradient is constant in every triangle *)
  Lemma th_constant d c k : (c < num_cells fu)%nat -> (forall q j, (q < num_quads fu)%nat -> (j < 2)%nat -> sol_to_grad Pu fu d c q k j = 0) ->
    forall a, (a < 6)%nat -> cell_sol_at fu d c a k = cell_sol_at fu d c 0 k.
  Proof.
    intros Hc Z. destruct TH as (E & _ & DT & _ & _). destruct (elem_facts _ _ _ E) as (info & HI & EN & _ & EQ & _ & SG & _).
    apply (tri6_constant info quad (fun a => cell_sol_at fu d c a k) HI DT). intros q i Hq Hi. rewrite <- EQ in Hq.
    assert (DET : det (dim fu) (jacobian_dx_deta Pu fu c q) <> 0) by (rewrite dim_u, det_u by auto; pose proof (area_pos c Hc); lra).
    assert (RG : refgrad fu d c q k i = 0).
    { rewrite (pull fu Pu d c q (or_introl dim_u) DET k i) by (rewrite dim_u; auto). rewrite dim_u. transitivity (sum_n (K := Rops) 2 (fun _ => 0 * 0)); [|cbn; req; ring].
      apply Rsum_ext. intros j Hj. rewrite Z by auto. cbn; req; ring. }
    unfold refgrad in RG. rewrite nodes_u in RG. rewrite <- RG. apply Rsum_ext. intros a _. now rewrite SG.
  Qed.
  (** the pressure at a quadrature point *)
  Lemma pressure_at w c q : (c < num_cells fu)%nat -> convert_from_dof_to_quad fp w c q 0 =
    cell_sol_at fp w c 0 0 * lam (nth q (fst quad) []) 0 + cell_sol_at fp w c 1 0 * lam (nth q (fst quad) []) 1 + cell_sol_at fp w c 2 0 * lam (nth q (fst quad) []) 2.
  Proof.
    intros Hc. destruct TH as (_ & E & _ & _ & _). destruct (elem_facts _ _ _ E) as (info & HI & EN & _ & _ & _ & _ & SV).
    unfold convert_from_dof_to_quad. rewrite nodes_p. rewrite (Rsum_ext 3 _ (fun b => cell_sol_at fp w c b 0 * lam (nth q (fst quad) []) b)) by (intros b Hb; rewrite SV, (tri3_vals info _ b HI Hb); reflexivity).
    cbn; req; ring.
  Qed.
  (** the gradient of the function of a midpoint along its edge *)
  Lemma edge_slope c q a : (c < num_cells fu)%nat -> (3 <= a < 6)%nat -> let s := fst (edge_ends a) in let e := snd (edge_ends a) in
    (X c e 0 - X c s 0) * get_shape_grads Pu fu c q a 0 + (X c e 1 - X c s 1) * get_shape_grads Pu fu c q a 1 = 4 * (lam (nth q (fst quad) []) s - lam (nth q (fst quad) []) e).
  Proof.
    intros Hc Ha s e. pose proof (det_u c q Hc) as DU. pose proof (area_pos c Hc) as AP.
    assert (DN : det (K := Rops) 2 (jacobian_dx_deta Pu fu c q) <> 0) by (rewrite DU; lra).
    destruct (inv2 _ DN) as (I00 & I01 & I10 & I11). rewrite !jac_u, DU in I00, I01, I10, I11 by (auto; lia). clear DN.
    destruct TH as (E & _ & _ & _ & _). destruct (elem_facts _ _ _ E) as (info & HI & _ & _ & _ & _ & SG & _).
    assert (GS : forall j, get_shape_grads Pu fu c q a j = shape_grads_ref fu q a 0 * inv_mat (K := Rops) 2 (jacobian_dx_deta Pu fu c q) 0%nat j + shape_grads_ref fu q a 1 * inv_mat (K := Rops) 2 (jacobian_dx_deta Pu fu c q) 1%nat j).
    { intros j. unfold get_shape_grads. rewrite dim_u. cbn; req; ring. }
    rewrite !GS, I00, I01, I10, I11, !SG, !(tri6_mid info _ a _ HI Ha) by lia. unfold s, e. clear GS I00 I01 I10 I11 SG HI E DU.
    assert (AN : area2 Pp fp c <> 0) by lra. unfold area2 in *. set (xx := nth q (fst quad) []). 
    do 3 (destruct a as [|a]; [lia|]). destruct a as [|[|[|a]]]; [| | |lia]; cbn [edge_ends fst snd dlam lam]; req; field; exact AN.
  Qed.
  Lemma edge_term w c a : (c < num_cells fu)%nat -> (3 <= a < 6)%nat -> let s := fst (edge_ends a) in let e := snd (edge_ends a) in
    sum_n (K := Rops) (num_quads fu) (fun q => convert_from_dof_to_quad fp w c q 0 * ((X c e 0 - X c s 0) * get_shape_grads Pu fu c q a 0 + (X c e 1 - X c s 1) * get_shape_grads Pu fu c q a 1) * get_JxW Pu fu c q)
    = area2 Pp fp c * (cell_sol_at fp w c s 0 - cell_sol_at fp w c e 0) / 6.
  Proof.
    intros Hc Ha s e.
    set (W := fun x y : R => 4 * area2 Pp fp c * ((cell_sol_at fp w c 0 0 * lam [x; y] 0 + cell_sol_at fp w c 1 0 * lam [x; y] 1 + cell_sol_at fp w c 2 0 * lam [x; y] 2) * (lam [x; y] s - lam [x; y] e))).
    transitivity (rule_sum quad W).
    - unfold rule_sum. rewrite quads_u. apply Rsum_ext. intros q Hq. pose proof (edge_slope c q a Hc Ha) as ES. cbv zeta in ES. fold s e in ES. rewrite ES, pressure_at, JxW_u by auto.
      assert (L : forall b, lam [nth 0 (nth q (fst quad) []) 0; nth 1 (nth q (fst quad) []) 0] b = lam (nth q (fst quad) []) b) by (intros [|[|b]]; reflexivity).
      unfold W. rewrite !L. cbn [mul Rops]. req. ring.
    - destruct TH as (_ & _ & DT & _ & _). set (p0 := cell_sol_at fp w c 0 0) in *. set (p1 := cell_sol_at fp w c 1 0) in *. set (p2 := cell_sol_at fp w c 2 0) in *. set (A := area2 Pp fp c) in *. unfold W, s, e.
      do 3 (destruct a as [|a]; [lia|]). destruct a as [|[|[|a]]]; [| | |lia]; cbn [edge_ends fst snd lam nth]; fold p0 p1 p2.
      + rewrite (rule_ext quad _ (fun x y => 4 * A * p0 + 4 * A * (-3 * p0 + p1) * x + 4 * A * (-2 * p0 + p2) * y + 4 * A * (2 * p0 - 2 * p1) * (x * x) + 4 * A * (3 * p0 - p1 - 2 * p2) * (x * y) + 4 * A * (p0 - p2) * (y * y))) by (intros; ring).
        rewrite (rule_lin quad DT). req. field.
      + rewrite (rule_ext quad _ (fun x y => 0 + 4 * A * p0 * x + 4 * A * (- p0) * y + 4 * A * (- p0 + p1) * (x * x) + 4 * A * (- p1 + p2) * (x * y) + 4 * A * (p0 - p2) * (y * y))) by (intros; ring).
        rewrite (rule_lin quad DT). req. field.
      + rewrite (rule_ext quad _ (fun x y => - (4 * A * p0) + 4 * A * (2 * p0 - p1) * x + 4 * A * (3 * p0 - p2) * y + 4 * A * (p1 - p0) * (x * x) + 4 * A * (- 3 * p0 + 2 * p1 + p2) * (x * y) + 4 * A * (2 * p2 - 2 * p0) * (y * y))) by (intros; ring).
        rewrite (rule_lin quad DT). req. field.
  Qed.
End Cells.

(** ** Exactly one solution *)
Lemma nil_cell N m (f : fe Rops) c a k : cell_sol_at f (nil_field N m) c a k = 0.
Proof.
  unfold cell_sol_at, gather. set (n := Nat.min _ _). unfold nil_field, fld. destruct (Nat.lt_ge_cases n N) as [H|H].
  - rewrite (nth_map_in _ _ _ 0%nat) by now rewrite seq_length. destruct (Nat.lt_ge_cases k m) as [Hk|Hk].
    + now rewrite (nth_map_in _ _ _ 0%nat) by now rewrite seq_length.
    + apply nth_overflow. now rewrite map_length, seq_length.
  - rewrite (nth_overflow (map _ _)) by (now rewrite map_length, seq_length). now destruct k.
Qed.
Lemma zero_grad (f : fe Rops) P d c q k j : (forall a, (a < num_nodes f)%nat -> cell_sol_at f d c a k = 0) -> sol_to_grad P f d c q k j = 0.
Proof.
  intros H. unfold sol_to_grad. transitivity (sum_n (K := Rops) (num_nodes f) (fun _ => 0 * 0)); [|rewrite Rsum_mul; req; ring]. apply Rsum_ext. intros a Ha. rewrite H by auto. cbn; req; ring.
Qed.
Lemma zero_val (f : fe Rops) d c q k : (forall a, (a < num_nodes f)%nat -> cell_sol_at f d c a k = 0) -> convert_from_dof_to_quad f d c q k = 0.
Proof.
  intros H. unfold convert_from_dof_to_quad. transitivity (sum_n (K := Rops) (num_nodes f) (fun _ => 0 * 0)); [|rewrite Rsum_mul; req; ring]. apply Rsum_ext. intros a Ha. rewrite H by auto. cbn; req; ring.
Qed.
Lemma over_zero {V} (p : problem Rops V) f P g : (forall c q, (c < p_num_cells p)%nat -> (q < num_quads f)%nat -> g c q = 0) -> over_cells (K := Rops) p f P g = 0.
Proof.
  intros H. unfold over_cells. transitivity (sum_n (K := Rops) (p_num_cells p) (fun _ => 0 * 0)); [|rewrite Rsum_mul; req; ring]. apply Rsum_ext. intros c Hc.
  transitivity (sum_n (K := Rops) (num_quads f) (fun _ => 0 * 0)); [|rewrite Rsum_mul; req; ring]. apply Rsum_ext. intros q Hq. rewrite H by auto. cbn; req; ring.
Qed.
Lemma over_diff {V} (p : problem Rops V) f P g h : over_cells (K := Rops) p f P g - over_cells (K := Rops) p f P h = over_cells (K := Rops) p f P (fun c q => g c q - h c q).
Proof.
  unfold over_cells. match goal with |- sum_n _ ?a - sum_n _ ?b = _ => transitivity (sum_n (K := Rops) (p_num_cells p) a + -1 * sum_n (K := Rops) (p_num_cells p) b); [req; ring|] end.
  rewrite <- Rsum_mul, <- Rsum_plus. apply Rsum_ext. intros c Hc. rewrite <- Rsum_mul, <- Rsum_plus. apply Rsum_ext. intros q Hq. cbn; req; ring.
Qed.
Section Posed.
  Let KR : ring_laws Rops := Rops_ring.
  Context {V : Type}.
  Variables (quad : list (list Rops) * list Rops) (Pu Pp : list (list Rops)) (fu fp : fe Rops) (p : problem Rops V).
  Hypothesis ST : stokes_problem p fu fp.
  Hypothesis WF : wf_problem p.
  Hypothesis NC : (0 < p_num_cells p)%nat.
  Hypothesis TH : taylor_hood quad Pu Pp fu fp.
  Local Notation zr := (@zero Rops).
  Local Notation N0 := (List.length (points fu)).
  Local Notation N1 := (List.length (points fp)).
  Local Notation F := (stokes_form (K := Rops) (V := V)).
  Let CP : coupled_problem p fu fp F := stokes_is_coupled KR p fu fp ST.
  Lemma s_fes : fes p = [fu; fp]. Proof. apply ST. Qed.
  Lemma s_cells : p_num_cells p = num_cells fu. Proof. unfold p_num_cells, fe0. now rewrite s_fes. Qed.
  Lemma s_mesh f : In f (fes p) -> mesh_ok f.
  Proof.
    intros I c Hc. assert (IC : In (nth c (cells f) []) (cells f)) by now apply nth_In. split; [exact (wf_cell_len p WF f _ I IC)|]. intros n Hn. exact (wf_cell_node p WF f _ n I IC Hn).
  Qed.
  Lemma s_mu : mesh_ok fu. Proof. apply s_mesh. rewrite s_fes. now left. Qed.
  Lemma s_mp : mesh_ok fp. Proof. apply s_mesh. rewrite s_fes. right. now left. Qed.
  Lemma s_nce : num_cells fp = num_cells fu.
  Proof. rewrite <- s_cells. apply (wf_cells p WF). rewrite s_fes. right. now left. Qed.
  Lemma s_vu : vec fu = 2%nat. Proof. apply ST. Qed.
  Lemma s_vp : vec fp = 1%nat. Proof. apply ST. Qed.
  Lemma same_JxW g : over_cells (K := Rops) p fp Pp g = over_cells (K := Rops) p fu Pu g.
  Proof.
    unfold over_cells. rewrite (quads_u quad Pu Pp fu fp TH), (quads_p quad Pu Pp fu fp TH). apply Rsum_ext. intros c Hc. rewrite s_cells in Hc. apply Rsum_ext. intros q Hq.
    now rewrite (JxW_u quad Pu Pp fu fp TH s_mu s_nce c q Hc), (JxW_p quad Pu Pp fu fp TH s_mp s_nce c q Hc).
  Qed.
  (** the velocity of an unnoticed change has no gradient *)
  Lemma un_grad d w : sol_ok p [d; w] -> unnoticed p fu fp F Pu Pp d w ->
    forall c q k j, (c < p_num_cells p)%nat -> (q < num_quads fu)%nat -> (k < 2)%nat -> (j < 2)%nat -> sol_to_grad Pu fu d c q k j = 0.
  Proof.
    intros SD (H0 & H1 & HW).
    destruct (proj1 (c_fields p fu fp F CP NC d w) SD) as [Sd Sw].
    assert (SN : forall N m, shaped N m (nil_field N m)) by (intros; apply fld_shaped).
    assert (A : momentum (K := Rops) p fu fp Pu d w d = 0).
    { pose proof (HW d (nil_field N1 (vec fp)) (proj2 (c_fields p fu fp F CP NC _ _) (conj Sd (SN _ _))) H0 (fun n k b Hn Hk _ => nil_get _ _ n k Hn Hk)) as E.
      rewrite (stokes_work KR p fu fp ST) in E. assert (Z : continuity (K := Rops) p fu fp Pu Pp d (nil_field N1 (vec fp)) = 0).
      { unfold continuity. apply over_zero. intros c q Hc Hq. rewrite (zero_val fp) by (intros; apply nil_cell). cbn; req; ring. }
      cbn [add Rops] in E. lra. }
    assert (B : continuity (K := Rops) p fu fp Pu Pp d w = 0).
    { pose proof (HW (nil_field N0 (vec fu)) w (proj2 (c_fields p fu fp F CP NC _ _) (conj (SN _ _) Sw)) (fun n k b Hn Hk _ => nil_get _ _ n k Hn Hk) H1) as E.
      rewrite (stokes_work KR p fu fp ST) in E. assert (Z : momentum (K := Rops) p fu fp Pu d w (nil_field N0 (vec fu)) = 0).
      { unfold momentum. apply over_zero. intros c q Hc Hq. assert (GZ : forall k j, sol_to_grad Pu fu (nil_field N0 (vec fu)) c q k j = 0) by (intros; apply zero_grad; intros; apply nil_cell).
        unfold dot2, divergence. cbn [sum_n seq fold_right]. cbn. rewrite !GZ. req; ring. }
      cbn [add Rops] in E. lra. }
    unfold continuity in B. rewrite same_JxW in B. unfold momentum in A.
    assert (C : over_cells (K := Rops) p fu Pu (fun c q => dot2 (K := Rops) 2 2 (sol_to_grad Pu fu d c q) (sol_to_grad Pu fu d c q)) = 0).
    { transitivity (0 - 0); [|req; ring]. rewrite <- A at 1. rewrite <- B. rewrite over_diff. unfold over_cells. apply Rsum_ext. intros c _. apply Rsum_ext. intros q _. cbn; req; ring. }
    intros c q k j Hc Hq Hk Hj.
    assert (NN : forall c q, 0 <= dot2 (K := Rops) 2 2 (sol_to_grad Pu fu d c q) (sol_to_grad Pu fu d c q)).
    { intros c' q'. unfold dot2. apply Rsum_nonneg. intros i Hi. apply Rsum_nonneg. intros m Hm. apply Rle_0_sqr. }
    assert (JP : forall c q, (c < p_num_cells p)%nat -> (q < num_quads fu)%nat -> 0 < get_JxW Pu fu c q) by (intros; apply (JxW_pos quad Pu Pp fu fp TH s_mu s_nce); auto; now rewrite <- s_cells).
    unfold over_cells in C. pose proof (Rsum_zero_all _ _ (fun i Hi => Rsum_nonneg _ _ (fun m Hm => Rmult_le_pos _ _ (NN i m) (Rlt_le _ _ (JP i m Hi Hm)))) C c Hc) as C1. cbv beta in C1.
    pose proof (Rsum_zero_all _ _ (fun m Hm => Rmult_le_pos _ _ (NN c m) (Rlt_le _ _ (JP c m Hc Hm))) C1 q Hq) as C2. cbv beta in C2. cbn [mul Rops] in C2.
    apply Rmult_integral in C2 as [C2|C2]; [|pose proof (JP c q Hc Hq); lra].
    unfold dot2 in C2. pose proof (Rsum_zero_all _ _ (fun i Hi => Rsum_nonneg _ _ (fun m Hm => Rle_0_sqr _)) C2 k Hk) as C3. cbv beta in C3.
    pose proof (Rsum_zero_all _ _ (fun m Hm => Rle_0_sqr _) C3 j Hj) as C4. now apply Rsqr_0_uniq.
  Qed.
  Lemma un_velocity d w : anchored fu -> sol_ok p [d; w] -> unnoticed p fu fp F Pu Pp d w -> forall n k, (n < N0)%nat -> (k < vec fu)%nat -> get2 zr d n k = 0.
  Proof.
    intros AN SD UN n k Hn Hk. pose proof (un_grad d w SD UN) as G. destruct (AN n k Hn Hk) as (m & b & Hm & PB & L). destruct UN as (H0 & _).
    rewrite s_vu in Hk. assert (S : forall n m, linked (cells fu) n m -> get2 zr d n k = get2 zr d m k).
    { clear n m b Hn Hm PB L. intros n m L. induction L as [|n m l cell IC IN IM L IH]; auto. rewrite <- IH.
      apply (In_nth _ _ []) in IC as (c & Hc & <-). change (c < num_cells fu)%nat in Hc. destruct (s_mu c Hc) as (LC & _). rewrite (nodes_u quad Pu Pp fu fp TH) in LC.
      apply (In_nth _ _ 0%nat) in IN as (a & Ha & <-). apply (In_nth _ _ 0%nat) in IM as (a' & Ha' & <-). rewrite LC in Ha, Ha'.
      assert (Hc' : (c < p_num_cells p)%nat) by now rewrite s_cells.
      assert (EN : forall a, (a < 6)%nat -> get2 zr d (nth a (nth c (cells fu) []) 0%nat) k = cell_sol_at fu d c 0 k).
      { intros a0 Ha0. etransitivity; [exact (cp_field0 p fu fp F CP WF NC d w c a0 k SD Hc' ltac:(rewrite (nodes_u quad Pu Pp fu fp TH); exact Ha0))|].
        apply (th_constant quad Pu Pp fu fp TH s_mu s_nce d c k Hc); auto. }
      now rewrite !EN. }
    rewrite (S n m L). apply (H0 m k b); auto. now rewrite s_vu.
  Qed.
  (** the field t at node n, zero elsewhere *)
  Definition push (n : nat) (t0 t1 : R) : list (list Rops) := fld N0 2 (fun g => if (g =? n * 2)%nat then t0 else if (g =? n * 2 + 1)%nat then t1 else 0).
  Lemma push_get n t0 t1 m k : (m < N0)%nat -> (k < 2)%nat -> get2 zr (push n t0 t1) m k = if (m =? n)%nat then (if (k =? 0)%nat then t0 else t1) else 0.
  Proof.
    intros Hm Hk. unfold push. rewrite fld_get by auto. destruct (Nat.eqb_spec m n) as [->|].
    - destruct k as [|[|k]]; [| |lia]; cbn [Nat.eqb].
      + rewrite Nat.add_0_r, Nat.eqb_refl. reflexivity.
      + destruct (Nat.eqb_spec (n * 2 + 1) (n * 2)); [lia|]. now rewrite Nat.eqb_refl.
    - destruct (Nat.eqb_spec (m * 2 + k) (n * 2)); [lia|]. destruct (Nat.eqb_spec (m * 2 + k) (n * 2 + 1)); [lia|]. reflexivity.
  Qed.
  Lemma push_ok n t0 t1 : sol_ok p [push n t0 t1; nil_field N1 (vec fp)].
  Proof. apply (c_fields p fu fp F CP NC). rewrite s_vu. split; apply fld_shaped. Qed.
  Lemma push_cell n t0 t1 c a k : (c < p_num_cells p)%nat -> (a < 6)%nat -> (k < 2)%nat ->
    cell_sol_at fu (push n t0 t1) c a k = if (cell_node fu c a =? n)%nat then (if (k =? 0)%nat then t0 else t1) else 0.
  Proof.
    intros Hc Ha Hk. assert (Ha' : (a < num_nodes fu)%nat) by (rewrite (nodes_u quad Pu Pp fu fp TH); exact Ha).
    etransitivity; [symmetry; exact (cp_field0 p fu fp F CP WF NC _ _ c a k (push_ok n t0 t1) Hc Ha')|]. apply push_get; auto.
    exact (cp_node0_ok p fu fp F CP WF NC c a Hc Ha').
  Qed.
  Lemma push_momentum d w n t0 t1 : (forall c q k j, (c < p_num_cells p)%nat -> (q < num_quads fu)%nat -> (k < 2)%nat -> (j < 2)%nat -> sol_to_grad Pu fu d c q k j = 0) ->
    momentum (K := Rops) p fu fp Pu d w (push n t0 t1) = sum_n (K := Rops) (p_num_cells p) (fun c => sum_n (K := Rops) 6 (fun a => if (cell_node fu c a =? n)%nat then
      sum_n (K := Rops) (num_quads fu) (fun q => convert_from_dof_to_quad fp w c q 0 * (t0 * get_shape_grads Pu fu c q a 0 + t1 * get_shape_grads Pu fu c q a 1) * get_JxW Pu fu c q) else 0)).
  Proof.
    intros G. unfold momentum, over_cells. apply Rsum_ext. intros c Hc.
    transitivity (sum_n (K := Rops) 6 (fun a => sum_n (K := Rops) (num_quads fu) (fun q => if (cell_node fu c a =? n)%nat then convert_from_dof_to_quad fp w c q 0 * (t0 * get_shape_grads Pu fu c q a 0 + t1 * get_shape_grads Pu fu c q a 1) * get_JxW Pu fu c q else 0))).
    - etransitivity; [|apply (sum_n_swap' Rops_ring)]. apply Rsum_ext. intros q Hq.
      assert (D : divergence (K := Rops) (sol_to_grad Pu fu (push n t0 t1) c q) = sum_n (K := Rops) 6 (fun a => if (cell_node fu c a =? n)%nat then t0 * get_shape_grads Pu fu c q a 0 + t1 * get_shape_grads Pu fu c q a 1 else 0)).
      { unfold divergence, sol_to_grad. rewrite (nodes_u quad Pu Pp fu fp TH). cbn [add Rops]. rewrite <- Rsum_plus. apply Rsum_ext. intros a Ha. rewrite !push_cell by (auto; lia). destruct (_ =? n)%nat; cbn; req; ring. }
      rewrite D. unfold dot2. rewrite (Rsum_ext 2 _ (fun _ => 0 * 0)).
      2:{ intros k Hk. transitivity (sum_n (K := Rops) 2 (fun _ => 0 * 0)); [|cbn; req; ring]. apply Rsum_ext. intros j Hj. rewrite G by auto. cbn; req; ring. }
      rewrite Rsum_mul. cbn [add mul Rops].
      match goal with |- (0 * ?z + ?u * ?s) * ?J = _ => transitivity ((u * J) * s); [ring|] end. rewrite <- Rsum_mul. apply Rsum_ext. intros a Ha. destruct (_ =? n)%nat; cbn; req; ring.
    - apply Rsum_ext. intros a Ha. destruct (_ =? n)%nat; [reflexivity|]. transitivity (sum_n (K := Rops) (num_quads fu) (fun _ => 0 * 0)); [apply Rsum_ext; intros; cbn; req; ring|rewrite Rsum_mul; req; ring].
  Qed.
  Lemma free_edge_pressure d w A B : sol_ok p [d; w] -> unnoticed p fu fp F Pu Pp d w -> free_edge fu fp A B -> get2 zr w A 0 = get2 zr w B 0.
  Proof.
    intros SD UN (n & Hn & ((c0 & a0 & Hc0 & Ha0 & E0) & MID) & F0 & F1). pose proof (un_grad d w SD UN) as G. destruct UN as (H0 & H1 & HW).
    set (t := fun i : nat => nth i (nth B Pp []) 0 - nth i (nth A Pp []) 0).
    assert (HP : held_zero fu (push n (t 0%nat) (t 1%nat))).
    { intros m k b Hm Hk PS. rewrite s_vu in Hk. rewrite push_get by auto. destruct (Nat.eqb_spec m n) as [->|]; [|reflexivity]. destruct k as [|[|k]]; [congruence|congruence|lia]. }
    pose proof (HW _ _ (push_ok n (t 0%nat) (t 1%nat)) HP (fun n k b Hn Hk _ => nil_get _ _ n k Hn Hk)) as E.
    rewrite (stokes_work KR p fu fp ST) in E. assert (Z : continuity (K := Rops) p fu fp Pu Pp d (nil_field N1 (vec fp)) = 0).
    { unfold continuity. apply over_zero. intros c q Hc Hq. rewrite (zero_val fp) by (intros; apply nil_cell). cbn; req; ring. }
    rewrite Z, (push_momentum d w n _ _ G) in E. clear Z HP.
    set (S := sum_n (K := Rops) (p_num_cells p) (fun c => sum_n (K := Rops) 6 (fun a => if (cell_node fu c a =? n)%nat then area2 Pp fp c else 0))).
    assert (ES : (get2 zr w A 0 - get2 zr w B 0) / 6 * S = 0).
    { unfold S. rewrite <- Rsum_mul. transitivity (add (sum_n (K := Rops) (p_num_cells p) (fun c => sum_n (K := Rops) 6 (fun a => if (cell_node fu c a =? n)%nat then
        sum_n (K := Rops) (num_quads fu) (fun q => convert_from_dof_to_quad fp w c q 0 * (t 0%nat * get_shape_grads Pu fu c q a 0 + t 1%nat * get_shape_grads Pu fu c q a 1) * get_JxW Pu fu c q) else 0))) zr); [|exact E].
      match goal with |- _ = add ?x _ => transitivity x; [|symmetry; exact (Rplus_0_r _)] end. apply Rsum_ext. intros c Hc. rewrite <- Rsum_mul. apply Rsum_ext. intros a Ha. assert (Hc' : (c < num_cells fu)%nat) by now rewrite <- s_cells.
      destruct (Nat.eqb_spec (cell_node fu c a) n) as [Ea|]; [|cbn; req; ring]. destruct (MID c a Hc' Ha Ea) as (Ha3 & EN). cbv zeta in EN.
      pose proof (edge_term quad Pu Pp fu fp TH s_mu s_nce w c a Hc' (conj Ha3 Ha)) as ET. cbv zeta in ET.
      assert (Hs : (fst (edge_ends a) < num_nodes fp)%nat /\ (snd (edge_ends a) < num_nodes fp)%nat) by (rewrite (nodes_p quad Pu Pp fu fp TH); do 5 (destruct a as [|a]; [cbn; lia|]); cbn; lia).
      pose proof (cp_field1 p fu fp F CP WF NC d w c (fst (edge_ends a)) 0 SD Hc (proj1 Hs)) as CS. pose proof (cp_field1 p fu fp F CP WF NC d w c (snd (edge_ends a)) 0 SD Hc (proj2 Hs)) as CE.
      rewrite <- CS, <- CE in ET. clear CS CE. unfold vx in ET. fold (cell_node fp c (fst (edge_ends a))) in ET. fold (cell_node fp c (snd (edge_ends a))) in ET.
      destruct EN as [(EA & EB)|(EA & EB)]; rewrite EA, EB in ET; clear EA EB.
      - refine (eq_trans _ (eq_sym ET)). cbn; req; field.
      - transitivity (- (area2 Pp fp c * (get2 zr w B 0 - get2 zr w A 0) / 6)); [cbn; req; field|]. rewrite <- ET.
        match goal with |- - sum_n _ ?g = _ => transitivity (-1 * sum_n (K := Rops) (num_quads fu) g); [cbn; req; ring|] end. rewrite <- Rsum_mul. apply Rsum_ext. intros q Hq. unfold t. cbn; req; ring. }
    assert (SP : S <> 0).
    { intros SZ. assert (NN : forall c a, (c < p_num_cells p)%nat -> 0 <= (if (cell_node fu c a =? n)%nat then area2 Pp fp c else 0)).
      { intros c a Hc. destruct (_ =? n)%nat; [|lra]. apply Rlt_le, (area_pos quad Pu Pp fu fp TH). now rewrite <- s_cells. }
      assert (Hc0' : (c0 < p_num_cells p)%nat) by now rewrite s_cells.
      pose proof (Rsum_zero_all _ _ (fun c Hc => Rsum_nonneg _ _ (fun a _ => NN c a Hc)) SZ c0 Hc0') as Z1. cbv beta in Z1.
      pose proof (Rsum_zero_all _ _ (fun a _ => NN c0 a Hc0') Z1 a0 Ha0) as Z2. cbv beta in Z2. rewrite E0, Nat.eqb_refl in Z2. pose proof (area_pos quad Pu Pp fu fp TH c0 Hc0). lra. }
    apply Rmult_integral in ES as [ES|ES]; [|contradiction]. apply Rminus_diag_uniq. lra.
  Qed.
  Theorem stokes_one : bcs_ok p -> anchored fu -> pressure_anchored fu fp -> no_free_change p [Pu; Pp] /\ affine_residual p [Pu; Pp] /\ one_solution p [Pu; Pp].
  Proof.
    intros BC AN PA. pose proof (stokes_ok p fu fp ST) as FO. pose proof (stokes_affine KR p fu fp ST) as FA. pose proof (stokes_ivs p fu fp ST) as IV.
    assert (U : forall du dw, sol_ok p [du; dw] -> unnoticed p fu fp F Pu Pp du dw ->
       (forall n k, (n < N0)%nat -> (k < vec fu)%nat -> get2 zr du n k = 0) /\ (forall n k, (n < N1)%nat -> (k < vec fp)%nat -> get2 zr dw n k = 0)).
    { intros du dw SD UN. split; [exact (un_velocity du dw AN SD UN)|]. intros n k Hn Hk. rewrite s_vp in Hk. assert (k = 0)%nat as -> by lia.
      destruct (PA n Hn) as (B & b & HB & PB & J). transitivity (get2 zr dw B 0).
      - clear PA Hn HB PB Hk. induction J as [|A B C FE J IH]; [reflexivity|]. rewrite (free_edge_pressure du dw A B SD UN FE). exact IH.
      - destruct UN as (_ & H1 & _). apply (H1 B 0%nat b HB); auto. rewrite s_vp. lia. }
    split; [|split].
    - exact (coupled_no_free p fu fp F F Pu Pp CP WF NC FO IV FA U).
    - exact (coupled_affine p fu fp F F Pu Pp CP WF NC FO IV FA).
    - exact (coupled_one_solution p fu fp F F Pu Pp CP WF NC FO IV FA BC U).
  Qed.
End Posed.
