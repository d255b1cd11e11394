(** Proofs for C89. *)
From Coq Require Import String List Arith Lia ZArith Reals Lra.
From Verif Require Import Num Arr ArrFacts Fe FeFacts Basis SpecBasis SpecFe BasisFacts GeomFacts Problem NodalStress SpecNodal.
Import ListNotations.
Local Open Scope R_scope.

Lemma sum_deriv n (F : nat -> R -> R) (D : nat -> R) : (forall a, (a < n)%nat -> derivable_pt_lim (F a) 0 (D a)) ->
  derivable_pt_lim (fun t => sum_n (K := Rops) n (fun a => F a t)) 0 (sum_n (K := Rops) n D).
Proof.
  induction n as [|n IH]; intros H; [exact (derivable_pt_lim_const 0 0)|].
  assert (E : forall g : nat -> R, sum_n (K := Rops) (S n) g = sum_n (K := Rops) n g + g n) by (intros g; apply (sum_n_S (K := Rops) Rops_ring)).
  apply (dl_ext (fun t => sum_n (K := Rops) n (fun a => F a t) + F n t)); [intros t; symmetry; apply E|].
  rewrite (E D). apply derivable_pt_lim_plus; [apply IH; intros; apply H; lia|apply H; lia].
Qed.
Lemma moved_bump x j t : moved x j t = bump x j t. Proof. reflexivity. Qed.
Lemma combo_deriv info (x : list Rops) j n (w : nat -> R) : (j < List.length x)%nat ->
  derivable_pt_lim (fun t => sum_n (K := Rops) n (fun a => w a * shape_value info (moved x j t) a)) 0 (sum_n (K := Rops) n (fun a => w a * shape_grad info x a j)).
Proof.
  intros Hj. apply (sum_deriv n (fun a t => w a * shape_value info (moved x j t) a)). intros a Ha.
  apply (derivable_pt_lim_scal (fun t => shape_value info (moved x j t) a) (w a)). exact (shape_grad_derivative info x a j Hj).
Qed.

(** the point of row re_order[a] is mesh node a *)
Lemma row_point {K : ops} (half : K) s info a : get_elements s = Ok info -> (a < node_count s)%nat ->
  nth (nth a (re_order info) 0%nat) (element_points half info) [] = ref_point half s a.
Proof.
  intros GE Ha. unfold element_points, ref_point. rewrite (node_table s info a GE Ha).
  change (@nil K) with (map (fun n => mul (ofZ (K := K) (Z.of_nat n)) half) []) at 1. apply map_nth.
Qed.
Lemma ref_point_dim {K : ops} (half : K) s info a : get_elements s = Ok info -> (a < node_count s)%nat -> List.length (ref_point half s a) = element_dim s.
Proof.
  intros GE Ha. unfold ref_point. rewrite map_length. pose proof (get_elements_cases s info GE) as I. unfold element_dim, node_count in *.
  assert (C : forallb (fun k => Nat.eqb (List.length (nth k (mesh_nodes2 s) [])) (List.length (nth 0 (mesh_nodes2 s) []))) (seq 0 (List.length (mesh_nodes2 s))) = true)
    by (cbn in I; repeat destruct I as [<-|I]; try contradiction; vm_compute; reflexivity).
  rewrite forallb_forall in C. apply Nat.eqb_eq. apply C. apply in_seq. lia.
Qed.

Section Any.
  Context {K : ops} (KF : field_laws K).
  Variables (half : K) (s : string) (d : nat) (f : fe K).
  Hypothesis LE : built_element s d f.
  (** the same element with the element's points as quadrature points *)
  Lemma nodal_fe info : get_elements s = Ok info -> exists f',
    (exists sqrtK fquad normals v dir, fe_init sqrtK s (element_points half info, map (fun _ => @one K) (element_points half info)) fquad normals (points f) (cells f) v d dir = Ok f') /\
    points f' = points f /\ cells f' = cells f /\ dim f' = d /\ dim f = d /\ num_nodes f' = num_nodes f /\ vec f' = vec f /\
    forall p a j, shape_grads_ref f' p a j = shape_grad info (nth p (element_points half info) []) a j.
  Proof.
    intros GE. destruct LE as (LAG & DIM & MESH & sq & qd & fq & nm & p0 & cl & v & dr & B).
    destruct (built_inv sq s qd fq nm p0 cl v d dr f B) as (info' & fi & [[ns vs] ws] & HI & HFI & HD & Hf).
    rewrite GE in HI. injection HI as <-.
    exists (make_fe sq info (element_points half info, map (fun _ => @one K) (element_points half info)) fq nm p0 cl v d fi (ns, vs, ws)).
    rewrite Hf. cbn. split; [|auto 10]. exists sq, fq, nm, v, dr. unfold fe_init. now rewrite GE, HFI, HD.
  Qed.
  Lemma u_grads_affine info U A b sol c p k j : get_elements s = Ok info -> u_grads half s f sol = Ok U -> samples d (vec f) A b (points f) sol ->
    (c < num_cells f)%nat -> (p < List.length (element_points half info))%nat -> (k < vec f)%nat -> (j < d)%nat ->
    det d (fun i j => sum_n (num_nodes f) (fun a => mul (coo (points f) f c a i) (shape_grad info (nth p (element_points half info) []) a j))) <> @zero K ->
    U c p k j = A k j.
  Proof.
    intros GE HU SA Hc Hp Hk Hj HD. unfold u_grads, get_shape_grads_physical, get_shape_grads_ref in HU. rewrite GE in HU. cbn [bind] in HU. injection HU as <-.
    destruct (nodal_fe info GE) as (f' & (sq & fq & nm & v & dr & B) & EP & EC & ED & ED0 & EN & EV & EG).
    pose proof LE as (LAG & DIM & MESH & _).
    assert (MESH' : mesh_ok f') by (unfold mesh_ok; rewrite EP, EC, EN; exact MESH).
    assert (J : forall i j, jacobian_dx_deta (points f) f' c p i j = sum_n (num_nodes f) (fun a => mul (coo (points f) f c a i) (shape_grad info (nth p (element_points half info) []) a j))).
    { intros i0 j0. unfold jacobian_dx_deta. rewrite EN. apply sum_n_ext. intros a Ha. rewrite EG. unfold coo, cell_node. now rewrite EC. }
    assert (HJ : get_JxW (points f) f' c p <> @zero K).
    { unfold get_JxW. rewrite ED. rewrite (built_weights _ _ _ _ _ _ _ _ _ _ _ B). cbn [snd].
      rewrite (nth_map_in (fun _ => @one K) (element_points half info) p [] (@zero K)) by exact Hp.
      intros E. apply HD. rewrite <- (det_ext d (jacobian_dx_deta (points f) f' c p) _ (fun i j _ _ => J i j)). pose proof (field_ring K KF) as KR.
      rewrite <- E. rewrite (Rmul_comm KR). symmetry. apply (Rmul_1_l KR). }
    rewrite ED0. etransitivity; [|exact (grad_affine KF sq s _ fq nm (points f) (cells f) v d dr f' B LAG MESH' DIM (points f) ltac:(now rewrite EP) A b sol c p k j ltac:(now rewrite EV) ltac:(rewrite EC; exact Hc) ltac:(now rewrite EV) Hj HJ)].
    unfold sol_to_grad. rewrite EN. apply sum_n_ext. intros a Ha. unfold cell_sol_at, cell_node. rewrite EC. f_equal.
    unfold get_shape_grads. rewrite ED. apply sum_n_ext. intros i Hi. rewrite EG. f_equal. apply inv_mat_ext; [exact Hi|exact Hj|]. intros i0 j0 _ _. symmetry. apply J.
  Qed.
End Any.

Section Real.
  Variables (s : string) (d : nat) (f : fe Rops).
  Hypothesis LE : built_element (K := Rops) s d f.
  Lemma u_grads_at_node info U sol c a : get_elements s = Ok info -> u_grads (K := Rops) (/ 2) s f sol = Ok U -> (a < node_count s)%nat ->
    det (K := Rops) d (place_jacobian info f c (ref_point (K := Rops) (/ 2) s a)) <> 0 ->
    is_gradient_at info f sol c (ref_point (K := Rops) (/ 2) s a) (U c (nth a (re_order info) 0%nat)).
  Proof.
    intros GE HU Ha HD k j D Hk Hj HP. unfold u_grads, get_shape_grads_physical, get_shape_grads_ref in HU. rewrite GE in HU. cbn [bind] in HU. injection HU as <-.
    pose proof LE as (LAG & DIM & MESH & sq & qd & fq & nm & p0 & cl & v & dr & B).
    assert (ED : dim f = d) by exact (built_dim sq s qd fq nm p0 cl v d dr f B). rewrite ED in *.
    set (x := ref_point (K := Rops) (/ 2) s a) in *.
    assert (LX : List.length x = d) by (rewrite DIM; exact (ref_point_dim (K := Rops) (/ 2) s info a GE Ha)).
    pose proof (row_point (K := Rops) (/ 2) s info a GE Ha) as RP.
    set (J := place_jacobian info f c x) in *.
    assert (DJ : forall i, (i < d)%nat -> D i = J i j).
    { intros i Hi. eapply uniqueness_limite; [exact (HP i Hi)|]. exact (combo_deriv info x j (num_nodes f) (fun a => coo (points f) f c a i) ltac:(lia)). }
    assert (V : sum_n (K := Rops) (num_nodes f) (fun b => cell_sol_at f sol c b k * shape_grad info x b j) =
      sum_n (K := Rops) d (fun i => sum_n (K := Rops) (num_nodes f) (fun b => mul (cell_sol_at f sol c b k)
        (sum_n (K := Rops) d (fun i0 => mul (shape_grad info x b i0) (inv_mat (K := Rops) d J i0 i)))) * D i)).
    { assert (AS : forall a b c e : Rops, mul (mul a (mul b c)) e = mul (mul a b) (mul c e)) by (intros a1 b1 c1 e1; change (a1 * (b1 * c1) * e1 = a1 * b1 * (c1 * e1)); ring).
      symmetry. transitivity (sum_n (K := Rops) d (fun i => sum_n (K := Rops) (num_nodes f) (fun b => sum_n (K := Rops) d (fun i0 => mul (mul (cell_sol_at f sol c b k) (shape_grad info x b i0)) (mul (inv_mat (K := Rops) d J i0 i) (J i j)))))).
      { apply sum_n_ext. intros i Hi. rewrite (DJ i Hi). etransitivity; [exact (eq_sym (sum_n_mul_r' (K := Rops) Rops_ring (num_nodes f) (J i j) _))|]. apply sum_n_ext. intros b Hb.
        etransitivity; [|exact (sum_n_ext (K := Rops) d (fun i0 => mul (mul (cell_sol_at f sol c b k) (mul (shape_grad info x b i0) (inv_mat (K := Rops) d J i0 i))) (J i j)) _ (fun i0 _ => AS _ _ _ _))].
        rewrite (sum_n_mul_r' (K := Rops) Rops_ring). f_equal. symmetry. apply (sum_n_mul_l Rops_ring). }
      rewrite (sum_n_swap' Rops_ring). apply sum_n_ext. intros b Hb. rewrite (sum_n_swap' Rops_ring).
      transitivity (sum_n (K := Rops) d (fun i0 => mul (mul (cell_sol_at f sol c b k) (shape_grad info x b i0)) (if (i0 =? j)%nat then @one Rops else @zero Rops))).
      { apply sum_n_ext. intros i0 Hi0. rewrite <- (inv_mat_left Rops_field d J i0 j) by (auto; rewrite DIM; exact (element_dim_23 s info GE)). apply (sum_n_mul_l Rops_ring). }
      rewrite (sum_n_single Rops_ring d j) by (auto; intros i0 Hi0 NE; replace (i0 =? j)%nat with false by (symmetry; now apply Nat.eqb_neq); apply Rmult_0_r).
      rewrite Nat.eqb_refl. apply Rmult_1_r. }
    refine (eq_ind _ (fun w => derivable_pt_lim _ 0 w) (combo_deriv info x j (num_nodes f) (fun b => cell_sol_at f sol c b k) ltac:(lia)) _ _).
    rewrite V. subst J. unfold place_jacobian. unfold x. rewrite <- RP. reflexivity.
  Qed.
End Real.

(** ** One square cell and the field x y *)
Definition unit_square : list (list Rops) := [[0; 0]; [1; 0]; [1; 1]; [0; 1]].
Definition square_init : result (fe Rops) :=
  fe_init (K := Rops) (fun x => x) "QUAD4" ([[/ 2; / 2]], [1]) ([[/ 2]], [1]) (fun _ _ => 0) unit_square [[0; 1; 2; 3]%nat] 1 2 None.
Definition square_xy : list (list Rops) := [[0]; [0]; [1]; [0]].
Definition quad4 : element_info := match get_elements "QUAD4" with Ok i => i | Err _ => mkInfo FamilyP Interval Interval 0 0 [] end.
Definition square_fe : fe Rops :=
  make_fe (K := Rops) (fun x => x) quad4 ([[/ 2; / 2]], [1]) ([[/ 2]], [1]) (fun _ _ => 0) unit_square [[0; 1; 2; 3]%nat] 1 2 [[0; 1]; [0; 3]; [1; 2]; [3; 2]]%nat ([], [], []).
Lemma square_ok : square_init = Ok square_fe. Proof. reflexivity. Qed.
Tactic Notation "evalR" := cbv -[Rplus Rmult Rminus Ropp Rdiv Rinv IZR].
Tactic Notation "evalR" "in" hyp(H) := cbv -[Rplus Rmult Rminus Ropp Rdiv Rinv IZR] in H.
Lemma square_facts : exists f info U, built_element (K := Rops) "QUAD4" 2 f /\ get_elements "QUAD4" = Ok info /\ u_grads (K := Rops) (/ 2) "QUAD4" f square_xy = Ok U /\
  num_cells f = 1%nat /\ (forall b, (b < 4)%nat -> det (K := Rops) 2 (place_jacobian info f 0 (ref_point (K := Rops) (/ 2) "QUAD4" b)) <> 0) /\
  is_gradient_at info f square_xy 0 (ref_point (K := Rops) (/ 2) "QUAD4" 3) (U 0%nat 2%nat) /\ ~ is_gradient_at info f square_xy 0 (ref_point (K := Rops) (/ 2) "QUAD4" 2) (U 0%nat 2%nat).
Proof.
  assert (GE : get_elements "QUAD4" = Ok quad4) by reflexivity.
  assert (LE : built_element (K := Rops) "QUAD4" 2 square_fe).
  { split; [cbn; tauto|]. split; [reflexivity|]. split; [|repeat eexists; exact square_ok].
    intros c Hc. cbn in Hc. destruct c as [|c]; [|lia]. split; [reflexivity|]. intros n Hn. cbn in Hn. cbn. lia. }
  destruct (u_grads (K := Rops) (/ 2) "QUAD4" square_fe square_xy) as [U|e] eqn:EU; [|unfold u_grads, get_shape_grads_physical, get_shape_grads_ref in EU; rewrite GE in EU; discriminate EU].
  assert (DB : forall b, (b < 4)%nat -> det (K := Rops) 2 (place_jacobian quad4 square_fe 0 (ref_point (K := Rops) (/ 2) "QUAD4" b)) <> 0).
  { intros b Hb E. assert (E1 : det (K := Rops) 2 (place_jacobian quad4 square_fe 0 (ref_point (K := Rops) (/ 2) "QUAD4" b)) = 1).
    { destruct b as [|[|[|[|b]]]]; [| | | |lia]; evalR; field. }
    rewrite E1 in E. cbn in E. lra. }
  exists square_fe, quad4, U. split; [exact LE|]. split; [exact GE|]. split; [exact EU|]. split; [reflexivity|]. split; [exact DB|].
  pose proof (u_grads_at_node "QUAD4" 2 square_fe LE quad4 U square_xy 0 3 GE EU (Nat.lt_succ_diag_r 3) (DB 3%nat ltac:(lia))) as G3.
  change (nth 3 (re_order quad4) 0%nat) with 2%nat in G3. split; [exact G3|]. intros G2.
  assert (C : forall x : list Rops, List.length x = 2%nat -> forall w : nat -> R, derivable_pt_lim (fun t => sum_n (K := Rops) 4 (fun a => w a * shape_value quad4 (moved x 1 t) a)) 0 (sum_n (K := Rops) 4 (fun a => w a * shape_grad quad4 x a 1)))
    by (intros x LX w; apply combo_deriv; lia).
  assert (V : forall b G, (b < 4)%nat -> is_gradient_at quad4 square_fe square_xy 0 (ref_point (K := Rops) (/ 2) "QUAD4" b) G ->
    sum_n (K := Rops) 2 (fun i => G 0%nat i * place_jacobian quad4 square_fe 0 (ref_point (K := Rops) (/ 2) "QUAD4" b) i 1%nat) =
    sum_n (K := Rops) 4 (fun a => cell_sol_at square_fe square_xy 0 a 0 * shape_grad quad4 (ref_point (K := Rops) (/ 2) "QUAD4" b) a 1)).
  { intros b G Hb HG. assert (LX : List.length (ref_point (K := Rops) (/ 2) "QUAD4" b) = 2%nat) by (destruct b as [|[|[|[|b]]]]; [| | | |lia]; reflexivity).
    eapply uniqueness_limite; [|exact (C _ LX (fun a => cell_sol_at square_fe square_xy 0 a 0))].
    apply (HG 0%nat 1%nat (fun i => place_jacobian quad4 square_fe 0 (ref_point (K := Rops) (/ 2) "QUAD4" b) i 1%nat)); [cbn; lia|cbn; lia|].
    intros i Hi. exact (C _ LX (fun a => coo (points square_fe) square_fe 0 a i)). }
  pose proof (V 3%nat _ ltac:(lia) G3) as V3. pose proof (V 2%nat _ ltac:(lia) G2) as V2. clear - V2 V3.
  generalize dependent (U 0%nat 2%nat). intros G V3 V2. evalR in V2. evalR in V3. lra.
Qed.
