(** Lemmas for C106. *)
From Coq Require Import Reals String List Arith Lia Lra Bool.
From Verif Require Import Num Arr ArrFacts BatchFacts Fe Problem Basis SpecBasis SpecFe FeFacts GeomFacts SpecBc BcFacts SpecSelect SelectFacts SpecEnergy EnergyFacts ElasticFacts Lagrangian LaserHeat LagrangianMain HyperElastic HyperFacts Volume SpecVolume.
Import ListNotations.
Local Open Scope R_scope.
Local Notation sum := (sum_n (K := Rops)).

Section Deformed.
  Variables (s : string) (d : nat) (f : fe Rops) (P : list (list Rops)).
  Hypothesis B : built_element s d f.
  Hypothesis PTS : length P = length (points f).
  Lemma vol_dim : dim f = d.
  Proof. destruct B as (_ & _ & _ & sq & qd & fq & nm & p0 & cl & v & dr & BB). now apply (built_dim _ _ _ _ _ _ _ _ _ _ _ BB). Qed.
  Lemma vol_dim23 : d = 2%nat \/ d = 3%nat.
  Proof. destruct B as (LAG & DIM & _ & sq & qd & fq & nm & p0 & cl & v & dr & BB). eapply dim23; eauto. Qed.
  (** J(P + u) = (I + grad u) J(P) *)
  Lemma deformed_jac u P' c q : displaced d P u P' -> (c < num_cells f)%nat -> get_JxW P f c q <> 0 -> forall i l, (i < d)%nat -> (l < d)%nat ->
    jacobian_dx_deta P' f c q i l = sum d (fun j => (sol_to_grad P f u c q i j + (if (i =? j)%nat then 1 else 0)) * jacobian_dx_deta P f c q j l).
  Proof.
    intros (LU & LP & DP) Hc HJ i l Hi Hl. pose proof vol_dim as D. pose proof vol_dim23 as D23.
    assert (HD : det (K := Rops) d (jacobian_dx_deta P f c q) <> 0).
    { intros E. apply HJ. unfold get_JxW. rewrite D. etransitivity; [exact (f_equal (fun z => z * quad_weights f q) E)|]. exact (Rmult_0_l _). }
    assert (NODE : forall a, (a < num_nodes f)%nat -> (cell_node f c a < length P)%nat).
    { intros a Ha. destruct B as (_ & _ & MESH & _). destruct (MESH c Hc) as (L & N). rewrite PTS. apply N. unfold cell_node. apply nth_In. now rewrite L. }
    set (J := jacobian_dx_deta P f c q) in *.
    transitivity (sum (num_nodes f) (fun a => cell_sol_at f u c a i * shape_grads_ref f q a l) + J i l).
    - unfold J, jacobian_dx_deta. rewrite <- Rsum_plus. apply Rsum_ext. intros a Ha. specialize (NODE a Ha). unfold coo, cell_sol_at. rewrite !gather_in; [|exact NODE|now rewrite LU|now rewrite LP].
      etransitivity; [exact (f_equal (fun z => z * shape_grads_ref f q a l) (DP _ i NODE Hi))|]. etransitivity; [exact (Rmult_plus_distr_r _ _ _)|exact (Rplus_comm _ _)].
    - transitivity (sum d (fun j => sol_to_grad P f u c q i j * J j l) + sum d (fun j => (if (i =? j)%nat then 1 else 0) * J j l)).
      + rewrite (Rsum_delta d i (fun j => J j l)) by exact Hi. f_equal. unfold sol_to_grad, get_shape_grads. rewrite D. fold J.
        transitivity (sum (num_nodes f) (fun a => cell_sol_at f u c a i * sum d (fun m => shape_grads_ref f q a m * (if (m =? l)%nat then 1 else 0)))).
        * apply Rsum_ext. intros a Ha. f_equal. rewrite <- (Rsum_delta d l (fun m => shape_grads_ref f q a m)) by exact Hl. apply Rsum_ext. intros m Hm. rewrite Nat.eqb_sym. apply Rmult_comm.
        * transitivity (sum (num_nodes f) (fun a => sum d (fun j => cell_sol_at f u c a i * sum d (fun m => shape_grads_ref f q a m * inv_mat (K := Rops) d J m j) * J j l))).
          -- apply Rsum_ext. intros a Ha. transitivity (cell_sol_at f u c a i * sum d (fun j => sum d (fun m => shape_grads_ref f q a m * inv_mat (K := Rops) d J m j) * J j l)).
             ++ f_equal. transitivity (sum d (fun j => sum d (fun m => shape_grads_ref f q a m * (inv_mat (K := Rops) d J m j * J j l)))).
                ** rewrite Rsum_swap. apply Rsum_ext. intros m Hm. rewrite Rsum_mul. f_equal. symmetry. exact (inv_mat_left Rops_field d J m l D23 Hm Hl HD).
                ** apply Rsum_ext. intros j Hj. transitivity (J j l * sum d (fun m => shape_grads_ref f q a m * inv_mat (K := Rops) d J m j)); [|apply Rmult_comm]. rewrite <- Rsum_mul. apply Rsum_ext. intros m Hm. req. ring.
             ++ rewrite <- Rsum_mul. apply Rsum_ext. intros j Hj. req. ring.
          -- rewrite Rsum_swap. apply Rsum_ext. intros j Hj. etransitivity; [|apply Rmult_comm]. rewrite <- Rsum_mul. apply Rsum_ext. intros a Ha. req. cbn [mul Rops]. ring.
      + rewrite <- Rsum_plus. apply Rsum_ext. intros j Hj. req. ring.
  Qed.
  Lemma deformed_measure u P' c q : displaced d P u P' -> (c < num_cells f)%nat -> get_JxW P f c q <> 0 -> det_fn d (sol_to_grad P f u c q) * get_JxW P f c q = get_JxW P' f c q.
  Proof.
    intros DP Hc HJ. pose proof vol_dim as D. pose proof vol_dim23 as D23. unfold get_JxW. rewrite D. unfold det_fn.
    rewrite (det_ext (K := Rops) d (jacobian_dx_deta P' f c q) (fun i l => sum d (fun j => (sol_to_grad P f u c q i j + (if (i =? j)%nat then 1 else 0)) * jacobian_dx_deta P f c q j l))) by (intros; now apply deformed_jac).
    pose proof (det_mul Rops_ring d (fun i j => sol_to_grad P f u c q i j + (if (i =? j)%nat then 1 else 0)) (jacobian_dx_deta P f c q) D23) as E. cbn [mul Rops] in E |- *. rewrite E. req. ring.
  Qed.
  Lemma volume_deformed u P' : displaced d P u P' -> (forall c q, (c < num_cells f)%nat -> (q < num_quads f)%nat -> get_JxW P f c q <> 0) -> crt_volume P f u = mesh_volume P' f.
  Proof. intros DP NZ. unfold crt_volume, mesh_volume. rewrite vol_dim. apply Rsum_ext. intros c Hc. apply Rsum_ext. intros q Hq. apply deformed_measure; auto. Qed.
  Lemma volume_affine u A b : moved_affinely d A b P u -> vec f = d -> (forall c q, (c < num_cells f)%nat -> (q < num_quads f)%nat -> get_JxW P f c q <> 0) -> crt_volume P f u = det_dim (K := Rops) d A * mesh_volume P f.
  Proof.
    intros (LU & M) VE NZ. unfold crt_volume, mesh_volume. rewrite vol_dim. rewrite <- Rsum_mul. apply Rsum_ext. intros c Hc. rewrite <- Rsum_mul. apply Rsum_ext. intros q Hq. f_equal.
    pose proof vol_dim23 as D23. rewrite <- (det_dim_ok Rops_ring d A D23). unfold det_fn. apply (det_ext (K := Rops)). intros i j Hi Hj.
    destruct B as (LAG & DIM & MESH & sq & qd & fq & nm & p0 & cl & v & dr & BB).
    assert (S : samples (K := Rops) d (vec f) (fun i j => A i j - (if (i =? j)%nat then 1 else 0)) b P u).
    { split; [exact LU|]. intros n k Hn Hk. rewrite VE in Hk. specialize (M n k Hn Hk). unfold affine in *. cbn [add mul zero Rops] in *.
      apply (Rplus_eq_reg_l (nth k (nth n P []) 0)). etransitivity; [exact M|].
      assert (SP : sum d (fun m => (A k m - (if (k =? m)%nat then 1 else 0)) * nth m (nth n P []) 0) = sum d (fun m => A k m * nth m (nth n P []) 0) - nth k (nth n P []) 0).
      { transitivity (sum d (fun m => A k m * nth m (nth n P []) 0) + -1 * sum d (fun m => (if (k =? m)%nat then 1 else 0) * nth m (nth n P []) 0)).
        - rewrite <- Rsum_mul, <- Rsum_plus. apply Rsum_ext. intros m Hm. req. ring.
        - rewrite (Rsum_delta d k (fun m => nth m (nth n P []) 0)) by exact Hk. req. ring. }
      transitivity (nth k (nth n P []) 0 + (sum d (fun m => A k m * nth m (nth n P []) 0) - nth k (nth n P []) 0 + b k)); [req; ring|]. f_equal. exact (f_equal (fun z => z + b k) (eq_sym SP)). }
    pose proof (grad_affine Rops_field _ _ _ _ _ _ _ _ _ _ _ BB LAG MESH DIM P PTS _ b u c q i j S Hc ltac:(now rewrite VE) Hj (NZ c q Hc Hq)) as E. cbn beta in E.
    etransitivity; [exact (f_equal (fun z => z + (if (i =? j)%nat then 1 else 0)) E)|]. req. ring.
  Qed.
End Deformed.

(** ** The derivative of the target *)
Lemma cofactor_cof d F i j : d = 2%nat \/ d = 3%nat -> (i < d)%nat -> (j < d)%nat -> cofT d F i j = cofactor d F i j.
Proof.
  intros [-> | ->] Hi Hj; unfold cofT, cof, cofactor.
  - destruct i as [|[|i]]; [| |lia]; (destruct j as [|[|j]]; [| |lia]); cbv [det minor skip sgn sum_n sum_over sumK seq map fold_right Nat.even Nat.ltb Nat.leb Nat.add Nat.sub Nat.eqb add mul sub opp zero one Rops]; req; ring.
  - destruct i as [|[|[|i]]]; [| | |lia]; (destruct j as [|[|[|j]]]; [| | |lia]); cbv [det minor skip sgn sum_n sum_over sumK seq map fold_right Nat.even Nat.ltb Nat.leb Nat.add Nat.sub Nat.modulo Nat.divmod fst snd add mul sub opp zero one Rops]; cbn; ring.
Qed.
Lemma dsum n (g : nat -> R -> R) x (l : nat -> R) : (forall i, (i < n)%nat -> derivable_pt_lim (g i) x (l i)) -> derivable_pt_lim (fun t => sum n (fun i => g i t)) x (sum n l).
Proof.
  induction n as [|n IH]; intros H.
  - change (derivable_pt_lim (fun _ => 0) x 0). apply derivable_pt_lim_const.
  - assert (S : forall h : nat -> R, sum (S n) h = sum n h + h n) by (intros h; exact (sum_n_S Rops_ring n h)).
    apply (dlim_ext _ (fun t => sum n (fun i => g i t) + g n t)); [intros t; apply S|]. rewrite S. apply (derivable_pt_lim_plus (fun t => sum n (fun i => g i t)) (g n)); auto.
Qed.
Section Derivative.
  Variables (P : list (list Rops)) (f : fe Rops) (sol v : list (list Rops)).
  Hypothesis D23 : dim f = 2%nat \/ dim f = 3%nat.
  Hypothesis LINE : forall t c q i j, (c < num_cells f)%nat -> (i < dim f)%nat -> (j < dim f)%nat -> sol_to_grad P f (along (K := Rops) sol v t) c q i j = sol_to_grad P f sol c q i j + t * sol_to_grad P f v c q i j.
  Let F c q : nat -> nat -> R := fun i j => sol_to_grad P f sol c q i j + (if (i =? j)%nat then 1 else 0).
  Let rate := sum (num_cells f) (fun c => sum (num_quads f) (fun q => double_dot (dim f) (cofactor (dim f) (F c q)) (sol_to_grad P f v c q) * get_JxW P f c q)).
  Lemma volume_rate : derivable_pt_lim (fun t => crt_volume P f (along (K := Rops) sol v t)) 0 rate.
  Proof.
    unfold crt_volume, rate. apply dsum. intros c Hc. apply dsum. intros q Hq.
    assert (E : derivable_pt_lim (fun t => det_fn (dim f) (sol_to_grad P f (along (K := Rops) sol v t) c q)) 0 (double_dot (dim f) (cofactor (dim f) (F c q)) (sol_to_grad P f v c q))).
    { assert (E1 : double_dot (dim f) (cofactor (dim f) (F c q)) (sol_to_grad P f v c q) = ten_dot (dim f) (cofT (dim f) (F c q)) (sol_to_grad P f v c q)).
      { unfold double_dot, ten_dot. apply Rsum_ext. intros i Hi. apply Rsum_ext. intros j Hj. now rewrite cofactor_cof. }
      rewrite E1. eapply dlim_ext; [|exact (det_deriv (dim f) (F c q) (sol_to_grad P f v c q) D23)]. intros t. unfold det_fn. apply (det_ext (K := Rops)). intros i j Hi Hj.
      unfold line, F. pose proof (LINE t c q i j Hc Hi Hj) as L. etransitivity; [exact (f_equal (fun z => z + (if (i =? j)%nat then 1 else 0)) L)|]. req. ring. }
    apply (dlim_ext _ (fun t => get_JxW P f c q * det_fn (dim f) (sol_to_grad P f (along (K := Rops) sol v t) c q))); [intros t; apply Rmult_comm|].
    rewrite Rmult_comm. apply (derivable_pt_lim_scal (fun t => det_fn (dim f) (sol_to_grad P f (along (K := Rops) sol v t) c q))). exact E.
  Qed.
  Lemma along_0_volume : crt_volume P f (along (K := Rops) sol v 0) = crt_volume P f sol.
  Proof.
    unfold crt_volume. apply Rsum_ext. intros c Hc. apply Rsum_ext. intros q Hq. f_equal. unfold det_fn. apply (det_ext (K := Rops)). intros i j Hi Hj. f_equal. etransitivity; [exact (LINE 0 c q i j Hc Hi Hj)|]. cbn [zero Rops]. req. ring.
  Qed.
  Lemma target_rate : derivable_pt_lim (fun t => target_value P f (along (K := Rops) sol v t)) 0 (2 * (crt_volume P f sol - 101 / 100) * rate).
  Proof.
    unfold target_value.
    assert (E : derivable_pt_lim (fun t => crt_volume P f (along (K := Rops) sol v t) - 101 / 100) 0 (rate - 0)) by (apply derivable_pt_lim_minus; [apply volume_rate|apply derivable_pt_lim_const]).
    pose proof (derivable_pt_lim_comp (fun t => crt_volume P f (along (K := Rops) sol v t) - 101 / 100) (fun u => u ^ 2) 0 _ _ E (derivable_pt_lim_pow _ 2)) as C. cbn [pred INR] in C.
    rewrite along_0_volume in C. replace (2 * (crt_volume P f sol - 101 / 100) * rate) with ((1 + 1) * (crt_volume P f sol - 101 / 100) ^ 1 * (rate - 0)) by ring. exact C.
  Qed.
End Derivative.
