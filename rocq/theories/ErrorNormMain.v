(** Lemmas for C105. *)
From Coq Require Import Reals String List Arith Lia Lra Bool.
From Verif Require Import Num Arr ArrFacts BatchFacts Fe Problem Basis SpecBasis SpecFe FeFacts GeomFacts ElasticFacts LinAlg SpecSecond ErrorNorm SpecErrorNorm Complete CompleteMain.
Import ListNotations.
Local Open Scope R_scope.
Local Notation sum := (sum_n (K := Rops)).

Lemma np_sqrt_ok x : 0 <= x -> np_sqrt x = Some (sqrt x).
Proof. intros H. unfold np_sqrt. destruct (Rle_dec 0 x); [reflexivity|contradiction]. Qed.
Lemma np_sqrt_zero x : np_sqrt x = Some 0 <-> x = 0.
Proof.
  unfold np_sqrt. destruct (Rle_dec 0 x) as [H|H]; split; intros E.
  - injection E as E. now apply sqrt_eq_0.
  - rewrite E, sqrt_0. reflexivity.
  - discriminate.
  - exfalso. apply H. lra.
Qed.

(** ** Weighted sums *)
Lemma wsum_nonneg nc nq m w g : (forall c q, (c < nc)%nat -> (q < nq)%nat -> 0 <= w c q) -> (forall c q k, (c < nc)%nat -> (q < nq)%nat -> (k < m)%nat -> 0 <= g c q k) -> 0 <= weighted_sum nc nq m w g.
Proof. intros W G. unfold weighted_sum. apply Rsum_nonneg. intros c Hc. apply Rsum_nonneg. intros q Hq. apply Rsum_nonneg. intros k Hk. apply Rmult_le_pos; auto. Qed.
Lemma wsum_zero nc nq m w g : (forall c q k, (c < nc)%nat -> (q < nq)%nat -> (k < m)%nat -> g c q k = 0) -> weighted_sum nc nq m w g = 0.
Proof.
  intros G. unfold weighted_sum. transitivity (sum nc (fun c => 0 * 0)).
  - apply Rsum_ext. intros c Hc. transitivity (sum nq (fun q => 0 * 0)).
    + apply Rsum_ext. intros q Hq. transitivity (sum m (fun k => 0 * 0)); [apply Rsum_ext; intros k Hk; rewrite G by auto; ring|]. rewrite Rsum_mul. ring.
    + rewrite Rsum_mul. ring.
  - rewrite Rsum_mul. ring.
Qed.
Lemma wsum_zero_inv nc nq m w g : (forall c q, (c < nc)%nat -> (q < nq)%nat -> 0 < w c q) -> (forall c q k, (c < nc)%nat -> (q < nq)%nat -> (k < m)%nat -> 0 <= g c q k) ->
  weighted_sum nc nq m w g = 0 -> forall c q k, (c < nc)%nat -> (q < nq)%nat -> (k < m)%nat -> g c q k = 0.
Proof.
  intros W G E c q k Hc Hq Hk. unfold weighted_sum in E.
  assert (N : forall c q k, (c < nc)%nat -> (q < nq)%nat -> (k < m)%nat -> 0 <= g c q k * w c q) by (intros; apply Rmult_le_pos; auto; apply Rlt_le; auto).
  pose proof (Rsum_zero_all nc _ (fun c Hc => Rsum_nonneg nq _ (fun q Hq => Rsum_nonneg m _ (fun k Hk => N c q k Hc Hq Hk))) E c Hc) as E1.
  pose proof (Rsum_zero_all nq _ (fun q Hq => Rsum_nonneg m _ (fun k Hk => N c q k Hc Hq Hk)) E1 q Hq) as E2.
  pose proof (Rsum_zero_all m _ (fun k Hk => N c q k Hc Hq Hk) E2 k Hk) as E3. cbn beta in E3. specialize (W c q Hc Hq). apply Rmult_integral in E3 as [E3|E3]; [exact E3|lra].
Qed.

(** ** Triangle inequality of weighted sums of squares *)
Lemma mink2 a b c d : 0 <= a -> 0 <= b -> 0 <= c -> 0 <= d -> sqrt ((a + b) * (a + b) + (c + d) * (c + d)) <= sqrt (a * a + c * c) + sqrt (b * b + d * d).
Proof.
  intros Ha Hb Hc Hd. set (x := sqrt (a * a + c * c)). set (y := sqrt (b * b + d * d)).
  assert (X : x * x = a * a + c * c) by (apply sqrt_sqrt; nra). assert (Y : y * y = b * b + d * d) by (apply sqrt_sqrt; nra).
  assert (HX : 0 <= x) by apply sqrt_pos. assert (HY : 0 <= y) by apply sqrt_pos.
  assert (XY : a * b + c * d <= x * y).
  { apply Rsqr_incr_0_var; [|now apply Rmult_le_pos]. unfold Rsqr. replace (x * y * (x * y)) with ((x * x) * (y * y)) by ring. rewrite X, Y. pose proof (Rle_0_sqr (a * d - b * c)) as Q. unfold Rsqr in Q. nra. }
  apply Rsqr_incr_0_var; [|lra]. unfold Rsqr. rewrite sqrt_sqrt by nra. nra.
Qed.
Lemma sum_S n g : sum (S n) g = sum n g + g n.
Proof. pose proof (sum_n_S Rops_ring n g) as E. exact E. Qed.
(** roots of sums: if every sqrt (h i) <= sqrt (a i) + sqrt (b i), so are the sums *)
Lemma mink_sum n (h a b : nat -> R) : (forall i, (i < n)%nat -> 0 <= h i /\ 0 <= a i /\ 0 <= b i /\ sqrt (h i) <= sqrt (a i) + sqrt (b i)) -> sqrt (sum n h) <= sqrt (sum n a) + sqrt (sum n b).
Proof.
  induction n as [|n IH]; intros H.
  - change (sqrt 0 <= sqrt 0 + sqrt 0). rewrite sqrt_0. lra.
  - rewrite !sum_S. specialize (IH (fun i Hi => H i (Nat.lt_lt_succ_r _ _ Hi))). destruct (H n (Nat.lt_succ_diag_r n)) as (H1 & H2 & H3 & H4).
    assert (A : 0 <= sum n a) by (apply Rsum_nonneg; intros i Hi; apply (H i); lia).
    assert (B : 0 <= sum n b) by (apply Rsum_nonneg; intros i Hi; apply (H i); lia).
    assert (S : 0 <= sum n h) by (apply Rsum_nonneg; intros i Hi; apply (H i); lia).
    pose proof (mink2 (sqrt (sum n a)) (sqrt (sum n b)) (sqrt (a n)) (sqrt (b n)) (sqrt_pos _) (sqrt_pos _) (sqrt_pos _) (sqrt_pos _)) as M.
    rewrite !sqrt_sqrt in M by assumption. eapply Rle_trans; [|exact M]. apply sqrt_le_1_alt.
    pose proof (sqrt_sqrt _ S) as S1. pose proof (sqrt_sqrt _ H1) as S2. pose proof (sqrt_pos (sum n h)). pose proof (sqrt_pos (h n)).
    pose proof (sqrt_pos (sum n a)). pose proof (sqrt_pos (sum n b)). pose proof (sqrt_pos (a n)). pose proof (sqrt_pos (b n)). nra.
Qed.
Lemma mink_term x y w : 0 <= w -> sqrt ((x + y) ^ 2 * w) <= sqrt (x ^ 2 * w) + sqrt (y ^ 2 * w).
Proof.
  intros W. rewrite !sqrt_mult by (auto; apply pow2_ge_0). rewrite <- !Rsqr_pow2, !sqrt_Rsqr_abs. pose proof (sqrt_pos w). pose proof (Rabs_triang x y). nra.
Qed.
Lemma mink_w nc nq m w (x y : nat -> nat -> nat -> R) : (forall c q, (c < nc)%nat -> (q < nq)%nat -> 0 <= w c q) ->
  sqrt (weighted_sum nc nq m w (fun c q k => (x c q k + y c q k) ^ 2)) <= sqrt (weighted_sum nc nq m w (fun c q k => x c q k ^ 2)) + sqrt (weighted_sum nc nq m w (fun c q k => y c q k ^ 2)).
Proof.
  intros W. assert (P : forall z : nat -> nat -> nat -> R, forall c q k, (c < nc)%nat -> (q < nq)%nat -> 0 <= z c q k ^ 2 * w c q) by (intros; apply Rmult_le_pos; [apply pow2_ge_0|auto]).
  unfold weighted_sum. apply mink_sum. intros c Hc. repeat split; try (apply Rsum_nonneg; intros q Hq; apply Rsum_nonneg; intros k Hk; apply P with (z := fun c q k => x c q k + y c q k) || apply P; auto).
  apply mink_sum. intros q Hq. repeat split; try (apply Rsum_nonneg; intros k Hk; apply P with (z := fun c q k => x c q k + y c q k) || apply P; auto).
  apply mink_sum. intros k Hk. repeat split; try (apply P with (z := fun c q k => x c q k + y c q k) || apply P; auto). apply mink_term. auto.
Qed.

(** ** The norms *)
Section Norms.
  Variables (P : list (list Rops)) (f : fe Rops).
  Definition val_err (sol : list (list Rops)) (u : list Rops -> list Rops) (c q k : nat) : R := convert_from_dof_to_quad f sol c q k - nth k (u (quad_point_of P f c q)) 0.
  Lemma val_sum_w sol u : val_sum P f sol u = weighted_sum (num_cells f) (num_quads f) (vec f) (get_JxW P f) (fun c q k => val_err sol u c q k ^ 2).
  Proof. reflexivity. Qed.
  Lemma val_nonneg sol u : nonnegative_measures P f -> 0 <= val_sum P f sol u.
  Proof. intros W. rewrite val_sum_w. apply wsum_nonneg; [exact W|]. intros. apply pow2_ge_0. Qed.
  Lemma grad_nonneg sol J : nonnegative_measures P f -> 0 <= grad_sum P f sol J.
  Proof. intros W. unfold grad_sum. apply Rsum_nonneg. intros c Hc. apply Rsum_nonneg. intros q Hq. apply Rsum_nonneg. intros k Hk. apply Rsum_nonneg. intros j Hj. apply Rmult_le_pos; [apply pow2_ge_0|now apply W]. Qed.
  Lemma grad_sum_w sol J : grad_sum P f sol J = weighted_sum (num_cells f) (num_quads f) (vec f) (get_JxW P f) (fun c q k => sum (dim f) (fun j => (sol_to_grad P f sol c q k j - J (quad_point_of P f c q) k j) ^ 2)).
  Proof.
    unfold grad_sum, weighted_sum. apply Rsum_ext. intros c _. apply Rsum_ext. intros q _. apply Rsum_ext. intros k _.
    transitivity (sum (dim f) (fun j => get_JxW P f c q * (sol_to_grad P f sol c q k j - J (quad_point_of P f c q) k j) ^ 2)); [apply Rsum_ext; intros; apply Rmult_comm|]. rewrite Rsum_mul. apply Rmult_comm.
  Qed.
  Lemma pos_nonneg : positive_measures P f -> nonnegative_measures P f.
  Proof. intros H c q Hc Hq. apply Rlt_le. now apply H. Qed.

  Lemma l2_norm sol u : nonnegative_measures P f -> exists e, compute_l2_norm_error P f sol u = Some e /\ 0 <= e /\
    e ^ 2 = weighted_sum (num_cells f) (num_quads f) (vec f) (get_JxW P f) (fun c q k => (convert_from_dof_to_quad f sol c q k - nth k (u (quad_point_of P f c q)) 0) ^ 2).
  Proof.
    intros W. pose proof (val_nonneg sol u W) as N. exists (sqrt (val_sum P f sol u)). split; [now apply np_sqrt_ok|]. split; [apply sqrt_pos|]. rewrite <- Rsqr_pow2. now apply Rsqr_sqrt.
  Qed.
  Lemma l2_zero sol u : positive_measures P f -> (compute_l2_norm_error P f sol u = Some 0 <->
    forall c q k, (c < num_cells f)%nat -> (q < num_quads f)%nat -> (k < vec f)%nat -> convert_from_dof_to_quad f sol c q k = nth k (u (quad_point_of P f c q)) 0).
  Proof.
    intros W. unfold compute_l2_norm_error. rewrite np_sqrt_zero, val_sum_w. split.
    - intros E c q k Hc Hq Hk. pose proof (wsum_zero_inv _ _ _ _ _ W (fun c q k _ _ _ => pow2_ge_0 (val_err sol u c q k)) E c q k Hc Hq Hk) as Z.
      cbn beta in Z. rewrite <- Rsqr_pow2 in Z. apply Rsqr_0_uniq in Z. unfold val_err in Z. apply Rminus_diag_uniq. exact Z.
    - intros H. apply wsum_zero. intros c q k Hc Hq Hk. unfold val_err. pose proof (H c q k Hc Hq Hk) as Z. apply Rminus_diag_eq in Z. etransitivity; [exact (f_equal (fun z => z ^ 2) Z)|]. ring.
  Qed.
  Lemma h1_norm jacrev sol u : nonnegative_measures P f -> exists e0 e1, compute_l2_norm_error P f sol u = Some e0 /\ compute_h1_norm_error jacrev P f sol u = Some e1 /\ 0 <= e0 <= e1 /\
    (e1 - e0) ^ 2 = weighted_sum (num_cells f) (num_quads f) (vec f) (get_JxW P f) (fun c q k => sum (dim f) (fun j => (sol_to_grad P f sol c q k j - jacrev u (quad_point_of P f c q) k j) ^ 2)).
  Proof.
    intros W. pose proof (val_nonneg sol u W) as N. pose proof (grad_nonneg sol (jacrev u) W) as G. exists (sqrt (val_sum P f sol u)), (sqrt (val_sum P f sol u) + sqrt (grad_sum P f sol (jacrev u))).
    split; [now apply np_sqrt_ok|]. split; [unfold compute_h1_norm_error; now rewrite !np_sqrt_ok|]. pose proof (sqrt_pos (val_sum P f sol u)). pose proof (sqrt_pos (grad_sum P f sol (jacrev u))). split; [lra|].
    rewrite <- grad_sum_w. replace (sqrt (val_sum P f sol u) + sqrt (grad_sum P f sol (jacrev u)) - sqrt (val_sum P f sol u)) with (sqrt (grad_sum P f sol (jacrev u))) by ring. rewrite <- Rsqr_pow2. now apply Rsqr_sqrt.
  Qed.
  Lemma grad_zero sol J : (forall c q k j, (c < num_cells f)%nat -> (q < num_quads f)%nat -> (k < vec f)%nat -> (j < dim f)%nat -> sol_to_grad P f sol c q k j = J (quad_point_of P f c q) k j) -> grad_sum P f sol J = 0.
  Proof.
    intros H. rewrite grad_sum_w. apply wsum_zero. intros c q k Hc Hq Hk. transitivity (sum (dim f) (fun j => 0 * 0)); [|rewrite Rsum_mul; ring].
    apply Rsum_ext. intros j Hj. pose proof (H c q k j Hc Hq Hk Hj) as Z. apply Rminus_diag_eq in Z. etransitivity; [exact (f_equal (fun z => z ^ 2) Z)|]. ring.
  Qed.
  Lemma val_zero sol u : (forall c q k, (c < num_cells f)%nat -> (q < num_quads f)%nat -> (k < vec f)%nat -> convert_from_dof_to_quad f sol c q k = nth k (u (quad_point_of P f c q)) 0) -> val_sum P f sol u = 0.
  Proof.
    intros H. rewrite val_sum_w. apply wsum_zero. intros c q k Hc Hq Hk. unfold val_err. pose proof (H c q k Hc Hq Hk) as Z. apply Rminus_diag_eq in Z. etransitivity; [exact (f_equal (fun z => z ^ 2) Z)|]. ring.
  Qed.
  Lemma h1_of jacrev sol u : val_sum P f sol u = 0 -> grad_sum P f sol (jacrev u) = 0 -> compute_h1_norm_error jacrev P f sol u = Some 0.
  Proof. intros E F. unfold compute_h1_norm_error. rewrite E, F, (proj2 (np_sqrt_zero 0) eq_refl). cbn. now rewrite Rplus_0_r. Qed.
  Lemma h1_zero jacrev sol u : positive_measures P f -> (compute_h1_norm_error jacrev P f sol u = Some 0 <->
    (forall c q k, (c < num_cells f)%nat -> (q < num_quads f)%nat -> (k < vec f)%nat -> convert_from_dof_to_quad f sol c q k = nth k (u (quad_point_of P f c q)) 0) /\
    (forall c q k j, (c < num_cells f)%nat -> (q < num_quads f)%nat -> (k < vec f)%nat -> (j < dim f)%nat -> sol_to_grad P f sol c q k j = jacrev u (quad_point_of P f c q) k j)).
  Proof.
    intros W. split.
    - intros E. destruct (h1_norm jacrev sol u (pos_nonneg W)) as (e0 & e1 & L & H & B & D). rewrite E in H. injection H as H. assert (e0 = 0) by lra. subst e0. split; [now apply (l2_zero sol u W)|].
      intros c q k j Hc Hq Hk Hj. rewrite <- H in D. replace ((0 - 0) ^ 2) with 0 in D by ring. symmetry in D.
      assert (N : forall c q k, (c < num_cells f)%nat -> (q < num_quads f)%nat -> (k < vec f)%nat -> 0 <= sum (dim f) (fun j => (sol_to_grad P f sol c q k j - jacrev u (quad_point_of P f c q) k j) ^ 2)) by (intros; apply Rsum_nonneg; intros; apply pow2_ge_0).
      pose proof (wsum_zero_inv _ _ _ _ _ W N D c q k Hc Hq Hk) as Z. cbn beta in Z. pose proof (Rsum_zero_all _ _ (fun j _ => pow2_ge_0 _) Z j Hj) as Y. cbn beta in Y. rewrite <- Rsqr_pow2 in Y. apply Rsqr_0_uniq in Y. now apply Rminus_diag_uniq.
    - intros (H1 & H2). apply h1_of; [now apply val_zero|now apply grad_zero].
  Qed.
  (** the distance of two solutions bounds the difference of their errors *)
  Lemma l2_triangle sol1 sol2 diff u e1 e2 e3 : nonnegative_measures P f -> combination (K := Rops) 1 1 sol2 diff sol1 ->
    compute_l2_norm_error P f sol1 u = Some e1 -> compute_l2_norm_error P f sol2 u = Some e2 -> compute_l2_norm_error P f diff (fun _ => []) = Some e3 -> e1 <= e2 + e3.
  Proof.
    intros W C E1 E2 E3. unfold compute_l2_norm_error in *. rewrite np_sqrt_ok in E1, E2, E3 by now apply val_nonneg. injection E1 as <-. injection E2 as <-. injection E3 as <-. rewrite !val_sum_w.
    eapply Rle_trans; [|apply (mink_w _ _ _ _ (val_err sol2 u) (val_err diff (fun _ => []))); exact W]. apply Req_le. f_equal.
    unfold weighted_sum. apply Rsum_ext. intros c _. apply Rsum_ext. intros q _. apply Rsum_ext. intros k _. f_equal. f_equal. unfold val_err.
    pose proof (interp_combination Rops_ring f 1 1 sol2 diff sol1 (shape_vals f q) c k C) as E. change (convert_from_dof_to_quad f sol1 c q k = 1 * convert_from_dof_to_quad f sol2 c q k + 1 * convert_from_dof_to_quad f diff c q k) in E.
    rewrite E. destruct k; cbn [nth]; ring.
  Qed.
End Norms.

(** ** Derivatives along the coordinates *)
Lemma put_same x i t : (i < length x)%nat -> nth i (put x i t) 0 = t.
Proof. intros H. unfold put. rewrite app_nth2; rewrite firstn_length_le by lia; [|lia]. now rewrite Nat.sub_diag. Qed.
Lemma put_other x i j t : (i < length x)%nat -> j <> i -> nth j (put x i t) 0 = nth j x 0.
Proof.
  intros H N. unfold put. destruct (Nat.lt_ge_cases j i) as [L|L].
  - rewrite app_nth1 by (rewrite firstn_length_le; lia). now rewrite nth_firstn by lia.
  - rewrite app_nth2; rewrite firstn_length_le by lia; [|lia]. destruct (j - i)%nat as [|n] eqn:E; [lia|]. cbn [nth]. rewrite nth_skipn. f_equal. lia.
Qed.
Lemma put_length x i t : (i < length x)%nat -> length (put x i t) = length x.
Proof. intros H. unfold put. rewrite app_length. cbn [length]. rewrite firstn_length_le, skipn_length by lia. lia. Qed.
Lemma deriv_eq (f : R -> R) x a b : derivable_pt_lim f x a -> b = a -> derivable_pt_lim f x b.
Proof. now intros H ->. Qed.
Lemma deriv_ext (f g : R -> R) x l : (forall t, f t = g t) -> derivable_pt_lim g x l -> derivable_pt_lim f x l.
Proof. intros E H e He. destruct (H e He) as (r & Hr). exists r. intros h Hh Lh. rewrite !E. now apply Hr. Qed.
Lemma deriv_coord x i j : (i < length x)%nat -> derivable_pt_lim (fun t => nth j (put x i t) 0) (nth i x 0) (if (j =? i)%nat then 1 else 0).
Proof.
  intros H. destruct (Nat.eqb_spec j i) as [->|N].
  - eapply deriv_ext; [intros t; now apply put_same|]. apply derivable_pt_lim_id.
  - eapply deriv_ext; [intros t; now apply put_other|]. apply derivable_pt_lim_const.
Qed.
Lemma deriv_sum n (g : nat -> R -> R) x (l : nat -> R) : (forall i, (i < n)%nat -> derivable_pt_lim (g i) x (l i)) -> derivable_pt_lim (fun t => sum n (fun i => g i t)) x (sum n l).
Proof.
  induction n as [|n IH]; intros H.
  - change (derivable_pt_lim (fun _ => 0) x 0). apply derivable_pt_lim_const.
  - eapply deriv_ext; [intros t; apply sum_S|]. rewrite sum_S. apply (derivable_pt_lim_plus (fun t => sum n (fun i => g i t)) (g n)); auto.
Qed.
Lemma affine_derivative (A : nat -> nat -> R) b (u : list Rops -> list Rops) d k x j : (forall x, length x = d -> nth k (u x) 0 = affine (K := Rops) d A b (fun i => nth i x 0) k) -> length x = d -> (j < d)%nat ->
  derivable_pt_lim (fun t => nth k (u (put x j t)) 0) (nth j x 0) (A k j).
Proof.
  intros U L Hj. eapply deriv_ext; [intros t; apply U; rewrite put_length; [exact L|now rewrite L]|]. unfold affine.
  eapply deriv_eq; [apply derivable_pt_lim_plus; [apply deriv_sum; intros m Hm; apply derivable_pt_lim_scal; apply deriv_coord; now rewrite L|apply derivable_pt_lim_const]|].
  rewrite Rplus_0_r. rewrite <- (Rsum_delta d j (A k)) by exact Hj. apply Rsum_ext. intros m Hm. rewrite Nat.eqb_sym. apply Rmult_comm.
Qed.
Lemma quadratic_ext d c b A (x y : nat -> R) : (forall i, (i < d)%nat -> x i = y i) -> quadratic_field (K := Rops) d c b A x = quadratic_field (K := Rops) d c b A y.
Proof.
  intros E. unfold quadratic_field. f_equal; [f_equal|]; apply Rsum_ext; intros i Hi; [now rewrite E|]. apply Rsum_ext. intros j Hj. now rewrite !E.
Qed.
Lemma quadratic_derivative d c b A (u : list Rops -> list Rops) k x m : (forall x, length x = d -> nth k (u x) 0 = quadratic_field (K := Rops) d c b A (fun i => nth i x 0)) -> length x = d -> (m < d)%nat ->
  derivable_pt_lim (fun t => nth k (u (put x m t)) 0) (nth m x 0) (quadratic_gradient (K := Rops) d b A (fun i => nth i x 0) m).
Proof.
  intros U L Hm. assert (Hm' : (m < length x)%nat) by now rewrite L. eapply deriv_ext; [intros t; apply U; rewrite put_length; [exact L|exact Hm']|]. unfold quadratic_field.
  assert (Z : forall i, nth i (put x m (nth m x 0)) 0 = nth i x 0) by (intros i; destruct (Nat.eq_dec i m) as [->|N]; [now apply put_same|now apply put_other]).
  eapply deriv_eq; [apply derivable_pt_lim_plus; [apply derivable_pt_lim_plus; [apply derivable_pt_lim_const|apply deriv_sum; intros i Hi; apply derivable_pt_lim_scal; now apply deriv_coord]|
    apply deriv_sum; intros i Hi; apply deriv_sum; intros j Hj; apply derivable_pt_lim_scal; apply derivable_pt_lim_mult; now apply deriv_coord]|].
  rewrite Rplus_0_l. unfold quadratic_gradient. apply (f_equal2 Rplus).
  - rewrite <- (Rsum_delta d m b) by exact Hm. apply Rsum_ext. intros i Hi. rewrite Nat.eqb_sym. apply Rmult_comm.
  - transitivity (sum d (fun i => (if (m =? i)%nat then 1 else 0) * sum d (fun l => A i l * nth l x 0) + A i m * nth i x 0)).
    + rewrite Rsum_plus, Rsum_delta by exact Hm. rewrite <- Rsum_plus. apply Rsum_ext. intros l Hl. unfold mul, add, Rops; cbn beta iota; req; ring.
    + apply Rsum_ext. intros i Hi. rewrite <- Rsum_mul. rewrite <- (Rsum_delta d m (fun j => A i j * nth i x 0)) by exact Hm. rewrite <- Rsum_plus. apply Rsum_ext. intros j Hj. rewrite !Z, (Nat.eqb_sym i m), (Nat.eqb_sym j m). req. ring.
Qed.

(** ** Fields that the elements contain *)
Section Exact.
  Variables (s : string) (d : nat) (f : fe Rops) (P : list (list Rops)).
  Hypothesis B : built_element s d f.
  Hypothesis PTS : length P = length (points f).
  Lemma qp_nth c q i : (i < dim f)%nat -> nth i (quad_point_of P f c q) 0 = get_physical_quad_points P f c q i.
  Proof.
    intros H. unfold quad_point_of. rewrite (nth_indep _ 0 (get_physical_quad_points P f c q 0)) by (rewrite map_length, seq_length; exact H).
    rewrite (map_nth (get_physical_quad_points P f c q)). now rewrite seq_nth by exact H.
  Qed.
  Lemma qp_length c q : length (quad_point_of P f c q) = dim f.
  Proof. unfold quad_point_of. now rewrite map_length, seq_length. Qed.
  Lemma the_dim : dim f = d.
  Proof. destruct B as (_ & _ & _ & sq & qd & fq & nm & p0 & cl & v & dr & BB). now apply (built_dim _ _ _ _ _ _ _ _ _ _ _ BB). Qed.
  Lemma affine_exact A b sol u : samples d (vec f) A b P sol -> (forall x k, length x = d -> (k < vec f)%nat -> nth k (u x) 0 = affine (K := Rops) d A b (fun i => nth i x 0) k) ->
    compute_l2_norm_error P f sol u = Some 0 /\ (nonzero_measures P f -> forall jacrev, (forall x, length x = d -> jacobian_of (vec f) u x (jacrev u x)) -> compute_h1_norm_error jacrev P f sol u = Some 0).
  Proof.
    intros S U. pose proof the_dim as D. destruct B as (LAG & DIM & MESH & sq & qd & fq & nm & p0 & cl & v & dr & BB).
    assert (V : val_sum P f sol u = 0).
    { apply val_zero. intros c q k Hc Hq Hk. pose proof (quad_affine Rops_ring _ _ _ _ _ _ _ _ _ _ _ BB LAG MESH DIM P PTS A b sol S c q k Hc Hk) as E. etransitivity; [exact E|]. symmetry. etransitivity; [apply U; [now rewrite qp_length|exact Hk]|].
      unfold affine. f_equal. apply Rsum_ext. intros i Hi. f_equal. apply qp_nth. now rewrite D. }
    split; [unfold compute_l2_norm_error; now apply np_sqrt_zero|]. intros NZ jacrev J. apply h1_of; [exact V|]. apply grad_zero. intros c q k j Hc Hq Hk Hj. rewrite D in Hj.
    etransitivity; [exact (grad_affine Rops_field _ _ _ _ _ _ _ _ _ _ _ BB LAG MESH DIM P PTS A b sol c q k j S Hc Hk Hj (NZ c q Hc Hq))|].
    assert (LX : length (quad_point_of P f c q) = d) by now rewrite qp_length.
    eapply uniqueness_limite; [|exact (J _ LX k j Hk (eq_ind_r (fun n => (j < n)%nat) Hj LX))]. exact (affine_derivative A b u d k _ j (fun x L => U x k L Hk) LX Hj).
  Qed.
  Lemma quadratic_exact cst b A sol u : In s quadratic_names -> affine_mesh s P f d -> samples_quadratic d (vec f) cst b A P sol ->
    (forall x k, length x = d -> (k < vec f)%nat -> nth k (u x) 0 = quadratic_field (K := Rops) d (cst k) (b k) (A k) (fun i => nth i x 0)) ->
    compute_l2_norm_error P f sol u = Some 0 /\ (nonzero_measures P f -> forall jacrev, (forall x, length x = d -> jacobian_of (vec f) u x (jacrev u x)) -> compute_h1_norm_error jacrev P f sol u = Some 0).
  Proof.
    intros QUA AM S U. pose proof the_dim as D. destruct B as (LAG & DIM & MESH & sq & qd & fq & nm & p0 & cl & v & dr & BB).
    assert (HALF : add (o := Rops) (/ 2) (/ 2) = one) by (change (/ 2 + / 2 = 1); lra).
    assert (V : val_sum P f sol u = 0).
    { apply val_zero. intros c q k Hc Hq Hk. destruct (AM c Hc) as (M & t & AC). pose proof (quad_quadratic Rops_field _ _ _ _ _ _ _ _ _ _ _ BB QUA MESH DIM P PTS (/ 2) M t c HALF Hc AC cst b A sol S q k Hk) as E.
      etransitivity; [exact E|]. symmetry. etransitivity; [apply U; [now rewrite qp_length|exact Hk]|].
      apply quadratic_ext. intros i Hi. apply qp_nth. now rewrite D. }
    split; [unfold compute_l2_norm_error; now apply np_sqrt_zero|]. intros NZ jacrev J. apply h1_of; [exact V|]. apply grad_zero. intros c q k j Hc Hq Hk Hj. rewrite D in Hj.
    destruct (AM c Hc) as (M & t & AC).
    etransitivity; [exact (grad_quadratic_field Rops_field _ _ _ _ _ _ _ _ _ _ _ BB QUA MESH DIM P PTS (/ 2) M t c HALF Hc AC cst b A sol S q k j Hk Hj (NZ c q Hc Hq))|].
    assert (LX : length (quad_point_of P f c q) = d) by now rewrite qp_length.
    eapply uniqueness_limite; [|exact (J _ LX k j Hk (eq_ind_r (fun n => (j < n)%nat) Hj LX))].
    eapply deriv_eq; [exact (quadratic_derivative d (cst k) (b k) (A k) u k _ j (fun x L => U x k L Hk) LX Hj)|]. unfold quadratic_gradient. f_equal. apply Rsum_ext. intros l Hl. f_equal. symmetry. apply qp_nth. now rewrite D.
  Qed.
End Exact.
