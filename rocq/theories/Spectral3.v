(** Every symmetric 3 x 3 real matrix has an orthonormal basis of eigenvectors, as a function: a witness of [eigh_ok 3]. *)
From Coq Require Import Reals List Arith Lia Lra Psatz Bool.
From Verif Require Import Num Elastic ElasticFacts Plasticity SpecEigen EigenMore Fe HyperElastic SpecHyper HyperFacts.
Import ListNotations.
Local Open Scope R_scope.
Local Notation sum := (sum_n (K := Rops)).

(** ** a cubic has a root *)
Lemma cubic_alg (A B C N : R) : 0 <= A -> 0 <= B -> 0 <= C -> N = 1 + A + B + C -> A * (N * N) + B * N + C < N * N * N.
Proof.
  intros HA HB HC E. assert (1 <= N) by lra. assert (N <= N * N) by nra.
  assert (B * N <= B * (N * N)) by nra. assert (C <= C * (N * N)) by nra. assert (N * N * N = N * N + A * (N * N) + B * (N * N) + C * (N * N)) by (rewrite E at 3; ring). lra.
Qed.
Lemma abs_prod (a x : R) : - (Rabs a * Rabs x) <= a * x <= Rabs a * Rabs x.
Proof. rewrite <- Rabs_mult. pose proof (Rle_abs (a * x)). pose proof (Rle_abs (- (a * x))). rewrite Rabs_Ropp in *. lra. Qed.
Lemma cubic_root (a b c : R) : { t : R | t * t * t - a * (t * t) + b * t - c = 0 }.
Proof.
  set (f := fun t => t * t * t - a * (t * t) + b * t - c). set (N := 1 + Rabs a + Rabs b + Rabs c).
  pose proof (Rabs_pos a). pose proof (Rabs_pos b). pose proof (Rabs_pos c).
  pose proof (cubic_alg _ _ _ N H H0 H1 eq_refl) as HN. assert (P : 0 <= N) by (unfold N; lra).
  destruct (IVT_cor f (- N) N) as (z & _ & Z).
  - unfold f. intros x. reg.
  - lra.
  - pose proof (abs_prod a (N * N)) as X1. pose proof (abs_prod b N) as X2. pose proof (abs_prod c 1) as X3. rewrite Rabs_R1 in X3. rewrite (Rabs_right N) in X2 by lra. rewrite (Rabs_right (N * N)) in X1 by nra.
    assert (f (- N) <= 0) by (unfold f; lra). assert (0 <= f N) by (unfold f; lra). nra.
  - exists z. exact Z.
Qed.
(** ** the kernel of a singular matrix *)
Definition vec3 : Type := (R * R * R)%type.
Definition dot3 (u v : vec3) : R := let '(a, b, c) := u in let '(x, y, z) := v in a * x + b * y + c * z.
Definition cross (u v : vec3) : vec3 := let '(a, b, c) := u in let '(x, y, z) := v in (b * z - c * y, c * x - a * z, a * y - b * x).
Lemma cross_l u v : dot3 u (cross u v) = 0. Proof. destruct u as ((a, b), c), v as ((x, y), z). cbn. ring. Qed.
Lemma cross_r u v : dot3 v (cross u v) = 0. Proof. destruct u as ((a, b), c), v as ((x, y), z). cbn. ring. Qed.
Lemma cycle u v w : dot3 u (cross v w) = dot3 v (cross w u). Proof. destruct u as ((a, b), c), v as ((x, y), z), w as ((k, l), m). cbn. ring. Qed.
Lemma binet r s v : dot3 r r * dot3 s v = dot3 r s * dot3 r v + dot3 (cross r s) (cross r v).
Proof. destruct r as ((a, b), c), s as ((x, y), z), v as ((k, l), m). cbn. ring. Qed.
Lemma sq3 (x y z : R) : x * x + y * y + z * z = 0 -> x = 0 /\ y = 0 /\ z = 0.
Proof. intros H. pose proof (Rle_0_sqr x). pose proof (Rle_0_sqr y). pose proof (Rle_0_sqr z). unfold Rsqr in *. repeat split; nra. Qed.
Lemma dot_zero r v : dot3 r r = 0 -> dot3 r v = 0.
Proof. destruct r as ((a, b), c), v as ((x, y), z). cbn. intros H. destruct (sq3 _ _ _ H) as (-> & -> & ->). ring. Qed.
Lemma perp r : { v | dot3 v v <> 0 /\ dot3 r v = 0 }.
Proof.
  destruct r as ((a, b), c). destruct (Req_EM_T (a * a + b * b) 0) as [E|E].
  - exists (1, 0, 0). cbn. destruct (sq3 a b 0 ltac:(lra)) as (-> & _ & _). split; lra.
  - exists (- b, a, 0). cbn. split; [intros X; apply E; lra|ring].
Qed.
Lemma parallel r s v : dot3 r r <> 0 -> dot3 (cross r s) (cross r s) = 0 -> dot3 r v = 0 -> dot3 s v = 0.
Proof. intros N C V. pose proof (binet r s v) as B. rewrite V, (dot_zero (cross r s) _ C) in B. apply (Rmult_eq_reg_l (dot3 r r)); [|exact N]. rewrite B. ring. Qed.
Lemma anti r s : dot3 (cross r s) (cross r s) = dot3 (cross s r) (cross s r). Proof. destruct r as ((a, b), c), s as ((x, y), z). cbn. ring. Qed.
Lemma kernel r0 r1 r2 : dot3 r0 (cross r1 r2) = 0 -> { v | dot3 v v <> 0 /\ dot3 r0 v = 0 /\ dot3 r1 v = 0 /\ dot3 r2 v = 0 }.
Proof.
  intros D. pose proof D as D1. rewrite cycle in D1. pose proof D1 as D2. rewrite cycle in D2.
  destruct (Req_EM_T (dot3 (cross r1 r2) (cross r1 r2)) 0) as [C12|C12]; [|exists (cross r1 r2); repeat split; auto using cross_l, cross_r].
  destruct (Req_EM_T (dot3 (cross r2 r0) (cross r2 r0)) 0) as [C20|C20]; [|exists (cross r2 r0); repeat split; auto using cross_l, cross_r].
  destruct (Req_EM_T (dot3 (cross r0 r1) (cross r0 r1)) 0) as [C01|C01]; [|exists (cross r0 r1); repeat split; auto using cross_l, cross_r].
  destruct (Req_EM_T (dot3 r0 r0) 0) as [Z0|Z0].
  - destruct (Req_EM_T (dot3 r1 r1) 0) as [Z1|Z1].
    + destruct (perp r2) as (v & N & V). exists v. repeat split; auto using dot_zero.
    + destruct (perp r1) as (v & N & V). exists v. repeat split; auto using dot_zero. exact (parallel r1 r2 v Z1 C12 V).
  - destruct (perp r0) as (v & N & V). exists v. repeat split; auto; [exact (parallel r0 r1 v Z0 C01 V)|]. rewrite anti in C20. exact (parallel r0 r2 v Z0 C20 V).
Qed.
Lemma unit_of v : dot3 v v <> 0 -> { n : R | n <> 0 /\ n * n = dot3 v v }.
Proof.
  intros N. exists (sqrt (dot3 v v)). assert (P : 0 <= dot3 v v) by (destruct v as ((a, b), c); cbn; nra). split; [|now apply sqrt_sqrt].
  intros E. apply N. now apply sqrt_eq_0.
Qed.
Definition times3 (k : R) (v : vec3) : vec3 := let '(a, b, c) := v in (k * a, k * b, k * c).
Lemma dot_times r k v : dot3 r (times3 k v) = k * dot3 r v. Proof. destruct r as ((a, b), c), v as ((x, y), z). cbn. ring. Qed.
Lemma times_dot r k v : dot3 (times3 k r) v = k * dot3 r v. Proof. destruct r as ((a, b), c), v as ((x, y), z). cbn. ring. Qed.
Lemma eigenpair (a b c d e f : R) : { tv : R * vec3 | let (t, v) := tv in dot3 v v = 1 /\ let '(x, y, z) := v in a * x + b * y + c * z = t * x /\ b * x + d * y + e * z = t * y /\ c * x + e * y + f * z = t * z }.
Proof.
  destruct (cubic_root (a + d + f) (a * d - b * b + (a * f - c * c) + (d * f - e * e)) (a * (d * f - e * e) - b * (b * f - e * c) + c * (b * e - d * c))) as (t & T).
  destruct (kernel (a - t, b, c) (b, d - t, e) (c, e, f - t)) as (v & N & K0 & K1 & K2); [cbn; rewrite <- Ropp_0, <- T; ring|].
  destruct (unit_of v N) as (n & N0 & NN). exists (t, times3 (/ n) v). split.
  - rewrite dot_times, times_dot, <- NN. field. exact N0.
  - destruct v as ((x, y), z). cbn in *. assert (I : forall l r, l - r = 0 -> / n * l = / n * r) by (intros l r E; now replace l with r by lra).
    pose proof (I (a * x + b * y + c * z) (t * x) ltac:(lra)). pose proof (I (b * x + d * y + e * z) (t * y) ltac:(lra)). pose proof (I (c * x + e * y + f * z) (t * z) ltac:(lra)). repeat split; lra.
Qed.
Lemma complete v : dot3 v v = 1 -> { u | dot3 u u = 1 /\ dot3 v u = 0 }.
Proof.
  intros _. destruct (perp v) as (u & N & V). destruct (unit_of u N) as (n & N0 & NN). exists (times3 (/ n) u). rewrite !dot_times, times_dot, V, <- NN. split; [field; exact N0|ring].
Qed.
(** ** the basis *)
Definition cols (v u w : vec3) : tensor := fun i j =>
  let pick (x : vec3) := let '(a, b, c) := x in match i with 0%nat => a | 1%nat => b | 2%nat => c | _ => 0 end in
  match j with 0%nat => pick v | 1%nat => pick u | 2%nat => pick w | _ => 0 end.
Lemma three i : (i < 3)%nat -> i = 0%nat \/ i = 1%nat \/ i = 2%nat. Proof. lia. Qed.
Ltac ij := intros i j Hi Hj; destruct (three i Hi) as [->|[->| ->]], (three j Hj) as [->|[->| ->]].
Lemma cols_left v u : dot3 v v = 1 -> dot3 u u = 1 -> dot3 v u = 0 -> same 3 (product 3 (transposed (cols v u (cross v u))) (cols v u (cross v u))) identity.
Proof.
  destruct v as ((a, b), c), u as ((x, y), z). cbn [dot3 cross]. intros V U W.
  assert (L : (b * z - c * y) * (b * z - c * y) + (c * x - a * z) * (c * x - a * z) + (a * y - b * x) * (a * y - b * x) = 1).
  { transitivity ((a * a + b * b + c * c) * (x * x + y * y + z * z) - (a * x + b * y + c * z) * (a * x + b * y + c * z)); [ring|rewrite V, U, W; ring]. }
  ij; unfold product, transposed, identity; rewrite rsum3; cbn; req; lra.
Qed.
Definition D3 : ok_dim 3 := or_intror eq_refl.
Lemma left_right Q : same 3 (product 3 (transposed Q) Q) identity -> orthonormal 3 Q.
Proof.
  intros H. assert (N : det (K := Rops) 3 Q <> 0) by (pose proof (det_same 3 _ _ H) as E; rewrite det_product, det_t, det_1 in E by exact D3; intros Z; rewrite Z in E; lra).
  split; [exact H|]. apply (same_trans 3 _ (product 3 Q (inv_mat (K := Rops) 3 Q))); [|apply inv_r; [exact D3|exact N]]. apply product_ext; [apply same_refl|]. apply inv_unique; [exact D3|exact N|exact H].
Qed.
Lemma product_orthonormal A B : orthonormal 3 A -> orthonormal 3 B -> orthonormal 3 (product 3 A B).
Proof.
  intros (HA & _) (HB & _). apply left_right.
  apply (same_trans 3 _ (product 3 (product 3 (transposed B) (transposed A)) (product 3 A B))); [apply product_ext; [apply product_t|apply same_refl]|].
  apply (same_trans 3 _ (product 3 (transposed B) (product 3 (transposed A) (product 3 A B)))); [apply product_assoc|].
  apply (same_trans 3 _ (product 3 (transposed B) B)); [|exact HB]. apply product_ext; [apply same_refl|].
  apply (same_trans 3 _ (product 3 (product 3 (transposed A) A) B)); [apply same_sym, product_assoc|].
  apply (same_trans 3 _ (product 3 identity B)); [apply product_ext; [exact HA|apply same_refl]|apply product_1_l].
Qed.
Definition block (Q2 : tensor) : tensor := fun i j => match i, j with 0%nat, 0%nat => 1 | S i, S j => Q2 i j | _, _ => 0 end.
Lemma block_orthonormal Q2 : orthonormal 2 Q2 -> orthonormal 3 (block Q2).
Proof.
  intros (H & _). apply left_right.
  assert (E : forall i j, (i < 2)%nat -> (j < 2)%nat -> Q2 0%nat i * Q2 0%nat j + (Q2 1%nat i * Q2 1%nat j + 0) = (if (i =? j)%nat then 1 else 0)) by (intros i j Hi Hj; exact (H i j Hi Hj)).
  pose proof (E 0%nat 0%nat ltac:(lia) ltac:(lia)) as E00. pose proof (E 0%nat 1%nat ltac:(lia) ltac:(lia)) as E01. pose proof (E 1%nat 0%nat ltac:(lia) ltac:(lia)) as E10. pose proof (E 1%nat 1%nat ltac:(lia) ltac:(lia)) as E11. cbn in E00, E01, E10, E11.
  ij; unfold product, transposed, identity, block; rewrite rsum3; cbn; req; lra.
Qed.
Definition head_val (t : R) (w2 : nat -> R) : nat -> R := fun b => match b with 0%nat => t | S b => w2 b end.
(** S = Q (sum of w b (column b of A) (column b of A)^T) Q^T *)
Lemma turn_sum (Q A S : tensor) (w : nat -> R) : orthonormal 3 Q ->
  (forall k l, (k < 3)%nat -> (l < 3)%nat -> sum 3 (fun b => w b * (A k b * A l b)) = product 3 (product 3 (transposed Q) S) Q k l) ->
  forall i j, (i < 3)%nat -> (j < 3)%nat -> sum 3 (fun b => w b * (product 3 Q A i b * product 3 Q A j b)) = S i j.
Proof.
  intros (_ & QQ) H.
  assert (E : same 3 (fun i j => sum 3 (fun b => w b * (product 3 Q A i b * product 3 Q A j b))) (product 3 (product 3 Q (fun k l => sum 3 (fun b => w b * (A k b * A l b)))) (transposed Q))).
  { intros i j Hi Hj. unfold product, transposed. rewrite !rsum3. req. ring. }
  intros i j Hi Hj. rewrite (E i j Hi Hj). revert i j Hi Hj.
  apply (same_trans 3 _ (product 3 (product 3 Q (product 3 (product 3 (transposed Q) S) Q)) (transposed Q))); [apply product_ext; [apply product_ext; [apply same_refl|exact H]|apply same_refl]|].
  apply (same_trans 3 _ (product 3 (product 3 (product 3 Q (product 3 (transposed Q) S)) Q) (transposed Q))); [apply product_ext; [apply same_sym, product_assoc|apply same_refl]|].
  apply (same_trans 3 _ (product 3 (product 3 Q (product 3 (transposed Q) S)) (product 3 Q (transposed Q)))); [apply product_assoc|].
  apply (same_trans 3 _ (product 3 (product 3 Q (product 3 (transposed Q) S)) identity)); [apply product_ext; [apply same_refl|exact QQ]|].
  apply (same_trans 3 _ (product 3 Q (product 3 (transposed Q) S))); [apply product_1_r|].
  apply (same_trans 3 _ (product 3 (product 3 Q (transposed Q)) S)); [apply same_sym, product_assoc|].
  apply (same_trans 3 _ (product 3 identity S)); [apply product_ext; [exact QQ|apply same_refl]|apply product_1_l].
Qed.
Lemma spectral3 (x : tensor) : { wq : (nat -> R) * tensor | decomposes 3 x (fst wq) (snd wq) }.
Proof.
  set (S := strain x).
  assert (SS : forall i j, S i j = S j i) by (intros i j; unfold S, strain; req; field).
  destruct (eigenpair (S 0 0)%nat (S 0 1)%nat (S 0 2)%nat (S 1 1)%nat (S 1 2)%nat (S 2 2)%nat) as ((t, v) & VV & EV).
  destruct (complete v VV) as (u & UU & VU). set (Q0 := cols v u (cross v u)).
  assert (O0 : orthonormal 3 Q0) by (apply left_right; now apply cols_left).
  set (B := product 3 (product 3 (transposed Q0) S) Q0).
  assert (BS : forall i j, B i j = B j i).
  { intros i j. unfold B, product, transposed. rewrite !rsum3. rewrite (SS 1 0)%nat, (SS 2 0)%nat, (SS 2 1)%nat. req; ring. }
  assert (B0 : forall i, (i < 3)%nat -> B i 0%nat = t * identity i 0%nat).
  { intros i Hi. transitivity (t * product 3 (transposed Q0) Q0 i 0%nat); [|apply (f_equal (Rmult t)); exact (proj1 O0 i 0%nat Hi ltac:(lia))].
    unfold B. rewrite (product_assoc 3 _ _ _ i 0%nat Hi ltac:(lia)). unfold product at 1. transitivity (sum 3 (fun k => transposed Q0 i k * (t * Q0 k 0%nat))).
    - apply Rsum_ext. intros k Hk. apply (f_equal (Rmult (transposed Q0 i k))). unfold product. rewrite rsum3. unfold Q0, cols. destruct v as ((a, b), c). destruct EV as (E0 & E1 & E2).
      destruct (three k Hk) as [->|[->| ->]]; cbn; [rewrite <- E0|rewrite <- E1, (SS 1 0)%nat|rewrite <- E2, (SS 2 0)%nat, (SS 2 1)%nat]; req; ring.
    - unfold product. rewrite !rsum3. req; ring. }
  set (b2 := fun i j => B (Datatypes.S i) (Datatypes.S j)). exists (head_val t (fst (eigh2 b2)), product 3 Q0 (block (snd (eigh2 b2)))). cbn [fst snd]. pose proof (eigh2_ok b2) as (O2 & D2).
  split; [apply product_orthonormal; [exact O0|now apply block_orthonormal]|]. fold S.
  apply turn_sum; [exact O0|]. fold B. set (w2 := fst (eigh2 b2)) in *. set (Q2 := snd (eigh2 b2)) in *.
  assert (D2' : forall i j, (i < 2)%nat -> (j < 2)%nat -> w2 0%nat * (Q2 i 0%nat * Q2 j 0%nat) + (w2 1%nat * (Q2 i 1%nat * Q2 j 1%nat) + 0) = B (Datatypes.S i) (Datatypes.S j)).
  { intros i j Hi Hj. etransitivity; [exact (D2 i j Hi Hj)|]. unfold strain, b2. rewrite (BS (Datatypes.S j) (Datatypes.S i)). req; field. }
  pose proof (D2' 0%nat 0%nat ltac:(lia) ltac:(lia)) as E00. pose proof (D2' 0%nat 1%nat ltac:(lia) ltac:(lia)) as E01. pose proof (D2' 1%nat 0%nat ltac:(lia) ltac:(lia)) as E10. pose proof (D2' 1%nat 1%nat ltac:(lia) ltac:(lia)) as E11.
  clearbody B w2 Q2.
  pose proof (B0 0%nat ltac:(lia)) as Z0. pose proof (B0 1%nat ltac:(lia)) as Z1. pose proof (B0 2%nat ltac:(lia)) as Z2. pose proof (BS 0%nat 1%nat) as Y1. pose proof (BS 0%nat 2%nat) as Y2. unfold identity in Z0, Z1, Z2. cbn in Z0, Z1, Z2.
  intros k l Hk Hl. rewrite rsum3. clear - Hk Hl E00 E01 E10 E11 Z0 Z1 Z2 Y1 Y2.
  destruct (three k Hk) as [->|[->| ->]], (three l Hl) as [->|[->| ->]]; [rewrite Z0|rewrite Y1, Z1|rewrite Y2, Z2|rewrite Z1|rewrite <- E00|rewrite <- E01|rewrite Z2|rewrite <- E10|rewrite <- E11]; cbn; req; ring.
Qed.
Definition eigh3 (x : tensor) : (nat -> R) * tensor := proj1_sig (spectral3 x).
Lemma eigh3_ok : eigh_ok 3 eigh3. Proof. intros x. exact (proj2_sig (spectral3 x)). Qed.
