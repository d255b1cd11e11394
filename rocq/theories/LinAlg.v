(** Square linear systems over the reals: a system whose homogeneous version has only the zero solution is solvable. *)
From Coq Require Import Reals List Arith Lia Lra Bool.
From Verif Require Import Num Arr ArrFacts Fe Problem SpecAssembly SpecEnergy FeFacts ElasticFacts.
Import ListNotations.
Local Open Scope R_scope.
Local Notation sum n g := (sum_n (K := Rops) n g).

Lemma Rsum_zero_all n (g : nat -> R) : (forall i, (i < n)%nat -> 0 <= g i) -> sum_n (K := Rops) n g = 0 -> forall i, (i < n)%nat -> g i = 0.
Proof.
  induction n as [|n IH]; intros H S i Hi; [lia|]. rewrite (sum_n_S Rops_ring) in S. cbn [add Rops] in S.
  assert (A : 0 <= sum_n (K := Rops) n g) by (apply Rsum_nonneg; intros; apply H; lia). assert (B := H n ltac:(lia)).
  destruct (Nat.eq_dec i n) as [->|D]; [lra|]. apply IH; [intros; apply H; lia|lra|lia].
Qed.

Definition skip (c j : nat) : nat := if (j <? c)%nat then j else S j.
Lemma Rsum_skip n c (g : nat -> R) : (c < S n)%nat -> sum (S n) g = g c + sum n (fun j => g (skip c j)).
Proof.
  revert c. induction n as [|n IH]; intros c Hc.
  - assert (c = 0)%nat as -> by lia. rewrite (sum_n_S Rops_ring). cbn. req; ring.
  - rewrite (sum_n_S Rops_ring). cbn [add Rops]. destruct (Nat.eq_dec c (S n)) as [->|D].
    + rewrite Rplus_comm. f_equal. apply Rsum_ext. intros j Hj. unfold skip. destruct (Nat.ltb_spec j (S n)); [reflexivity|lia].
    + rewrite (IH c) by lia. rewrite (sum_n_S Rops_ring). cbn [add Rops]. unfold skip at 3. destruct (Nat.ltb_spec n c); [lia|]. req; ring.
Qed.
Lemma skip_surj n c j : (c < S n)%nat -> (j < S n)%nat -> j <> c -> exists j', (j' < n)%nat /\ skip c j' = j.
Proof.
  intros Hc Hj D. unfold skip. destruct (Nat.lt_ge_cases j c).
  - exists j. split; [lia|]. destruct (Nat.ltb_spec j c); lia.
  - exists (j - 1)%nat. split; [lia|]. destruct (Nat.ltb_spec (j - 1) c); lia.
Qed.
Lemma skip_inj c i j : skip c i = skip c j -> i = j.
Proof. unfold skip. destruct (Nat.ltb_spec i c), (Nat.ltb_spec j c); lia. Qed.
Lemma skip_ne c j : skip c j <> c.
Proof. unfold skip. destruct (Nat.ltb_spec j c); lia. Qed.
(** the position of j among the numbers different from c *)
Definition unskip (c j : nat) : nat := if (j <? c)%nat then j else (j - 1)%nat.
Lemma unskip_skip c j : unskip c (skip c j) = j.
Proof. unfold skip, unskip. destruct (Nat.ltb_spec j c); destruct (Nat.ltb_spec (if (j <? c)%nat then j else S j) c); try (destruct (Nat.ltb_spec j c)); try lia; destruct (Nat.ltb_spec (S j) c); lia. Qed.

Lemma find_nonzero n (g : nat -> R) : (exists c, (c < n)%nat /\ g c <> 0) \/ (forall c, (c < n)%nat -> g c = 0).
Proof.
  induction n as [|n IH]; [right; intros; lia|]. destruct IH as [(c & H & Z)|H]; [left; exists c; split; [lia|auto]|].
  destruct (Req_dec (g n) 0) as [Z|Z]; [right|left; exists n; split; auto]. intros c Hc. destruct (Nat.eq_dec c n) as [->|]; auto. apply H. lia.
Qed.
(** more columns than rows: the columns are dependent *)
Lemma dependent n : forall A : nat -> nat -> R, exists x : nat -> R, (exists j, (j < S n)%nat /\ x j <> 0) /\ forall i, (i < n)%nat -> sum (S n) (fun j => A i j * x j) = 0.
Proof.
  induction n as [|n IH]; intros A.
  - exists (fun _ => 1). split; [exists 0%nat; split; [lia|lra]|intros; lia].
  - destruct (find_nonzero (S (S n)) (A n)) as [(c & Hc & Z)|Z].
    + destruct (IH (fun i j => A i (skip c j) - A n (skip c j) / A n c * A i c)) as (x' & (j0 & Hj0 & N0) & E).
      set (xc := - (sum (S n) (fun j => A n (skip c j) * x' j)) / A n c).
      exists (fun j => if (j =? c)%nat then xc else x' (unskip c j)).
      assert (SP : forall i, sum (S (S n)) (fun j => A i j * (if (j =? c)%nat then xc else x' (unskip c j))) = A i c * xc + sum (S n) (fun j => A i (skip c j) * x' j)).
      { intros i. rewrite (Rsum_skip (S n) c) by auto. rewrite Nat.eqb_refl. f_equal. apply Rsum_ext. intros j Hj. pose proof (skip_ne c j).
        destruct (Nat.eqb_spec (skip c j) c); [contradiction|]. now rewrite unskip_skip. }
      split.
      * exists (skip c j0). split; [unfold skip; destruct (Nat.ltb_spec j0 c); lia|]. pose proof (skip_ne c j0). destruct (Nat.eqb_spec (skip c j0) c); [contradiction|]. now rewrite unskip_skip.
      * intros i Hi. rewrite SP. destruct (Nat.eq_dec i n) as [->|D].
        -- unfold xc. set (S0 := sum (S n) (fun j => A n (skip c j) * x' j)) in *. change (car Rops) with R in *. transitivity (- S0 + S0); [field; exact Z|ring].
        -- specialize (E i ltac:(lia)). unfold xc. etransitivity; [|exact E].
           transitivity (- (A i c / A n c) * sum (S n) (fun j => A n (skip c j) * x' j) + sum (S n) (fun j => A i (skip c j) * x' j)); [req; field; exact Z|].
           rewrite <- Rsum_mul. rewrite <- Rsum_plus. apply Rsum_ext. intros j Hj. field. exact Z.
    + destruct (IH A) as (x & (j0 & Hj0 & N0) & E). exists (fun j => if (j =? S n)%nat then 0 else x j). split.
      * exists j0. split; [lia|]. destruct (Nat.eqb_spec j0 (S n)); [lia|auto].
      * intros i Hi. rewrite (sum_n_S Rops_ring). cbn [add Rops]. rewrite Nat.eqb_refl.
        rewrite (Rsum_ext (S n) _ (fun j => A i j * x j)).
        2:{ intros j Hj. destruct (Nat.eqb_spec j (S n)); [lia|reflexivity]. }
        destruct (Nat.eq_dec i n) as [->|D].
        -- rewrite (Rsum_ext (S n) _ (fun _ => 0 * 0)). 2:{ intros j Hj. rewrite Z by lia. ring. } rewrite Rsum_mul. cbn; req; ring.
        -- rewrite E by lia. cbn; req; ring.
Qed.
Theorem solvable n (A : nat -> nat -> R) (b : nat -> R) :
  (forall x, (forall i, (i < n)%nat -> sum n (fun j => A i j * x j) = 0) -> forall j, (j < n)%nat -> x j = 0) ->
  exists x, forall i, (i < n)%nat -> sum n (fun j => A i j * x j) = b i.
Proof.
  intros INJ. destruct (dependent n (fun i j => if (j =? n)%nat then b i else A i j)) as (x & (j0 & Hj0 & N0) & E).
  assert (E' : forall i, (i < n)%nat -> sum n (fun j => A i j * x j) + b i * x n = 0).
  { intros i Hi. rewrite <- (E i Hi). rewrite (sum_n_S Rops_ring). cbn [add Rops]. rewrite Nat.eqb_refl. f_equal. apply Rsum_ext. intros j Hj. destruct (Nat.eqb_spec j n); [lia|reflexivity]. }
  destruct (Req_dec (x n) 0) as [Z|Z].
  - exfalso. assert (H : forall j, (j < n)%nat -> x j = 0). { apply INJ. intros i Hi. specialize (E' i Hi). rewrite Z in E'. lra. }
    destruct (Nat.eq_dec j0 n) as [->|D]; [auto|]. apply N0, H. lia.
  - exists (fun j => - x j / x n). intros i Hi. specialize (E' i Hi). transitivity (- / x n * sum n (fun j => A i j * x j)).
    + rewrite <- Rsum_mul. apply Rsum_ext. intros j Hj. cbn; req; field. exact Z.
    + assert (sum n (fun j => A i j * x j) = - (b i * x n)) as -> by (cbn in *; lra). cbn; req; field. exact Z.
Qed.
(** A system with prescribed values at some unknowns: definite on the others implies solvable. *)
Theorem definite_solvable n (M : nat -> nat -> R) (b : nat -> R) (held : nat -> option R) :
  (forall x, (forall g v, (g < n)%nat -> held g = Some v -> x g = 0) -> sum n (fun g => x g * sum n (fun h => M g h * x h)) = 0 -> forall g, (g < n)%nat -> x g = 0) ->
  exists x, (forall g v, (g < n)%nat -> held g = Some v -> x g = v) /\ (forall g, (g < n)%nat -> held g = None -> sum n (fun h => M g h * x h) = b g).
Proof.
  intros DEF.
  assert (DL : forall (x : nat -> R) g, (g < n)%nat -> sum n (fun h => (if (g =? h)%nat then 1 else 0) * x h) = x g) by (intros x g Hg; now apply Rsum_delta).
  destruct (solvable n (fun g h => match held g with Some _ => if (g =? h)%nat then 1 else 0 | None => M g h end) (fun g => match held g with Some v => v | None => b g end)) as (x & E).
  - intros x E. apply DEF.
    + intros g v Hg Hh. specialize (E g Hg). rewrite Hh in E. rewrite DL in E by auto. exact E.
    + transitivity (sum n (fun _ => 0 * 0)); [|rewrite Rsum_mul; req; ring]. apply Rsum_ext. intros g Hg. specialize (E g Hg). destruct (held g).
      * rewrite DL in E by auto. rewrite E. ring.
      * rewrite E. ring.
  - exists x. split.
    + intros g v Hg Hh. specialize (E g Hg). rewrite Hh in E. now rewrite DL in E.
    + intros g Hg Hh. specialize (E g Hg). now rewrite Hh in E.
Qed.

(** ** Fields of (N, m) arrays *)
Section Fields.
  Variables N m : nat.
  Local Notation zr := (@zero Rops).
  Definition fld (z : nat -> R) : list (list R) := map (fun n => map (fun k => z (n * m + k)%nat) (seq 0 m)) (seq 0 N).
  Lemma fld_shaped z : shaped N m (fld z).
  Proof.
    unfold fld. split; [now rewrite map_length, seq_length|]. intros r Hr. apply in_map_iff in Hr. destruct Hr as (n & <- & _). now rewrite map_length, seq_length.
  Qed.
  Lemma fld_get z n k : (n < N)%nat -> (k < m)%nat -> get2 zr (fld z) n k = z (n * m + k)%nat.
  Proof.
    intros Hn Hk. unfold get2, fld. rewrite (nth_map_in _ _ _ 0%nat) by now rewrite seq_length. rewrite seq_nth by auto.
    rewrite (nth_map_in _ _ _ 0%nat) by now rewrite seq_length. rewrite seq_nth by auto. reflexivity.
  Qed.
  Lemma fld_ext z z' : (forall g, (g < N * m)%nat -> z g = z' g) -> fld z = fld z'.
  Proof.
    intros H. unfold fld. apply map_ext_in. intros n Hn. apply map_ext_in. intros k Hk. apply in_seq in Hn, Hk. apply H. nia.
  Qed.
  Lemma fld_along a b t : along (K := Rops) (fld a) (fld b) t = fld (fun g => a g + t * b g).
  Proof.
    unfold along, fld. induction (seq 0 N) as [|n l IH]; [reflexivity|]. cbn [map]. unfold map2 at 1. cbn [combine map fst snd]. fold (@map2 (list R) (list R) (list R)). f_equal; [|exact IH].
    clear IH. induction (seq 0 m) as [|k l' IH]; [reflexivity|]. cbn. f_equal. exact IH.
  Qed.
  Definition unit_at (g : nat) : nat -> R := fun h => if (g =? h)%nat then 1 else 0.
  Lemma linear_sum (F : list (list R) -> R) :
    (forall x v t, shaped N m x -> shaped N m v -> F (along (K := Rops) x v t) = F x + t * F v) ->
    forall z, F (fld z) = sum (N * m) (fun g => z g * F (fld (unit_at g))).
  Proof.
    intros LIN z.
    assert (Z0 : F (fld (fun _ => 0)) = 0).
    { pose proof (LIN _ _ 1 (fld_shaped (fun _ => 0)) (fld_shaped (fun _ => 0))) as H. rewrite fld_along in H.
      rewrite (fld_ext (fun g => 0 + 1 * 0) (fun _ => 0)) in H by (intros; ring). lra. }
    assert (G : forall M, F (fld (fun g => if (g <? M)%nat then z g else 0)) = sum M (fun g => z g * F (fld (unit_at g)))).
    { induction M as [|M IH]; [exact Z0|]. rewrite (sum_n_S Rops_ring). cbn [add Rops]. rewrite <- IH. rewrite <- LIN by apply fld_shaped. f_equal.
      rewrite fld_along. apply fld_ext. intros g _. unfold unit_at. destruct (Nat.ltb_spec g (S M)), (Nat.ltb_spec g M), (Nat.eqb_spec M g); try lia; subst; ring. }
    rewrite <- G. f_equal. apply fld_ext. intros g Hg. destruct (Nat.ltb_spec g (N * m)); [reflexivity|lia].
  Qed.
  Lemma work_unit g r : (g < N * m)%nat -> work (K := Rops) N m (fld (unit_at g)) r = get2 zr r (g / m) (g mod m).
  Proof.
    intros Hg. assert (Hm : (m <> 0)%nat) by (intros ->; lia). assert (Hn : (g / m < N)%nat) by (apply Nat.div_lt_upper_bound; auto; lia).
    assert (Hk : (g mod m < m)%nat) by (apply Nat.mod_upper_bound; auto). unfold work.
    rewrite (Rsum_ext N _ (fun n => (if (g / m =? n)%nat then 1 else 0) * sum m (fun k => (if (g mod m =? k)%nat then 1 else 0) * get2 zr r n k))).
    - rewrite Rsum_delta by auto. now rewrite Rsum_delta.
    - intros n Hn'. rewrite <- Rsum_mul. apply Rsum_ext. intros k Hk'. rewrite fld_get by auto. unfold unit_at.
      assert (E : (g =? n * m + k)%nat = ((g / m =? n)%nat && (g mod m =? k)%nat)%bool).
      { apply eq_true_iff_eq. rewrite andb_true_iff, !Nat.eqb_eq. split.
        - intros ->. rewrite Nat.div_add_l by auto. rewrite Nat.div_small by auto. rewrite (Nat.add_comm (n * m) k). rewrite Nat.mod_add by auto. rewrite Nat.mod_small by auto. lia.
        - intros [<- <-]. rewrite (Nat.div_mod g m) at 1 by auto. lia. }
      rewrite E. destruct (g / m =? n)%nat, (g mod m =? k)%nat; cbn; req; ring.
  Qed.
  (** A linear residual with prescribed values: definite on the free fields implies that a solution exists. *)
  Theorem field_solvable (B : list (list R) -> list (list R) -> R) (L : list (list R) -> R) (Res : list (list R) -> list (list R)) (held : nat -> nat -> option R) :
    (forall y x v t, shaped N m y -> shaped N m x -> shaped N m v -> B (along (K := Rops) x v t) y = B x y + t * B v y) ->
    (forall y x v t, shaped N m y -> shaped N m x -> shaped N m v -> B y (along (K := Rops) x v t) = B y x + t * B y v) ->
    (forall x v, shaped N m x -> shaped N m v -> (work (K := Rops) N m v (Res x) = B x v - L v)%R) ->
    (forall d, shaped N m d -> (forall n k b, (n < N)%nat -> (k < m)%nat -> held n k = Some b -> get2 zr d n k = 0) -> B d d = 0 ->
       forall n k, (n < N)%nat -> (k < m)%nat -> get2 zr d n k = 0) ->
    exists x, shaped N m x /\ (forall n k b, (n < N)%nat -> (k < m)%nat -> held n k = Some b -> get2 zr x n k = b) /\
      (forall n k, (n < N)%nat -> (k < m)%nat -> held n k = None -> get2 zr (Res x) n k = 0).
  Proof.
    intros B1 B2 WK DEF.
    assert (DM : forall g, (g < N * m)%nat -> (g / m < N)%nat /\ (g mod m < m)%nat /\ (g / m * m + g mod m = g)%nat).
    { intros g Hg. assert (Hm : (m <> 0)%nat) by (intros ->; lia). split; [apply Nat.div_lt_upper_bound; auto; lia|]. split; [now apply Nat.mod_upper_bound|].
      rewrite (Nat.div_mod g m) at 3 by auto. lia. }
    assert (MD : forall n k, (n < N)%nat -> (k < m)%nat -> (n * m + k < N * m)%nat /\ ((n * m + k) / m = n)%nat /\ ((n * m + k) mod m = k)%nat).
    { intros n k Hn Hk. assert (Hm : (m <> 0)%nat) by lia. split; [nia|]. rewrite Nat.div_add_l by auto. rewrite Nat.div_small by auto. rewrite (Nat.add_comm (n * m) k). rewrite Nat.mod_add by auto.
      rewrite Nat.mod_small by auto. lia. }
    assert (ROW : forall z g, sum (N * m) (fun h => B (fld (unit_at h)) (fld (unit_at g)) * z h) = B (fld z) (fld (unit_at g))).
    { intros z g. rewrite (linear_sum (fun x => B x (fld (unit_at g)))); [apply Rsum_ext; intros; cbn; req; ring|]. intros x v t Sx Sv. apply B1; auto. apply fld_shaped. }
    destruct (definite_solvable (N * m) (fun g h => B (fld (unit_at h)) (fld (unit_at g))) (fun g => L (fld (unit_at g))) (fun g => held (g / m)%nat (g mod m)%nat)) as (z & H1 & H2).
    - intros z Hz Q g Hg. destruct (DM g Hg) as (Hn & Hk & E).
      rewrite <- E. rewrite <- fld_get by auto. apply DEF; auto; [apply fld_shaped| |].
      + intros n k b Hn' Hk' Hb. rewrite fld_get by auto. destruct (MD n k Hn' Hk') as (G & D & Md). apply (Hz _ b G). now rewrite D, Md.
      + rewrite <- Q. rewrite (linear_sum (fun x => B (fld z) x)); [|intros; apply B2; auto; apply fld_shaped]. apply Rsum_ext. intros h Hh. now rewrite ROW.
    - exists (fld z). split; [apply fld_shaped|]. split.
      + intros n k b Hn Hk Hb. rewrite fld_get by auto. destruct (MD n k Hn Hk) as (G & D & Md). apply (H1 _ b G). now rewrite D, Md.
      + intros n k Hn Hk Hb. destruct (MD n k Hn Hk) as (G & D & Md). pose proof (WK (fld z) (fld (unit_at (n * m + k))) (fld_shaped _) (fld_shaped _)) as W.
        rewrite work_unit in W by auto. rewrite D, Md in W. rewrite W. rewrite <- ROW. rewrite H2; [apply Rminus_diag_eq; reflexivity|auto|now rewrite D, Md].
  Qed.
  Lemma work_zero (v r : list (list R)) : (forall n k, (n < N)%nat -> (k < m)%nat -> get2 zr v n k = 0 \/ get2 zr r n k = 0) -> work (K := Rops) N m v r = 0.
  Proof.
    intros H. unfold work. transitivity (sum N (fun _ => 0 * 0)); [|rewrite Rsum_mul; req; ring]. apply Rsum_ext. intros n Hn.
    transitivity (sum m (fun _ => 0 * 0)); [|rewrite Rsum_mul; req; ring]. apply Rsum_ext. intros k Hk. cbn [mul Rops]. destruct (H n k Hn Hk) as [-> | ->]; cbn; req; ring.
  Qed.
  (** and there is only one *)
  Theorem field_unique (B : list (list R) -> list (list R) -> R) (L : list (list R) -> R) (Res : list (list R) -> list (list R)) (held : nat -> nat -> option R) :
    (forall y x v t, shaped N m y -> shaped N m x -> shaped N m v -> B (along (K := Rops) x v t) y = B x y + t * B v y) ->
    (forall x v, shaped N m x -> shaped N m v -> (work (K := Rops) N m v (Res x) = B x v - L v)%R) ->
    (forall d, shaped N m d -> (forall n k b, (n < N)%nat -> (k < m)%nat -> held n k = Some b -> get2 zr d n k = 0) -> B d d = 0 ->
       forall n k, (n < N)%nat -> (k < m)%nat -> get2 zr d n k = 0) ->
    (forall x v t n k, shaped N m x -> shaped N m v -> (n < N)%nat -> (k < m)%nat -> get2 zr (along (K := Rops) x v t) n k = get2 zr x n k + t * get2 zr v n k) ->
    (forall x v t, shaped N m x -> shaped N m v -> shaped N m (along (K := Rops) x v t)) ->
    forall x y, shaped N m x -> shaped N m y ->
    (forall n k b, (n < N)%nat -> (k < m)%nat -> held n k = Some b -> get2 zr x n k = b) -> (forall n k b, (n < N)%nat -> (k < m)%nat -> held n k = Some b -> get2 zr y n k = b) ->
    (forall n k, (n < N)%nat -> (k < m)%nat -> held n k = None -> get2 zr (Res x) n k = 0) -> (forall n k, (n < N)%nat -> (k < m)%nat -> held n k = None -> get2 zr (Res y) n k = 0) ->
    forall n k, (n < N)%nat -> (k < m)%nat -> get2 zr x n k = get2 zr y n k.
  Proof.
    intros B1 WK DEF GA SA x y SX SY HX HY ZX ZY n k Hn Hk. set (d := along (K := Rops) x y (-1)). assert (SD : shaped N m d) by (now apply SA).
    assert (HD : forall n k b, (n < N)%nat -> (k < m)%nat -> held n k = Some b -> get2 zr d n k = 0).
    { intros n' k' b Hn' Hk' Hb. unfold d. rewrite GA by auto. rewrite (HX n' k' b), (HY n' k' b) by auto. cbn; req; ring. }
    assert (W : forall z, shaped N m z -> (forall n k, (n < N)%nat -> (k < m)%nat -> held n k = None -> get2 zr (Res z) n k = 0) -> B z d = L d).
    { intros z SZ ZZ. pose proof (WK z d SZ SD) as Q. rewrite work_zero in Q; [cbn in Q; lra|]. intros n' k' Hn' Hk'. destruct (held n' k') as [b|] eqn:E; [left; now apply (HD n' k' b)|right; auto]. }
    assert (Z : B d d = 0). { unfold d at 1. rewrite B1 by auto. rewrite (W x), (W y) by auto. ring. }
    pose proof (DEF d SD HD Z n k Hn Hk) as Q. unfold d in Q. rewrite GA in Q by auto. cbn in *. lra.
  Qed.
End Fields.
