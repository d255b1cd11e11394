(** Proofs for C97: the grid, existence and uniqueness, the whole run. *)
From Coq Require Import List Arith Bool Lia Reals Lra ZArith Permutation.
From Verif Require Import Num Arr ArrFacts Fe FeFacts Problem XNum ElasticFacts LinAlg Parallel SpecParallel ParallelFacts ParallelMain.
Import ListNotations.
Local Open Scope R_scope.
Local Notation sum n g := (sum_n (K := Rops) n g).

Section Grid.
  Variables (nx ny : nat) (lower upper junk : pt).
  Hypothesis NX : (0 < nx)%nat.
  Hypothesis NY : (0 < ny)%nat.
  Definition idx (i j : nat) : nat := (i * (ny + 1) + j)%nat.
  Definition val (i j : nat) : pt := (fst lower + (fst upper - fst lower) * (INR i / INR nx), snd lower + (snd upper - snd lower) * (INR j / INR ny)).
  Lemma idx_inj i j i' j' : (j <= ny)%nat -> (j' <= ny)%nat -> idx i j = idx i' j' -> i = i' /\ j = j'.
  Proof.
    intros H H' E. unfold idx in E.
    assert (i = i').
    { destruct (Nat.lt_trichotomy i i') as [L|[->|L]]; [exfalso|reflexivity|exfalso]; nia. }
    subst. split; [reflexivity|lia].
  Qed.
  Lemma idx_lt i j : (i <= nx)%nat -> (j <= ny)%nat -> (idx i j < (nx + 1) * (ny + 1))%nat.
  Proof. unfold idx. nia. Qed.
  Lemma idx_surj k : (k < (nx + 1) * (ny + 1))%nat -> exists i j, (i <= nx)%nat /\ (j <= ny)%nat /\ k = idx i j.
  Proof.
    intros H. exists (k / (ny + 1))%nat, (k mod (ny + 1))%nat. unfold idx. pose proof (Nat.mod_upper_bound k (ny + 1) ltac:(lia)). pose proof (Nat.div_mod k (ny + 1) ltac:(lia)) as E.
    split; [|split; [lia|lia]]. assert (k / (ny + 1) < nx + 1)%nat by (apply Nat.div_lt_upper_bound; nia). lia.
  Qed.
  Notation write := (fun coords ij => let '(i, j) := ij in upd_nth (i * (ny + 1) + j)%nat (fun _ => (fst lower + (fst upper - fst lower) * (INR i / INR nx), snd lower + (snd upper - snd lower) * (INR j / INR ny))) coords).
  Lemma write_len L : forall arr, length (fold_left write L arr) = length arr.
  Proof. induction L as [|[i j] L IH]; intros arr; cbn [fold_left]; [reflexivity|]. now rewrite IH, length_upd_nth. Qed.
  Lemma writes L : forall arr, (forall p, In p L -> (snd p <= ny)%nat) ->
    forall i j, (j <= ny)%nat -> (idx i j < length arr)%nat ->
    (In (i, j) L -> nth (idx i j) (fold_left write L arr) (0, 0) = val i j) /\ (~ In (i, j) L -> nth (idx i j) (fold_left write L arr) (0, 0) = nth (idx i j) arr (0, 0)).
  Proof.
    induction L as [|[i0 j0] L IH]; intros arr H i j Hj Hl; cbn [fold_left]; [split; [intros []|reflexivity]|].
    assert (Hj0 := H _ (or_introl eq_refl)). cbn [snd] in Hj0. fold (idx i0 j0).
    match goal with |- context [fold_left write L ?a] => destruct (IH a (fun p Hp => H p (or_intror Hp)) i j Hj ltac:(now rewrite length_upd_nth)) as [I1 I2] end.
    assert (DEC : In (i, j) L \/ ~ In (i, j) L).
    { destruct (in_dec (fun p q : nat * nat => ltac:(decide equality; apply Nat.eq_dec)) (i, j) L); auto. }
    split.
    - intros [E|Hin]; [|now apply I1]. injection E as -> ->. destruct DEC as [Y|N]; [now apply I1|]. rewrite (I2 N), nth_upd_nth_eq by exact Hl. reflexivity.
    - intros N. rewrite I2 by (intros Y; apply N; now right). apply nth_upd_nth_neq. intros E. apply N. left. destruct (idx_inj i0 j0 i j Hj0 Hj E) as [-> ->]. reflexivity.
  Qed.
  Notation gc := (grid_coords nx ny lower upper junk).
  Lemma grid_len : length gc = ((nx + 1) * (ny + 1))%nat.
  Proof. unfold grid_coords. rewrite write_len. apply repeat_length. Qed.
  Lemma grid_at i j : (i <= nx)%nat -> (j <= ny)%nat -> SpecParallel.at_ gc (idx i j) = val i j.
  Proof.
    intros Hi Hj. unfold SpecParallel.at_, grid_coords. apply writes.
    - intros [a b] Hp. apply in_prod_iff in Hp as [_ Hb]. apply in_seq in Hb. cbn. lia.
    - exact Hj.
    - rewrite repeat_length. now apply idx_lt.
    - apply in_prod_iff. split; apply in_seq; lia.
  Qed.
  Lemma in_cells c : In c (grid_cells nx ny) <-> exists i j, (i < nx)%nat /\ (j < ny)%nat /\
    (c = [idx i j; idx (i + 1) j; idx (i + 1) (j + 1)] \/ c = [idx i j; idx (i + 1) (j + 1); idx i (j + 1)]).
  Proof.
    unfold grid_cells. rewrite in_flat_map. split.
    - intros ([i j] & Hp & Hc). apply in_prod_iff in Hp as [Hi Hj]. apply in_seq in Hi, Hj. exists i, j. split; [lia|]. split; [lia|]. destruct Hc as [<-|[<-|[]]]; auto.
    - intros (i & j & Hi & Hj & Hc). exists (i, j). split; [apply in_prod_iff; split; apply in_seq; lia|]. destruct Hc as [->| ->]; [left|right; left]; reflexivity.
  Qed.
  Definition hx : R := (fst upper - fst lower) / INR nx.
  Definition hy : R := (snd upper - snd lower) / INR ny.
  Lemma INRx : INR nx <> 0. Proof. apply not_0_INR. lia. Qed.
  Lemma INRy : INR ny <> 0. Proof. apply not_0_INR. lia. Qed.
  Lemma val_x i j : fst (val (i + 1) j) = fst (val i j) + hx.
  Proof. unfold val, hx. cbn [fst]. rewrite plus_INR. cbn [INR]. field. exact INRx. Qed.
  Lemma val_y i j : snd (val i (j + 1)) = snd (val i j) + hy.
  Proof. unfold val, hy. cbn [snd]. rewrite plus_INR. cbn [INR]. field. exact INRy. Qed.
  Lemma cross1 i j : (i < nx)%nat -> (j < ny)%nat ->
    cross (SpecParallel.at_ gc (idx i j)) (SpecParallel.at_ gc (idx (i + 1) j)) (SpecParallel.at_ gc (idx (i + 1) (j + 1))) = hx * hy.
  Proof. intros Hi Hj. rewrite !grid_at by lia. unfold cross. rewrite !val_x, !val_y. change (fst (val i (j + 1))) with (fst (val i j)). change (snd (val (i + 1) j)) with (snd (val i j)). ring. Qed.
  Lemma cross2 i j : (i < nx)%nat -> (j < ny)%nat ->
    cross (SpecParallel.at_ gc (idx i j)) (SpecParallel.at_ gc (idx (i + 1) (j + 1))) (SpecParallel.at_ gc (idx i (j + 1))) = hx * hy.
  Proof. intros Hi Hj. rewrite !grid_at by lia. unfold cross. rewrite !val_x, !val_y. change (fst (val i (j + 1))) with (fst (val i j)). change (snd (val (i + 1) j)) with (snd (val i j)). ring. Qed.
  Hypothesis HX : fst lower <> fst upper.
  Hypothesis HY : snd lower <> snd upper.
  Lemma hx_ne : hx <> 0.
  Proof. unfold hx. intros Z. apply Rmult_integral in Z as [Z|Z]; [lra|]. revert Z. apply Rinv_neq_0_compat, INRx. Qed.
  Lemma hy_ne : hy <> 0.
  Proof. unfold hy. intros Z. apply Rmult_integral in Z as [Z|Z]; [lra|]. revert Z. apply Rinv_neq_0_compat, INRy. Qed.
  Lemma hxy_ne : hx * hy <> 0.
  Proof. intros Z. apply Rmult_integral in Z as [Z|Z]; [now apply hx_ne|now apply hy_ne]. Qed.
  Lemma grid_tri : triangulation gc (grid_cells nx ny).
  Proof.
    intros c Hc. apply in_cells in Hc as (i & j & Hi & Hj & [->| ->]); do 3 eexists; (split; [reflexivity|]); rewrite grid_len;
      (split; [apply idx_lt; lia|]); (split; [apply idx_lt; lia|]); (split; [apply idx_lt; lia|]); [rewrite cross1 by lia|rewrite cross2 by lia]; exact hxy_ne.
  Qed.
  (** the energy as sums of differences *)
  Lemma grid_energy u w : total (grid_cells nx ny) (fun c => cell_energy gc c u w) =
    sum nx (fun i => sum ny (fun j => let du a b := (u a - u b) * (w a - w b) in
      Rabs (hx * hy) / 2 * ((du (idx (i + 1) j) (idx i j) + du (idx (i + 1) (j + 1)) (idx i (j + 1))) / (hx * hx)
                          + (du (idx i (j + 1)) (idx i j) + du (idx (i + 1) (j + 1)) (idx (i + 1) j)) / (hy * hy)))).
  Proof.
    unfold grid_cells. rewrite total_flat, total_prod, total_seq. apply Rsum_ext. intros i Hi. rewrite total_seq. apply Rsum_ext. intros j Hj. cbv zeta.
    cbn [total fold_right]. fold (idx i j) (idx (i + 1) j) (idx (i + 1) (j + 1)) (idx i (j + 1)). unfold cell_energy, cell_area, grad_of. cbn [nth fst snd].
    rewrite cross1, cross2 by lia. rewrite !grid_at by lia. rewrite !val_x, !val_y. change (fst (val i (j + 1))) with (fst (val i j)). change (snd (val (i + 1) j)) with (snd (val i j)).
    set (X := fst (val i j)). set (Y := snd (val i j)). set (ar := Rabs (hx * hy)). pose proof hx_ne. pose proof hy_ne. unfold total. cbn [fold_right]. req. field. auto.
  Qed.
  (** values equal on every cell and zero at the first column are zero *)
  Lemma grid_spread (x : nat -> R) : (forall c k l, In c (grid_cells nx ny) -> In k c -> In l c -> x k = x l) -> (forall j, (j <= ny)%nat -> x (idx 0 j) = 0) ->
    forall k, (k < (nx + 1) * (ny + 1))%nat -> x k = 0.
  Proof.
    intros E Z. assert (P : forall j, (j < ny)%nat -> forall i, (i <= nx)%nat -> x (idx i j) = 0).
    { intros j Hj. induction i as [|i IH]; intros Hi; [apply Z; lia|]. rewrite <- (IH ltac:(lia)). replace (S i) with (i + 1)%nat by lia.
      apply (E [idx i j; idx (i + 1) j; idx (i + 1) (j + 1)]); [apply in_cells; exists i, j; repeat split; auto; lia|cbn; auto|cbn; auto]. }
    intros k Hk. destruct (idx_surj k Hk) as (i & j & Hi & Hj & ->). destruct (Nat.eq_dec j ny) as [->|]; [|apply P; lia].
    destruct i as [|i]; [apply Z; lia|]. rewrite <- (P (ny - 1)%nat ltac:(lia) (S i) ltac:(lia)).
    apply (E [idx i (ny - 1); idx (i + 1) (ny - 1); idx (i + 1) (ny - 1 + 1)]).
    - apply in_cells. exists i, (ny - 1)%nat. repeat split; auto; lia.
    - right. right. left. unfold idx. replace (ny - 1 + 1)%nat with ny by lia. now replace (i + 1)%nat with (S i) by lia.
    - right. left. unfold idx. now replace (i + 1)%nat with (S i) by lia.
  Qed.
End Grid.

(** one rank holding the whole mesh *)
Definition serial_rank (coords : list pt) (cells : list (list nat)) : rank_view :=
  mkRank (length coords) Z.of_nat (fun v => nth v coords (0, 0)) cells 0 (Z.of_nat (length coords)).
Lemma serial_distributes coords cells : triangulation coords cells -> distributes coords cells (fun k => k) [serial_rank coords cells] [fun v => v].
Proof.
  intros TR. constructor; auto.
  - intros r v m [E|[]] Hv. injection E as <- <-. cbn [rv_nv serial_rank] in Hv. split; [exact Hv|]. split; [reflexivity|]. cbn [rv_off rv_lo rv_hi serial_rank].
    destruct (Z.leb_spec 0 (Z.of_nat v)); [|lia]. destruct (Z.ltb_spec (Z.of_nat v) (Z.of_nat (length coords))); [reflexivity|lia].
  - intros k Hk. exists (serial_rank coords cells), (fun v => v), k. cbn. repeat split; auto; lia.
  - intros r c v [<-|[]] Hc Hv. cbn in *. destruct (TR c Hc) as (i & j & k & -> & Hi & Hj & Hk & _). destruct Hv as [<-|[<-|[<-|[]]]]; assumption.
  - exists cells. split.
    + cbn. rewrite app_nil_r. replace (map (map (fun v => v)) cells) with cells; [apply Permutation_refl|]. clear. induction cells as [|c cells IH]; cbn; [reflexivity|]. now rewrite map_id, <- IH.
    + clear. induction cells; constructor; auto.
Qed.

Section Square.
  Variables (nx ny : nat) (junk : pt).
  Hypothesis NX : (0 < nx)%nat.
  Hypothesis NY : (0 < ny)%nat.
  Notation gc := (grid_coords nx ny (0, 0) (1, 1) junk).
  Notation cs := (grid_cells nx ny).
  Notation n := (length gc).
  Lemma sq_tri : triangulation gc cs.
  Proof. apply grid_tri; auto; cbn; lra. Qed.
  Lemma sq_at i j : (i <= nx)%nat -> (j <= ny)%nat -> SpecParallel.at_ gc (idx ny i j) = (INR i / INR nx, INR j / INR ny).
  Proof. intros Hi Hj. rewrite grid_at by auto. unfold val. cbn [fst snd]. f_equal; ring. Qed.
  Lemma near_zero a N : (0 < N)%nat -> (a <= N)%nat -> (N <= 10 ^ 8)%nat -> Rltb (Rabs (INR a / INR N)) (/ 10 ^ 8) = (a =? 0)%nat.
  Proof.
    intros HN Ha HB. destruct (Nat.eqb_spec a 0) as [->|D].
    - apply Rltb_true. cbn [INR]. unfold Rdiv. rewrite Rmult_0_l, Rabs_R0. apply Rinv_0_lt_compat, pow_lt. lra.
    - apply Rltb_false. assert (PN : 0 < INR N) by now apply lt_0_INR. assert (PA : 1 <= INR a) by (apply (le_INR 1); lia). rewrite Rabs_right.
      + apply (Rle_trans _ (/ INR N)).
        * apply Rinv_le_contravar; [exact PN|]. apply le_INR in HB. rewrite pow_INR in HB. replace (INR 10) with 10 in HB by (cbn; lra). exact HB.
        * unfold Rdiv. rewrite <- (Rmult_1_l (/ INR N)) at 1. apply Rmult_le_compat_r; [left; now apply Rinv_0_lt_compat|exact PA].
      + apply Rle_ge, Rmult_le_pos; [lra|left; now apply Rinv_0_lt_compat].
  Qed.
  Lemma near_one a N : (0 < N)%nat -> (a <= N)%nat -> (N <= 10 ^ 8)%nat -> Rltb (Rabs (INR a / INR N - 1)) (/ 10 ^ 8) = (a =? N)%nat.
  Proof.
    intros HN Ha HB. assert (PN : 0 < INR N) by now apply lt_0_INR.
    replace (INR a / INR N - 1) with (- (INR (N - a) / INR N)) by (rewrite minus_INR by lia; field; lra). rewrite Rabs_Ropp, near_zero by (auto; lia).
    destruct (Nat.eqb_spec (N - a) 0), (Nat.eqb_spec a N); auto; lia.
  Qed.
  Lemma sq_boundary i j : (nx <= 10 ^ 8)%nat -> (ny <= 10 ^ 8)%nat -> (i <= nx)%nat -> (j <= ny)%nat ->
    on_boundary gc (idx ny i j) <-> i = 0%nat \/ i = nx \/ j = 0%nat \/ j = ny.
  Proof.
    intros BX BY Hi Hj. unfold on_boundary, near_boundary. rewrite sq_at by auto. cbn [fst snd]. rewrite !near_zero, !near_one by auto.
    rewrite !orb_true_iff, !Nat.eqb_eq. tauto.
  Qed.
  Lemma sq_first j : (j <= ny)%nat -> on_boundary gc (idx ny 0 j).
  Proof.
    intros Hj. unfold on_boundary, near_boundary. rewrite sq_at by (auto; lia). cbn [fst snd INR]. rewrite !orb_true_iff. left. left. left. apply Rltb_true.
    unfold Rdiv. rewrite Rmult_0_l, Rabs_R0. apply Rinv_0_lt_compat, pow_lt. lra.
  Qed.
  Lemma sq_zero x : vanishes gc x -> (forall c k l, In c cs -> In k c -> In l c -> x k = x l) -> forall k, (k < n)%nat -> x k = 0.
  Proof.
    intros V E k Hk. rewrite grid_len in Hk. apply (grid_spread nx ny NX NY x E); auto. intros j Hj. apply V; [rewrite grid_len; apply idx_lt; lia|now apply sq_first].
  Qed.
  Section Any.
    Variables (num : nat -> nat) (ranks : list rank_view) (vert : list (nat -> nat)) (f : R -> R -> R) (A : mat) (b : vec_).
    Hypothesis D : distributes gc cs num ranks vert.
    Hypothesis E : parallel_system f ranks = Ok (A, b).
    Notation zn := (fun k => Z.of_nat (num k)).
    Lemma sq_sys : (forall k l, (k < n)%nat -> (l < n)%nat -> A (zn k) (zn l) = if near_boundary (SpecParallel.at_ gc k) then (if (k =? l)%nat then 1 else 0) else A0 gc ranks vert k l) /\
      (forall k, (k < n)%nat -> b (zn k) = if near_boundary (SpecParallel.at_ gc k) then 0 else b0 gc ranks vert f k).
    Proof. destruct (system gc cs sq_tri num ranks vert D f) as (A' & b' & E' & H). rewrite E in E'. injection E' as <- <-. exact H. Qed.
    Lemma sq_definite x : vanishes gc x -> sum n (fun k => x k * sum n (fun l => A (zn k) (zn l) * x l)) = 0 -> forall k, (k < n)%nat -> x k = 0.
    Proof. intros V Z. apply sq_zero; [exact V|]. destruct sq_sys as [HA _]. exact (sys_null gc cs sq_tri num ranks vert D A HA x V Z). Qed.
    Lemma sq_inj x : (forall k, (k < n)%nat -> sum n (fun l => A (zn k) (zn l) * x l) = 0) -> forall k, (k < n)%nat -> x k = 0.
    Proof.
      intros H. destruct sq_sys as [HA _]. apply sq_definite.
      - intros k Hk B. rewrite <- (row_bd gc num ranks vert A HA k x Hk B). now apply H.
      - apply sum_zero. intros k Hk. rewrite (H k Hk). ring.
    Qed.
    Lemma sq_solution : exists u, (forall k, (k < n)%nat -> sum n (fun l => A (zn k) (zn l) * u l) = b (zn k)).
    Proof. apply (solvable n (fun k l => A (zn k) (zn l)) (fun k => b (zn k))). exact sq_inj. Qed.
    Lemma sq_unique u u' : (forall k, (k < n)%nat -> sum n (fun l => A (zn k) (zn l) * u l) = b (zn k)) -> (forall k, (k < n)%nat -> sum n (fun l => A (zn k) (zn l) * u' l) = b (zn k)) ->
      forall k, (k < n)%nat -> u k = u' k.
    Proof.
      intros H H' k Hk. enough (u k - u' k = 0) by lra. apply (sq_inj (fun k => u k - u' k)); [|exact Hk]. intros l Hl.
      transitivity (sum n (fun m => A (zn l) (zn m) * u m) + -1 * sum n (fun m => A (zn l) (zn m) * u' m)).
      - rewrite <- Rsum_mul, <- Rsum_plus. apply Rsum_ext. intros m Hm. ring.
      - rewrite (H l Hl), (H' l Hl). req; ring.
    Qed.
    (** a diagonal entry is positive *)
    Lemma sq_diag k : (k < n)%nat -> 0 < A (zn k) (zn k).
    Proof.
      intros Hk. destruct sq_sys as [HA _]. destruct (near_boundary (SpecParallel.at_ gc k)) eqn:B.
      - rewrite HA, B, Nat.eqb_refl by auto. lra.
      - set (x := fun l => if (k =? l)%nat then 1 else 0). assert (V : vanishes gc x).
        { intros l Hl Bl. unfold x. destruct (Nat.eqb_spec k l) as [<-|]; [|reflexivity]. unfold on_boundary in Bl. congruence. }
        pose proof (sys_pos gc cs sq_tri num ranks vert D A HA x V) as P.
        assert (Q : sum n (fun k0 => x k0 * sum n (fun l => A (zn k0) (zn l) * x l)) = A (zn k) (zn k)).
        { transitivity (sum n (fun l => A (zn k) (zn l) * x l)); [exact (Rsum_delta n k (fun k0 => sum n (fun l => A (zn k0) (zn l) * x l)) Hk)|].
          transitivity (sum n (fun l => x l * A (zn k) (zn l))); [apply Rsum_ext; intros; apply Rmult_comm|]. exact (Rsum_delta n k (fun l => A (zn k) (zn l)) Hk). }
        assert (P' : 0 <= A (zn k) (zn k)) by (rewrite <- Q; exact P).
        destruct (Req_dec (A (zn k) (zn k)) 0) as [Z|]; [|lra]. exfalso. assert (X : x k = 0) by (apply (sq_definite x V); [rewrite Q; exact Z|exact Hk]).
        unfold x in X. rewrite Nat.eqb_refl in X. lra.
    Qed.
    (** the matrix couples interior rows to boundary columns only one way *)
    Lemma sq_not_symmetric : (exists k, (k < n)%nat /\ near_boundary (SpecParallel.at_ gc k) = false) -> ~ forall k l, (k < n)%nat -> (l < n)%nat -> A (zn k) (zn l) = A (zn l) (zn k).
    Proof.
      intros (k0 & Hk0 & B0) S. destruct sq_sys as [HA _].
      set (x := fun k => if near_boundary (SpecParallel.at_ gc k) then 0 else 1). assert (V : vanishes gc x) by (intros k Hk B; unfold x; unfold on_boundary in B; now rewrite B).
      assert (Z : x k0 = 0).
      { apply (sq_definite x V); [|exact Hk0]. apply sum_zero. intros k Hk. destruct (near_boundary (SpecParallel.at_ gc k)) eqn:B; [unfold x at 1; rewrite B; ring|].
        apply Rmult_eq_0_compat_l. transitivity (sum n (fun l => A (zn k) (zn l) * 1)).
        - apply Rsum_ext. intros l Hl. unfold x. destruct (near_boundary (SpecParallel.at_ gc l)) eqn:Bl; [|reflexivity].
          rewrite (S k l Hk Hl), HA, Bl by auto. destruct (Nat.eqb_spec l k) as [->|]; [congruence|ring].
        - refine (eq_trans (row_in gc num ranks vert A HA k (fun _ => 1) Hk B) _).
          set (w := fun l => if (k =? l)%nat then 1 else 0).
          assert (F : sum n (fun j => w j * sum n (fun l => A0 gc ranks vert j l * 1)) = sum n (fun l => A0 gc ranks vert k l * 1)) by exact (Rsum_delta n k (fun j => sum n (fun l => A0 gc ranks vert j l * 1)) Hk).
          rewrite <- F. rewrite (form_all gc cs sq_tri num ranks vert D w (fun _ => 1)).
          transitivity (total cs (fun _ => 0 * 0)); [|rewrite total_mul; req; ring]. apply total_ext. intros c Hc. unfold cell_energy, grad_of. cbn [fst snd]. unfold Rdiv. ring. }
      unfold x in Z. rewrite B0 in Z. lra.
    Qed.
  End Any.
  Lemma sq_galerkin f : exists u, galerkin gc cs f u /\ forall u', galerkin gc cs f u' -> forall k, (k < n)%nat -> u' k = u k.
  Proof.
    pose proof (serial_distributes gc cs sq_tri) as D. destruct (system gc cs sq_tri _ _ _ D f) as (A & b & E & HA & Hb).
    destruct (sq_solution (fun k => k) _ _ f A b D E) as [u Hu]. exists u. split.
    - apply (sys_galerkin gc cs sq_tri _ _ _ D f A b HA Hb). exact Hu.
    - intros u' G. pose proof (proj2 (sys_galerkin gc cs sq_tri _ _ _ D f A b HA Hb u') G) as G'. apply (sq_unique (fun k => k) _ _ f A b D E); assumption.
  Qed.
  Lemma sq_run f num ranks vert xykey A b x : distributes gc cs num ranks vert ->
    (forall k l, (k < n)%nat -> (l < n)%nat -> xykey (SpecParallel.at_ gc k) = xykey (SpecParallel.at_ gc l) -> k = l) ->
    parallel_system f ranks = Ok (A, b) -> (forall g, (g < n)%nat -> sum n (fun h => A (Z.of_nat g) (Z.of_nat h) * x (Z.of_nat h)) = b (Z.of_nat g)) ->
    exists us, u_vtk xykey x ranks gc = Ok us /\ length us = n /\ galerkin gc cs f (fun k => nth k us 0).
  Proof.
    intros D KI E H. exists (map (fun k => x (Z.of_nat (num k))) (seq 0 n)). split; [exact (gathered gc cs sq_tri num ranks vert D xykey x KI)|]. split; [now rewrite map_length, seq_length|].
    destruct (sq_sys num ranks vert f A b D E) as [HA Hb]. apply (sys_galerkin gc cs sq_tri num ranks vert D f A b HA Hb). intros k Hk.
    refine (eq_trans _ (H (num k) (d_range _ _ _ _ _ D k Hk))).
    refine (eq_trans _ (sum_reindex n num (fun h => A (Z.of_nat (num k)) (Z.of_nat h) * x (Z.of_nat h)) (d_range _ _ _ _ _ D) (d_inj _ _ _ _ _ D))).
    apply Rsum_ext. intros l Hl. f_equal. rewrite (nth_map_in _ _ _ 0%nat) by now rewrite seq_length. now rewrite seq_nth.
  Qed.
End Square.

(** the sum over the squares picks one square *)
Lemma sum2_single nx ny a b (g : nat -> nat -> R) : (a < nx)%nat -> (b < ny)%nat ->
  sum nx (fun i => sum ny (fun j => (if (a =? i)%nat then 1 else 0) * (if (b =? j)%nat then 1 else 0) * g i j)) = g a b.
Proof.
  intros Ha Hb. transitivity (sum nx (fun i => (if (a =? i)%nat then 1 else 0) * g i b)).
  - apply Rsum_ext. intros i Hi. transitivity ((if (a =? i)%nat then 1 else 0) * sum ny (fun j => (if (b =? j)%nat then 1 else 0) * g i j)).
    + rewrite <- Rsum_mul. apply Rsum_ext. intros j Hj. ring.
    + f_equal. exact (Rsum_delta ny b (g i) Hb).
  - exact (Rsum_delta nx a (fun i => g i b) Ha).
Qed.
Lemma delta_idx ny i j i' j' : (0 < ny)%nat -> (j <= ny)%nat -> (j' <= ny)%nat ->
  (if (idx ny i j =? idx ny i' j')%nat then 1 else 0) = (if (i =? i')%nat then 1 else 0) * (if (j =? j')%nat then 1 else 0).
Proof.
  intros NY Hj Hj'. destruct (Nat.eqb_spec (idx ny i j) (idx ny i' j')) as [E|N].
  - destruct (idx_inj 1 ny Nat.lt_0_1 NY i j i' j' Hj Hj' E) as [-> ->]. rewrite !Nat.eqb_refl. ring.
  - destruct (Nat.eqb_spec i i') as [->|]; [|ring]. destruct (Nat.eqb_spec j j') as [->|]; [congruence|ring].
Qed.
Lemma succ_eqb a b : (S a =? b + 1)%nat = (a =? b)%nat.
Proof. replace (b + 1)%nat with (S b) by lia. reflexivity. Qed.
Lemma grid_stencil nx ny lower upper junk i j u : (0 < nx)%nat -> (0 < ny)%nat -> fst lower < fst upper -> snd lower < snd upper -> (S i < nx)%nat -> (S j < ny)%nat ->
  total (grid_cells nx ny) (fun c => cell_energy (grid_coords nx ny lower upper junk) c u (fun l => if (idx ny (S i) (S j) =? l)%nat then 1 else 0)) =
  hy ny lower upper / hx nx lower upper * (2 * u (idx ny (S i) (S j)) - u (idx ny i (S j)) - u (idx ny (S (S i)) (S j))) +
  hx nx lower upper / hy ny lower upper * (2 * u (idx ny (S i) (S j)) - u (idx ny (S i) j) - u (idx ny (S i) (S (S j)))).
Proof.
  intros NX NY LX LY Hi Hj. rewrite grid_energy by (auto; lra). cbv zeta.
  pose proof (hx_ne nx ny lower upper NX NY ltac:(lra)) as X0. pose proof (hy_ne nx ny lower upper NX NY ltac:(lra)) as Y0.
  assert (XP : 0 < hx nx lower upper * hy ny lower upper).
  { apply Rmult_lt_0_compat; unfold hx, hy; (apply Rmult_lt_0_compat; [lra|apply Rinv_0_lt_compat, lt_0_INR; lia]). }
  rewrite (Rabs_right (hx nx lower upper * hy ny lower upper)) by lra.
  set (X := hx nx lower upper) in *. set (Y := hy ny lower upper) in *.
  set (d := fun a b : nat => if (a =? b)%nat then 1 else 0).
  set (g00 := fun i' j' => X * Y / 2 * ((u (idx ny i' j') - u (idx ny (i' + 1) j')) / (X * X) + (u (idx ny i' j') - u (idx ny i' (j' + 1))) / (Y * Y))).
  set (g10 := fun i' j' => X * Y / 2 * ((u (idx ny (i' + 1) j') - u (idx ny i' j')) / (X * X) + (u (idx ny (i' + 1) j') - u (idx ny (i' + 1) (j' + 1))) / (Y * Y))).
  set (g01 := fun i' j' => X * Y / 2 * ((u (idx ny i' (j' + 1)) - u (idx ny (i' + 1) (j' + 1))) / (X * X) + (u (idx ny i' (j' + 1)) - u (idx ny i' j')) / (Y * Y))).
  set (g11 := fun i' j' => X * Y / 2 * ((u (idx ny (i' + 1) (j' + 1)) - u (idx ny i' (j' + 1))) / (X * X) + (u (idx ny (i' + 1) (j' + 1)) - u (idx ny (i' + 1) j')) / (Y * Y))).
  transitivity (sum nx (fun i' => sum ny (fun j' => d (S i) i' * d (S j) j' * g00 i' j')) + sum nx (fun i' => sum ny (fun j' => d i i' * d (S j) j' * g10 i' j')) +
    sum nx (fun i' => sum ny (fun j' => d (S i) i' * d j j' * g01 i' j')) + sum nx (fun i' => sum ny (fun j' => d i i' * d j j' * g11 i' j'))).
  - rewrite <- !Rsum_plus. apply Rsum_ext. intros i' Hi'. rewrite <- !Rsum_plus. apply Rsum_ext. intros j' Hj'.
    rewrite !delta_idx by lia. rewrite !succ_eqb. unfold d, g00, g10, g01, g11.
    generalize (if (S i =? i')%nat then 1 else 0) (if (S j =? j')%nat then 1 else 0) (if (i =? i')%nat then 1 else 0) (if (j =? j')%nat then 1 else 0). intros. req. field. auto.
  - unfold d. rewrite !sum2_single by lia. unfold g00, g10, g01, g11. rewrite !Nat.add_1_r. req. field. auto.
Qed.
Lemma cells_len nx ny : length (grid_cells nx ny) = (2 * (nx * ny))%nat.
Proof.
  unfold grid_cells. rewrite Nat.mul_comm. rewrite <- (seq_length nx 0) at 2. rewrite <- (seq_length ny 0) at 2. rewrite <- prod_length.
  induction (list_prod (seq 0 nx) (seq 0 ny)) as [|[i j] l IH]; [reflexivity|]. cbn [flat_map app length]. rewrite IH. lia.
Qed.
Lemma sq_stencil nx ny junk num ranks vert f A b i j u : (0 < i < nx)%nat -> (0 < j < ny)%nat -> (nx <= 10 ^ 8)%nat -> (ny <= 10 ^ 8)%nat ->
  distributes (grid_coords nx ny (0, 0) (1, 1) junk) (grid_cells nx ny) num ranks vert -> parallel_system f ranks = Ok (A, b) ->
  sum ((nx + 1) * (ny + 1)) (fun l => A (Z.of_nat (num (idx ny i j))) (Z.of_nat (num l)) * u l) =
  INR nx / INR ny * (2 * u (idx ny i j) - u (idx ny (i - 1) j) - u (idx ny (i + 1) j)) +
  INR ny / INR nx * (2 * u (idx ny i j) - u (idx ny i (j - 1)) - u (idx ny i (j + 1))).
Proof.
  intros Hi Hj BX BY D E. destruct (sq_sys nx ny junk ltac:(lia) ltac:(lia) num ranks vert f A b D E) as [HA _].
  set (gc := grid_coords nx ny (0, 0) (1, 1) junk) in *. set (k := idx ny i j).
  assert (Hk : (k < length gc)%nat) by (unfold gc; rewrite grid_len; apply idx_lt; lia).
  assert (B : near_boundary (SpecParallel.at_ gc k) = false).
  { apply not_true_is_false. intros Bd. apply (sq_boundary nx ny junk ltac:(lia) ltac:(lia) i j BX BY) in Bd; lia. }
  replace ((nx + 1) * (ny + 1))%nat with (length gc) by apply grid_len.
  refine (eq_trans (row_in gc num ranks vert A HA k u Hk B) _).
  set (w := fun l => if (k =? l)%nat then 1 else 0).
  assert (F : sum (length gc) (fun j => w j * sum (length gc) (fun l => A0 gc ranks vert j l * u l)) = sum (length gc) (fun l => A0 gc ranks vert k l * u l)) by exact (Rsum_delta (length gc) k (fun j => sum (length gc) (fun l => A0 gc ranks vert j l * u l)) Hk).
  rewrite <- F. rewrite (form_all gc (grid_cells nx ny) (sq_tri nx ny junk ltac:(lia) ltac:(lia)) num ranks vert D w u).
  destruct i as [|i]; [lia|]. destruct j as [|j]; [lia|]. unfold w, k, gc. rewrite grid_stencil by (cbn [fst snd]; lia || lra).
  replace (S i - 1)%nat with i by lia. replace (S j - 1)%nat with j by lia. rewrite !Nat.add_1_r. unfold hx, hy. cbn [fst snd].
  assert (INR nx <> 0) by (apply not_0_INR; lia). assert (INR ny <> 0) by (apply not_0_INR; lia). req. field. auto.
Qed.

(** statements about the mesh function *)
Lemma mesh_is nx ny lower upper junk coords cells : unit_square_triangle_mesh nx ny lower upper junk = Ok (coords, cells) ->
  (0 < nx)%nat /\ (0 < ny)%nat /\ coords = grid_coords nx ny lower upper junk /\ cells = grid_cells nx ny.
Proof.
  unfold unit_square_triangle_mesh. destruct (Nat.eqb_spec nx 0), (Nat.eqb_spec ny 0); cbn [orb]; intros E; try discriminate. injection E as <- <-. repeat split; lia.
Qed.
Lemma mesh_all : forall nx ny lower upper junk,
  (nx = 0%nat \/ ny = 0%nat -> unit_square_triangle_mesh nx ny lower upper junk = Err ZeroDivErr) /\
  ((0 < nx)%nat -> (0 < ny)%nat -> fst lower < fst upper -> snd lower < snd upper ->
   exists coords cells, unit_square_triangle_mesh nx ny lower upper junk = Ok (coords, cells) /\
     length coords = ((nx + 1) * (ny + 1))%nat /\ length cells = (2 * (nx * ny))%nat /\
     (forall i j, (i <= nx)%nat -> (j <= ny)%nat ->
        SpecParallel.at_ coords (i * (ny + 1) + j) = (fst lower + (fst upper - fst lower) * (INR i / INR nx), snd lower + (snd upper - snd lower) * (INR j / INR ny))) /\
     (forall c, In c cells <-> exists i j, (i < nx)%nat /\ (j < ny)%nat /\ let v a b := ((i + a) * (ny + 1) + (j + b))%nat in
        (c = [v 0%nat 0%nat; v 1%nat 0%nat; v 1%nat 1%nat] \/ c = [v 0%nat 0%nat; v 1%nat 1%nat; v 0%nat 1%nat])) /\
     triangulation coords cells /\
     (forall c, In c cells -> cross (SpecParallel.at_ coords (nth 0 c 0%nat)) (SpecParallel.at_ coords (nth 1 c 0%nat)) (SpecParallel.at_ coords (nth 2 c 0%nat))
        = (fst upper - fst lower) * (snd upper - snd lower) / (INR nx * INR ny)) /\
     total cells (cell_area coords) = (fst upper - fst lower) * (snd upper - snd lower)).
Proof.
  intros nx ny lower upper junk. split.
  - unfold unit_square_triangle_mesh. intros [->| ->]; [reflexivity|]. now rewrite orb_true_r.
  - intros NX NY LX LY. exists (grid_coords nx ny lower upper junk), (grid_cells nx ny).
    assert (X0 : INR nx <> 0) by (apply not_0_INR; lia). assert (Y0 : INR ny <> 0) by (apply not_0_INR; lia).
    assert (XP : 0 < INR nx) by (apply lt_0_INR; lia). assert (YP : 0 < INR ny) by (apply lt_0_INR; lia).
    assert (CR : forall c, In c (grid_cells nx ny) -> let coords := grid_coords nx ny lower upper junk in
      cross (SpecParallel.at_ coords (nth 0 c 0%nat)) (SpecParallel.at_ coords (nth 1 c 0%nat)) (SpecParallel.at_ coords (nth 2 c 0%nat)) = (fst upper - fst lower) * (snd upper - snd lower) / (INR nx * INR ny)).
    { intros c Hc. cbv zeta. apply in_cells in Hc as (i & j & Hi & Hj & [->| ->]); auto; cbn [nth]; [rewrite cross1 by auto|rewrite cross2 by auto]; unfold hx, hy; field; auto. }
    split; [|split; [apply grid_len|split; [apply cells_len|split; [|split; [|split; [|split; [exact CR|]]]]]]].
    + unfold unit_square_triangle_mesh. destruct (Nat.eqb_spec nx 0); [lia|]. destruct (Nat.eqb_spec ny 0); [lia|reflexivity].
    + intros i j Hi Hj. exact (grid_at nx ny lower upper junk NX NY i j Hi Hj).
    + intros c. rewrite (in_cells nx ny NX NY). unfold idx. split; intros (i & j & Hi & Hj & H); exists i, j; (split; [exact Hi|]); (split; [exact Hj|]); cbv zeta in *; rewrite !Nat.add_0_r in *; exact H.
    + apply grid_tri; auto; lra.
    + transitivity (total (grid_cells nx ny) (fun _ => (fst upper - fst lower) * (snd upper - snd lower) / (INR nx * INR ny) / 2 * 1)).
      * apply total_ext. intros c Hc. unfold cell_area. rewrite (CR c Hc), Rabs_right; [ring|]. left.
        apply Rmult_lt_0_compat; [apply Rmult_lt_0_compat; lra|]. apply Rinv_0_lt_compat. now apply Rmult_lt_0_compat.
      * rewrite total_mul. assert (T : forall l : list (list nat), total l (fun _ => 1) = INR (length l)).
        { induction l as [|c l IH]; [reflexivity|]. change (total (c :: l) (fun _ => 1)) with (1 + total l (fun _ => 1)). rewrite IH. cbn [length]. rewrite S_INR. ring. }
        rewrite T, cells_len, !mult_INR. cbn [INR]. field. auto.
Qed.
Lemma mesh_boundary : forall nx ny junk coords cells i j, unit_square_triangle_mesh nx ny (0, 0) (1, 1) junk = Ok (coords, cells) ->
  (nx <= 10 ^ 8)%nat -> (ny <= 10 ^ 8)%nat -> (i <= nx)%nat -> (j <= ny)%nat ->
  on_boundary coords (i * (ny + 1) + j) <-> i = 0%nat \/ i = nx \/ j = 0%nat \/ j = ny.
Proof. intros nx ny junk coords cells i j M BX BY Hi Hj. apply mesh_is in M as (NX & NY & -> & ->). exact (sq_boundary nx ny junk NX NY i j BX BY Hi Hj). Qed.
Lemma system_galerkin : forall coords cells num ranks vert f, triangulation coords cells -> distributes coords cells num ranks vert ->
  exists A b, parallel_system f ranks = Ok (A, b) /\
    forall u, (forall k, (k < length coords)%nat -> sum (length coords) (fun l => A (Z.of_nat (num k)) (Z.of_nat (num l)) * u l) = b (Z.of_nat (num k)))
      <-> galerkin coords cells f u.
Proof.
  intros coords cells num ranks vert f TR D. destruct (system coords cells TR num ranks vert D f) as (A & b & E & HA & Hb). exists A, b. split; [exact E|].
  intros u. exact (sys_galerkin coords cells TR num ranks vert D f A b HA Hb u).
Qed.
Lemma mesh_unique : forall nx ny junk coords cells f, unit_square_triangle_mesh nx ny (0, 0) (1, 1) junk = Ok (coords, cells) ->
  exists u, galerkin coords cells f u /\ forall u', galerkin coords cells f u' -> forall k, (k < length coords)%nat -> u' k = u k.
Proof. intros nx ny junk coords cells f M. apply mesh_is in M as (NX & NY & -> & ->). exact (sq_galerkin nx ny junk NX NY f). Qed.
Lemma mesh_run : forall nx ny junk coords cells f num ranks vert xykey A b x, unit_square_triangle_mesh nx ny (0, 0) (1, 1) junk = Ok (coords, cells) ->
  distributes coords cells num ranks vert ->
  (forall k l, (k < length coords)%nat -> (l < length coords)%nat -> xykey (SpecParallel.at_ coords k) = xykey (SpecParallel.at_ coords l) -> k = l) ->
  parallel_system f ranks = Ok (A, b) ->
  (forall g, (g < length coords)%nat -> sum (length coords) (fun h => A (Z.of_nat g) (Z.of_nat h) * x (Z.of_nat h)) = b (Z.of_nat g)) ->
  exists us, u_vtk xykey x ranks coords = Ok us /\ length us = length coords /\ galerkin coords cells f (fun k => nth k us 0).
Proof. intros nx ny junk coords cells f num ranks vert xykey A b x M. apply mesh_is in M as (NX & NY & -> & ->). exact (sq_run nx ny junk NX NY f num ranks vert xykey A b x). Qed.
Lemma mesh_stencil : forall nx ny junk coords cells f num ranks vert A b i j u, unit_square_triangle_mesh nx ny (0, 0) (1, 1) junk = Ok (coords, cells) ->
  distributes coords cells num ranks vert -> parallel_system f ranks = Ok (A, b) ->
  (0 < i < nx)%nat -> (0 < j < ny)%nat -> (nx <= 10 ^ 8)%nat -> (ny <= 10 ^ 8)%nat ->
  let v a b := (a * (ny + 1) + b)%nat in
  sum (length coords) (fun l => A (Z.of_nat (num (v i j))) (Z.of_nat (num l)) * u l) =
  INR nx / INR ny * (2 * u (v i j) - u (v (i - 1)%nat j) - u (v (i + 1)%nat j)) + INR ny / INR nx * (2 * u (v i j) - u (v i (j - 1)%nat) - u (v i (j + 1)%nat)).
Proof.
  intros nx ny junk coords cells f num ranks vert A b i j u M D E Hi Hj BX BY. apply mesh_is in M as (NX & NY & -> & ->). cbv zeta.
  replace (length (grid_coords nx ny (0, 0) (1, 1) junk)) with ((nx + 1) * (ny + 1))%nat by (symmetry; apply grid_len).
  exact (sq_stencil nx ny junk num ranks vert f A b i j u Hi Hj BX BY D E).
Qed.
Lemma mesh_cg : forall nx ny junk coords cells f num ranks vert A b, unit_square_triangle_mesh nx ny (0, 0) (1, 1) junk = Ok (coords, cells) ->
  distributes coords cells num ranks vert -> parallel_system f ranks = Ok (A, b) ->
  let n := length coords in let app x := fun k => sum n (fun l => A (Z.of_nat (num k)) (Z.of_nat (num l)) * x l) in let dot x y := sum n (fun k => x k * y k) in
  vanishes coords (fun k => b (Z.of_nat (num k))) /\
  (forall x, vanishes coords x -> vanishes coords (app x)) /\
  (forall x y, vanishes coords x -> vanishes coords y -> dot x (app y) = dot y (app x)) /\
  (forall x, vanishes coords x -> (exists k, (k < n)%nat /\ x k <> 0) -> 0 < dot x (app x)) /\
  (forall k, (k < n)%nat -> 0 < A (Z.of_nat (num k)) (Z.of_nat (num k))).
Proof.
  intros nx ny junk coords cells f num ranks vert A b M D E. apply mesh_is in M as (NX & NY & -> & ->). cbv zeta. pose proof (sq_tri nx ny junk NX NY) as TR.
  destruct (sq_sys nx ny junk NX NY num ranks vert f A b D E) as [HA Hb].
  split; [exact (sys_b _ num ranks vert f b Hb)|]. split; [exact (sys_stays _ num ranks vert A HA)|]. split; [intros x y Vx Vy; exact (sys_sym _ _ TR num ranks vert D A HA y x Vy Vx)|]. split.
  - intros x V (k & Hk & N). pose proof (sys_pos _ _ TR num ranks vert D A HA x V) as P.
    match goal with |- 0 < ?s => destruct (Req_dec s 0) as [Z|Z]; [|assert (0 <= s) by exact P; lra] end.
    exfalso. apply N. exact (sq_definite nx ny junk NX NY num ranks vert f A b D E x V Z k Hk).
  - exact (sq_diag nx ny junk NX NY num ranks vert f A b D E).
Qed.
Lemma mesh_not_symmetric : forall nx ny junk coords cells f num ranks vert A b, unit_square_triangle_mesh nx ny (0, 0) (1, 1) junk = Ok (coords, cells) ->
  distributes coords cells num ranks vert -> parallel_system f ranks = Ok (A, b) -> (2 <= nx <= 10 ^ 8)%nat -> (2 <= ny <= 10 ^ 8)%nat ->
  ~ forall k l, (k < length coords)%nat -> (l < length coords)%nat -> A (Z.of_nat (num k)) (Z.of_nat (num l)) = A (Z.of_nat (num l)) (Z.of_nat (num k)).
Proof.
  intros nx ny junk coords cells f num ranks vert A b M D E BX BY. apply mesh_is in M as (NX & NY & -> & ->).
  apply (sq_not_symmetric nx ny junk NX NY num ranks vert f A b D E). exists (idx ny 1 1). split; [rewrite grid_len; apply idx_lt; lia|].
  apply not_true_is_false. intros B. apply (sq_boundary nx ny junk NX NY 1 1) in B; lia.
Qed.

(** an example with two ranks and ghosts *)
Definition ex_rank0 : rank_view := mkRank 6 (fun v => (8 - Z.of_nat v)%Z) (fun v => (INR (v / 3) / 2, INR (v mod 3) / 2)) [[0; 3; 4]; [0; 4; 1]; [1; 4; 5]; [1; 5; 2]]%nat 3 9.
Definition ex_rank1 : rank_view := mkRank 6 (fun v => if (v <? 3)%nat then (- (5 - Z.of_nat v + 1))%Z else (5 - Z.of_nat v)%Z) (fun v => (INR ((v + 3) / 3) / 2, INR ((v + 3) mod 3) / 2))
  [[4; 0; 3]; [4; 1; 0]; [5; 4; 1]; [2; 1; 5]]%nat 0 3.
Lemma two_ranks : forall junk, exists coords cells ranks vert,
  unit_square_triangle_mesh 2 2 (0, 0) (1, 1) junk = Ok (coords, cells) /\ length ranks = 2%nat /\
  distributes coords cells (fun k => 8 - k)%nat ranks vert /\
  (exists r v, In r ranks /\ (v < rv_nv r)%nat /\ (rv_off r v < 0)%Z) /\
  (forall k l, (k < length coords)%nat -> (l < length coords)%nat ->
     (fun p : pt => (up (2 * fst p), up (2 * snd p))) (SpecParallel.at_ coords k) = (fun p : pt => (up (2 * fst p), up (2 * snd p))) (SpecParallel.at_ coords l) -> k = l).
Proof.
  intros junk. exists (grid_coords 2 2 (0, 0) (1, 1) junk), (grid_cells 2 2), [ex_rank0; ex_rank1], [(fun v => v); (fun v => v + 3)%nat].
  assert (L : length (grid_coords 2 2 (0, 0) (1, 1) junk) = 9%nat) by apply grid_len.
  assert (AT : forall k, (k < 9)%nat -> SpecParallel.at_ (grid_coords 2 2 (0, 0) (1, 1) junk) k = (INR (k / 3) / 2, INR (k mod 3) / 2)).
  { intros k Hk. pose proof (Nat.div_mod k 3 ltac:(lia)) as E. pose proof (Nat.mod_upper_bound k 3 ltac:(lia)). assert (k / 3 < 3)%nat by (apply Nat.div_lt_upper_bound; lia).
    replace k with (idx 2 (k / 3) (k mod 3)) at 1 by (unfold idx; lia). rewrite (sq_at 2 2 junk) by lia. cbn [INR]. f_equal; field. }
  split; [reflexivity|]. split; [reflexivity|]. split; [|split].
  - constructor; rewrite ?L.
    + intros; lia.
    + intros; lia.
    + reflexivity.
    + intros r v m [H|[H|[]]] Hv; injection H as <- <-; cbn [rv_nv ex_rank0 ex_rank1] in Hv; (split; [lia|]); (split; [rewrite AT by lia; reflexivity|]); cbn [rv_off rv_lo rv_hi ex_rank0 ex_rank1].
      * destruct (Z.leb_spec 3 (Z.of_nat (8 - v))); [|lia]. destruct (Z.ltb_spec (Z.of_nat (8 - v)) 9); [|lia]. cbn [andb]. lia.
      * destruct (Z.leb_spec 0 (Z.of_nat (8 - (v + 3)))); [|lia]. destruct (Nat.ltb_spec v 3); destruct (Z.ltb_spec (Z.of_nat (8 - (v + 3))) 3); cbn [andb]; lia.
    + intros k Hk. destruct (Nat.lt_ge_cases k 6).
      * exists ex_rank0, (fun v => v), k. split; [left; reflexivity|]. cbn [rv_nv rv_lo rv_hi ex_rank0]. repeat split; lia.
      * exists ex_rank1, (fun v => v + 3)%nat, (k - 3)%nat. split; [right; left; reflexivity|]. cbn [rv_nv rv_lo rv_hi ex_rank1]. repeat split; lia.
    + intros r c v [<-|[<-|[]]] Hc Hv; cbn in Hc; repeat (destruct Hc as [<-|Hc]; [cbn in Hv |- *; lia|]); destruct Hc.
    + eexists. split; [apply Permutation_refl|]. cbn. repeat constructor;
      repeat match goal with |- Permutation [?a; ?b; ?c] [?d; ?e; ?f] =>
        first [apply Permutation_refl | exact (perm_swap b a [c]) | apply perm_skip, perm_swap
             | exact (Permutation_app_comm [a] [b; c]) | exact (Permutation_app_comm [a; b] [c])
             | exact (Permutation_rev [a; b; c])] end.
  - exists ex_rank1, 0%nat. cbn. repeat split; auto; lia.
  - intros k l. rewrite L. intros Hk Hl. rewrite !AT by assumption. cbn [fst snd]. intros E. injection E as E1 E2.
    assert (U : forall a b, up (2 * (INR a / 2)) = up (2 * (INR b / 2)) -> a = b).
    { intros a b. replace (2 * (INR a / 2)) with (INR a) by field. replace (2 * (INR b / 2)) with (INR b) by field. rewrite !INR_IZR_INZ.
      assert (UP : forall z, up (IZR z) = (z + 1)%Z) by (intros z; symmetry; apply tech_up; rewrite plus_IZR; lra). rewrite !UP. lia. }
    apply U in E1. apply U in E2. pose proof (Nat.div_mod k 3 ltac:(lia)). pose proof (Nat.div_mod l 3 ltac:(lia)). change (k / 3 = l / 3)%nat in E1. change (k mod 3 = l mod 3)%nat in E2. lia.
Qed.
