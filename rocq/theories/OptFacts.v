(** Proofs about the filters and the optimization loop. *)
From Coq Require Import List Arith Bool Lia Reals Lra.
From Verif Require Import Num Arr Fe Problem XNum Newton Mma SpecMma MmaFacts MmaMain MmaKkt MmaOpt SpecOpt.
Import ListNotations.
Local Open Scope R_scope.

Notation rfold l := (fold_right Rplus 0 l).
Lemma sumK_fin (l : list xr) : Forall finite l -> sumK (l : list Xops) = Fin (rfold (map to_R l)).
Proof.
  intros H. replace l with (map Fin (map to_R l)) at 1; [apply sumK_Fin|]. rewrite map_map. induction H as [|x l (r & -> & _) _ IH]; [reflexivity|]. cbn [map to_R]. now f_equal.
Qed.
Lemma seq_result_ok {A B} (f : A -> result B) (g : A -> B) l : (forall a, In a l -> f a = Ok (g a)) -> seq_result (map f l) = Ok (map g l).
Proof.
  induction l as [|a l IH]; intros H; [reflexivity|]. cbn [map seq_result]. rewrite (H a (or_introl eq_refl)). cbn [bind]. rewrite IH by (intros b Hb; apply H; now right). reflexivity.
Qed.
Lemma np_takes_ok {A} (d : A) l inds : Forall (fun i => (i < length l)%nat) inds -> np_takes l inds = Ok (map (fun i => nth i l d) inds).
Proof.
  intros H. unfold np_takes. apply seq_result_ok. intros i Hi. rewrite Forall_forall in H. unfold np_take. rewrite (nth_error_nth' l d (H i Hi)). reflexivity.
Qed.
Lemma np_takes_err {A} (l : list A) inds i : In i inds -> (length l <= i)%nat -> np_takes l inds = Err IndexErr.
Proof.
  unfold np_takes. induction inds as [|j inds IH]; intros H L; [destruct H|]. cbn [map seq_result]. unfold np_take at 1.
  destruct (nth_error l j) as [a|] eqn:E; [|reflexivity]. cbn [bind]. destruct H as [->|H]; [apply nth_error_None in L; congruence|]. now rewrite (IH H L).
Qed.

(** ** Computing the filter *)
Section Compute.
  Variable dim : nat.
  Variables (points : list (list xr)) (cells : list (list nat)) (JxW : list (list xr)) (flex_inds : list nat).
  Variable query : list (list xr) -> nat -> list (xr * nat).
  Hypothesis MO : mesh_ok dim points cells JxW flex_inds.
  Let cs := flex_centroids dim points cells flex_inds.
  Let n := length flex_inds.
  Hypothesis QC : query_correct dim query cs.
  Lemma len_cs : length cs = n.
  Proof. unfold cs, flex_centroids. now rewrite map_length. Qed.
  Lemma centroid_ok c : In c cells -> bind (np_takes points c) (fun pts => Ok (centroid dim pts)) = Ok (map (fun l => Fin (centroid_of points c l)) (seq 0 dim)).
  Proof.
    destruct MO as (_ & P & C & _). intros H. destruct (C c H) as (NE & V). rewrite (np_takes_ok [] points c V). cbn [bind]. f_equal. unfold centroid. apply map_ext_in. intros l Hl. apply in_seq in Hl.
    rewrite map_map, map_length. etransitivity; [apply (f_equal (fun z => xdiv z (Fin (INR (length c))))); apply (sumK_fin (map (fun v => nth l (nth v points []) NaN) c))|].
    2:{ rewrite map_map. apply xdivF. apply not_0_INR. destruct c; [congruence|discriminate]. }
    - rewrite Forall_forall. intros x Hx. apply in_map_iff in Hx as (v & <- & Hv). rewrite Forall_forall in V. destruct (P (nth v points []) (nth_In _ _ (V v Hv))) as (LP & FP).
      rewrite Forall_forall in FP. apply FP, nth_In. lia.
  Qed.
  Lemma centroids_ok : bind (cell_centroids dim points cells) (fun cc => np_takes cc flex_inds) = Ok cs.
  Proof.
    unfold cell_centroids. rewrite (seq_result_ok _ (fun c => map (fun l => Fin (centroid_of points c l)) (seq 0 dim))); [|exact centroid_ok]. cbn [bind].
    destruct MO as (_ & _ & _ & F & _). rewrite (np_takes_ok [] _ flex_inds); [|rewrite map_length; exact F]. f_equal. unfold cs, flex_centroids. apply map_ext_in. intros f Hf. rewrite Forall_forall in F.
    rewrite (nth_indep _ [] (map (fun l => Fin (centroid_of points [] l)) (seq 0 dim))) by (rewrite map_length; now apply F).
    exact (map_nth (fun c => map (fun l => Fin (centroid_of points c l)) (seq 0 dim)) cells [] f).
  Qed.
  Lemma cells_pos : (0 < n)%nat -> 0 < INR (length cells).
  Proof.
    intros H. destruct MO as (_ & _ & _ & F & _). subst n. destruct flex_inds as [|f l]; [cbn in H; lia|]. inversion F; subst. apply lt_0_INR. lia.
  Qed.
  Lemma rmin_ok : (0 < n)%nat -> rmin dim cells JxW = Fin (radius dim cells JxW) /\ 0 < radius dim cells JxW.
  Proof.
    intros H. pose proof (cells_pos H) as C. destruct MO as (_ & _ & _ & _ & (v & E & V)). unfold rmin, radius. rewrite E. cbn [to_R]. rewrite xdivF by lra.
    pose proof (div_pos v _ V C) as D. unfold xroot. destruct (Rlt_dec _ 0); [lra|]. destruct (Req_EM_T _ 0); [lra|]. split; [reflexivity|].
    apply Rmult_lt_0_compat; [lra|]. apply exp_pos.
  Qed.
  Lemma weight_ok d : (0 < n)%nat -> weight dim cells JxW (Fin d) = Fin (Rmax 0 (radius dim cells JxW - d)).
  Proof.
    intros H. destruct (rmin_ok H) as (E & _). unfold weight. rewrite E. cbn [xsub xltb xadd xopp]. destruct (Rltb 0 _) eqn:L.
    - apply Rltb_true in L. rewrite Rmax_right by lra. reflexivity.
    - apply Rltb_false in L. rewrite Rmax_left by lra. reflexivity.
  Qed.
  Definition row_of (i : nat) : list (xr * nat) := map (fun di => (weight dim cells JxW (fst di), snd di)) (query cs i).
  Lemma compute_ok : (20 <= n)%nat -> compute_filter_kd_tree dim points cells JxW flex_inds query =
    Ok (mkFilter (map row_of (seq 0 n)) (map (fun row => sumK (map fst row : list Xops)) (map row_of (seq 0 n)))).
  Proof.
    intros N. unfold compute_filter_kd_tree. pose proof centroids_ok as C. destruct (cell_centroids _ _ _) as [cc|]; [|discriminate]. cbn [bind] in C |- *. rewrite C. cbn [bind]. fold n.
    rewrite (seq_result_ok _ row_of); [reflexivity|]. intros i Hi. apply in_seq in Hi. unfold filter_row. destruct (QC i ltac:(rewrite len_cs; lia)) as (_ & _ & Q).
    destruct (Q ltac:(rewrite len_cs; lia)) as (_ & Q2 & _). rewrite (np_takes_ok [] cs); [reflexivity|]. apply Forall_forall. intros j Hj. apply in_map_iff in Hj as ((d & j') & <- & Hj). now apply (Q2 d).
  Qed.
  Lemma compute_few : (0 < n < 20)%nat -> compute_filter_kd_tree dim points cells JxW flex_inds query = Err IndexErr.
  Proof.
    intros N. unfold compute_filter_kd_tree. pose proof centroids_ok as C. destruct (cell_centroids _ _ _) as [cc|]; [|discriminate]. cbn [bind] in C |- *. rewrite C. cbn [bind]. fold n.
    destruct n as [|n'] eqn:E; [lia|]. cbn [seq map seq_result]. unfold filter_row at 1. destruct (QC 0%nat ltac:(rewrite len_cs; lia)) as (_ & Q & _).
    assert (L := Q ltac:(rewrite len_cs; lia)). rewrite (np_takes_err cs _ (length cs)); [reflexivity| |lia]. apply in_map_iff. exists (PInf, length cs). auto.
  Qed.

  Lemma row_entries i w j : (20 <= n)%nat -> (i < n)%nat -> In (w, j) (row_of i) -> (j < n)%nat /\ w = Fin (Rmax 0 (radius dim cells JxW - dist dim cs i j)).
  Proof.
    intros N Hi H. apply in_map_iff in H as ((d & j') & E & H). cbn [fst snd] in E. inversion E; subst w j'. destruct (QC i ltac:(rewrite len_cs; lia)) as (_ & _ & Q).
    destruct (Q ltac:(rewrite len_cs; lia)) as (_ & Q2 & _). destruct (Q2 d j H) as (J & ->). split; [rewrite <- len_cs; exact J|]. apply weight_ok. lia.
  Qed.
  Lemma dist_self i : dist dim cs i i = 0.
  Proof.
    unfold dist. rewrite (sum_n_ext (K := Rops) dim _ (fun _ => 0)); [|intros l _; ops; ring]. replace (sum_n (K := Rops) dim (fun _ => 0)) with 0; [exact sqrt_0|].
    symmetry. exact (ProblemFacts.sum_n_zero Rops_ring dim).
  Qed.
  Lemma rfold_ge l : (forall x, In x l -> 0 <= x) -> 0 <= rfold l.
  Proof. induction l as [|a l IH]; intros H; [apply Rle_refl|]. cbn [fold_right]. pose proof (H a (or_introl eq_refl)). pose proof (IH ltac:(intros x Hx; apply H; now right)). lra. Qed.
  Lemma rfold_in l a : (forall x, In x l -> 0 <= x) -> In a l -> a <= rfold l.
  Proof.
    induction l as [|b l IH]; intros H; [intros []|]. intros [->|Ha]; cbn [fold_right].
    - pose proof (rfold_ge l ltac:(intros x Hx; apply H; now right)). lra.
    - pose proof (IH ltac:(intros x Hx; apply H; now right) Ha). pose proof (H b (or_introl eq_refl)). lra.
  Qed.
  Lemma row_sum i : (20 <= n)%nat -> (i < n)%nat -> exists s, sumK (map fst (row_of i) : list Xops) = Fin s /\ 0 < s.
  Proof.
    intros N Hi. assert (F : forall w j, In (w, j) (row_of i) -> w = Fin (Rmax 0 (radius dim cells JxW - dist dim cs i j))) by (intros w j H; now apply row_entries).
    rewrite (sumK_fin (map fst (row_of i))). 2:{ apply Forall_forall. intros w H. apply in_map_iff in H as ((w' & j) & <- & H). cbn [fst]. rewrite (F w' j H). eexists; split; [reflexivity|exact I]. }
    eexists; split; [reflexivity|]. destruct (rmin_ok ltac:(lia)) as (_ & RP).
    assert (NN : forall x, In x (map to_R (map fst (row_of i))) -> 0 <= x).
    { intros x Hx. apply in_map_iff in Hx as (w & <- & Hw). apply in_map_iff in Hw as ((w' & j) & <- & H). cbn [fst]. rewrite (F w' j H). apply Rmax_l. }
    destruct (QC i ltac:(rewrite len_cs; lia)) as (L20 & _ & Q). destruct (Q ltac:(rewrite len_cs; lia)) as (_ & Q2 & Q3).
    (* some stored cell is at distance 0 *)
    assert (Z : exists d j, In (d, j) (query cs i) /\ dist dim cs i j <= 0).
    { destruct (in_dec Nat.eq_dec i (map snd (query cs i))) as [Y|Y].
      - apply in_map_iff in Y as ((d & j) & E & H). cbn [snd] in E. subst j. exists d, i. split; [exact H|]. rewrite dist_self. lra.
      - destruct (query cs i) as [|(d & j) q] eqn:E; [discriminate|]. exists d, j. split; [now left|]. rewrite <- (dist_self i). apply (Q3 i ltac:(rewrite len_cs; lia) Y d j). now left. }
    destruct Z as (d & j & H & D). assert (IR : In (weight dim cells JxW d, j) (row_of i)) by (apply in_map_iff; exists (d, j); auto).
    apply Rlt_le_trans with (to_R (weight dim cells JxW d)).
    - rewrite (F _ _ IR). cbn [to_R]. eapply Rlt_le_trans; [|apply Rmax_r]. lra.
    - apply rfold_in; [exact NN|]. apply in_map, in_map_iff. exists (weight dim cells JxW d, j). auto.
  Qed.
  Lemma nth_map_seq {A} (f : nat -> A) i d k : (i < k)%nat -> nth i (map f (seq 0 k)) d = f i.
  Proof. intros H. rewrite (nth_indep _ d (f 0%nat)) by (rewrite map_length, seq_length; exact H). rewrite (map_nth f (seq 0 k) 0%nat i), seq_nth by exact H. reflexivity. Qed.

  Theorem compute_correct : (20 <= n)%nat -> exists ft, compute_filter_kd_tree dim points cells JxW flex_inds query = Ok ft /\ filter_ok n ft /\
    (forall i w j, (i < n)%nat -> In (w, j) (nth i (f_rows ft) []) -> w = Fin (Rmax 0 (radius dim cells JxW - dist dim cs i j))) /\
    (forall i, (i < n)%nat -> length (nth i (f_rows ft) []) = 20%nat /\ NoDup (map snd (nth i (f_rows ft) []))) /\
    (forall i j k, (i < n)%nat -> (j < n)%nat -> In k (map snd (nth i (f_rows ft) [])) -> ~ In j (map snd (nth i (f_rows ft) [])) -> dist dim cs i k <= dist dim cs i j).
  Proof.
    intros N. eexists. split; [exact (compute_ok N)|]. cbn [f_rows].
    assert (RW : forall i, (i < n)%nat -> nth i (map row_of (seq 0 n)) [] = row_of i) by (intros i Hi; now apply nth_map_seq).
    assert (SN : forall i, map snd (row_of i) = map snd (query cs i)) by (intros i; unfold row_of; now rewrite map_map).
    split; [|split; [|split]].
    - split; [cbn [f_rows]; now rewrite map_length, seq_length|]. intros i Hi. cbn [f_rows]. rewrite (RW i Hi).
      assert (HH : Hs (mkFilter (map row_of (seq 0 n)) (map (fun row => sumK (map fst row : list Xops)) (map row_of (seq 0 n)))) i = sumK (map fst (row_of i) : list Xops)).
      { unfold Hs. cbn [f_Hs]. rewrite map_map. now apply (nth_map_seq (fun i => sumK (map fst (row_of i) : list Xops) : xr)). }
      split; [|split].
      + intros w j H. destruct (row_entries i w j N Hi H) as (J & ->). split; [|exact J]. eexists; split; [reflexivity|apply Rmax_l].
      + rewrite HH. destruct (row_sum i N Hi) as (s & -> & P). exists s. auto.
      + exact HH.
    - intros i w j Hi H. rewrite (RW i Hi) in H. now apply row_entries.
    - intros i Hi. rewrite (RW i Hi), SN. destruct (QC i ltac:(rewrite len_cs; lia)) as (L20 & _ & Q). destruct (Q ltac:(rewrite len_cs; lia)) as (ND & _).
      split; [unfold row_of; rewrite map_length; exact L20|exact ND].
    - intros i j k Hi Hj Hk NJ. rewrite (RW i Hi), SN in Hk, NJ. destruct (QC i ltac:(rewrite len_cs; lia)) as (_ & _ & Q). destruct (Q ltac:(rewrite len_cs; lia)) as (_ & _ & Q3).
      apply in_map_iff in Hk as ((d & k') & <- & H). apply (Q3 j ltac:(rewrite len_cs; lia) NJ d k' H).
  Qed.
End Compute.

(** ** Applying the filter *)
Section Apply.
  Variable n : nat.
  Variable ft : filter.
  Hypothesis FO : filter_ok n ft.
  Let row i := nth i (f_rows ft) [].
  Lemma H_real i (v : nat -> xr) : (i < n)%nat -> each n finite v -> H_apply ft v i = Fin (rfold (map (fun wj => to_R (fst wj) * to_R (v (snd wj))) (row i))).
  Proof.
    intros Hi V. destruct (proj2 FO i Hi) as (W & _). unfold H_apply. fold (row i) in *. etransitivity; [apply (sumK_fin (map (fun wj => xmul (fst wj) (v (snd wj))) (row i)))|].
    - apply Forall_forall. intros x Hx. apply in_map_iff in Hx as ((w & j) & <- & H). cbn [fst snd]. destruct (W w j H) as ((a & -> & _) & J). destruct (V j J) as (b & -> & _).
      eexists; split; [reflexivity|exact I].
    - f_equal. rewrite map_map. f_equal. apply map_ext_in. intros (w & j) H. cbn [fst snd]. destruct (W w j H) as ((a & -> & _) & J). destruct (V j J) as (b & -> & _). reflexivity.
  Qed.
  Lemma Hs_real i : (i < n)%nat -> Hs ft i = Fin (rfold (map (fun wj => to_R (fst wj)) (row i))) /\ 0 < rfold (map (fun wj => to_R (fst wj)) (row i)).
  Proof.
    intros Hi. destruct (proj2 FO i Hi) as (W & P & E). fold (row i) in *.
    assert (Q : Hs ft i = Fin (rfold (map (fun wj => to_R (fst wj)) (row i)))).
    { rewrite E. etransitivity; [apply sumK_fin|now rewrite map_map]. apply Forall_forall. intros x Hx. apply in_map_iff in Hx as ((w & j) & <- & H). destruct (W w j H) as ((a & -> & _) & _).
      eexists; split; [reflexivity|exact I]. }
    split; [exact Q|]. destruct P as (r & R & P). rewrite Q in R. inversion R as [R0]. rewrite R0. exact P.
  Qed.
  Lemma avg_bounds (l : list (xr * nat)) (v : nat -> xr) lo hi : (forall w j, In (w, j) l -> 0 <= to_R w /\ lo <= to_R (v j) <= hi) ->
    lo * rfold (map (fun wj => to_R (fst wj)) l) <= rfold (map (fun wj => to_R (fst wj) * to_R (v (snd wj))) l) <= hi * rfold (map (fun wj => to_R (fst wj)) l).
  Proof.
    induction l as [|(w & j) l IH]; intros H; cbn [map fold_right fst snd]; [lra|]. destruct (H w j (or_introl eq_refl)) as (A & B & C). destruct (IH ltac:(intros w' j' H'; apply H; now right)) as (D & E).
    pose proof (Rmult_le_compat_l (to_R w) _ _ A B). pose proof (Rmult_le_compat_l (to_R w) _ _ A C). lra.
  Qed.
  Theorem density_range lo hi rho : within n lo hi rho -> exists rho', applyDensityFilter ft n rho = Ok rho' /\ within n lo hi rho'.
  Proof.
    intros R. unfold applyDensityFilter. rewrite (proj1 FO), Nat.eqb_refl. eexists; split; [reflexivity|]. intros i Hi. destruct (Hs_real i Hi) as (E & P).
    assert (V : each n finite rho) by (intros j Hj; destruct (R j Hj) as (r & -> & _); eexists; split; [reflexivity|exact I]).
    rewrite (H_real i rho Hi V), E, xdivF by lra. eexists; split; [reflexivity|].
    destruct (avg_bounds (row i) rho lo hi) as (A & B).
    { intros w j H. destruct (proj2 FO i Hi) as (W & _). destruct (W w j H) as ((a & -> & Pa) & J). destruct (R j J) as (r & -> & Pr). cbn [to_R]. lra. }
    set (s := rfold (map (fun wj => to_R (fst wj)) (row i))) in *. split.
    - apply (Rmult_le_reg_r s); [exact P|]. unfold Rdiv. rewrite Rmult_assoc, Rinv_l by lra. lra.
    - apply (Rmult_le_reg_r s); [exact P|]. unfold Rdiv. rewrite Rmult_assoc, Rinv_l by lra. lra.
  Qed.
  Theorem density_const c rho : (forall i, (i < n)%nat -> rho i = Fin c) -> exists rho', applyDensityFilter ft n rho = Ok rho' /\ forall i, (i < n)%nat -> rho' i = Fin c.
  Proof.
    intros H. destruct (density_range c c rho) as (rho' & E & W); [intros i Hi; rewrite (H i Hi); eexists; split; [reflexivity|lra]|]. exists rho'. split; [exact E|].
    intros i Hi. destruct (W i Hi) as (r & -> & B). f_equal. lra.
  Qed.
  Lemma inner_finite rho g j : each n (fin_with (fun _ => True)) rho -> each n finite g -> (j < n)%nat ->
    xdiv (xdiv (xmul (rho j) (g j)) (xmax (Fin (1 / 1000)) (rho j))) (Hs ft j) =
    Fin (to_R (rho j) * to_R (g j) / Rmax (1 / 1000) (to_R (rho j)) / rfold (map (fun wj => to_R (fst wj)) (row j))).
  Proof.
    intros R G Hj. destruct (R j Hj) as (r & -> & _). destruct (G j Hj) as (a & -> & _). cbn [xmul to_R]. destruct (Hs_real j Hj) as (-> & P). rewrite xmaxF, xdivF, xdivF by (try lra; pose proof (Rmax_l (1/1000) r); lra). reflexivity.
  Qed.
  Lemma filtered_finite rho g : each n finite rho -> each n finite g -> each n finite (filtered ft rho g).
  Proof.
    intros R G i Hi. unfold filtered. rewrite H_real; [eexists; split; [reflexivity|exact I]|exact Hi|]. intros j Hj. rewrite (inner_finite rho g j R G Hj). eexists; split; [reflexivity|exact I].
  Qed.

  (** in terms of the weights *)
  Lemma row_by_columns (l : list (xr * nat)) (v : nat -> R) : (forall w j, In (w, j) l -> (j < n)%nat) ->
    rfold (map (fun wj => to_R (fst wj) * v (snd wj)) l) = rsum n (fun j => rfold (map (fun wj => if (snd wj =? j)%nat then to_R (fst wj) else 0) l) * v j).
  Proof.
    induction l as [|(w & j) l IH]; intros H.
    - cbn [map fold_right]. rewrite (sum_n_ext (K := Rops) n _ (fun _ => 0)); [symmetry; exact (ProblemFacts.sum_n_zero Rops_ring n)|intros; ops; ring].
    - cbn [map fold_right fst snd]. rewrite IH by (intros w' j' H'; apply (H w'); now right).
      rewrite (sum_n_ext (K := Rops) n (fun i => ((if (j =? i)%nat then to_R w else 0) + rfold (map (fun wj => if (snd wj =? i)%nat then to_R (fst wj) else 0) l)) * v i)
        (fun i => 1 * (if (i =? j)%nat then to_R w * v j else 0) + 1 * (rfold (map (fun wj => if (snd wj =? i)%nat then to_R (fst wj) else 0) l) * v i))).
      + rewrite rsum_lin. rewrite rsum_single by (apply (H w); now left). ops. ring.
      + intros i Hi. rewrite (Nat.eqb_sym i j). destruct (Nat.eqb_spec j i) as [->|]; ops; ring.
  Qed.
  Lemma H_weights i (v : nat -> xr) : (i < n)%nat -> each n finite v -> H_apply ft v i = Fin (rsum n (fun j => weight_of ft i j * to_R (v j))).
  Proof.
    intros Hi V. rewrite (H_real i v Hi V). f_equal. apply (row_by_columns (row i) (fun j => to_R (v j))). intros w j H. now apply (proj2 FO i Hi) in H.
  Qed.
  Lemma dens_fin rho j : each n finite rho -> (j < n)%nat ->
    xdiv (H_apply ft rho j) (Hs ft j) = Fin (rsum n (fun i => weight_of ft j i * to_R (rho i)) / rfold (map (fun wj => to_R (fst wj)) (row j))).
  Proof. intros R Hj. rewrite (H_weights j rho Hj R). destruct (Hs_real j Hj) as (-> & P). apply xdivF. lra. Qed.
  Theorem sensitivity_adjoint rho g v v' g' : (forall i j, (i < n)%nat -> (j < n)%nat -> weight_of ft i j = weight_of ft j i) ->
    within n (1 / 1000) 1 rho -> each n finite g -> each n finite v -> applyDensityFilter ft n v = Ok v' -> g' = filtered ft rho g ->
    rsum n (fun i => to_R (g' i) * to_R (v i)) = rsum n (fun j => to_R (g j) * to_R (v' j)).
  Proof.
    intros SY R G V EV ->. unfold applyDensityFilter in EV. rewrite (proj1 FO), Nat.eqb_refl in EV. apply Ok_inj in EV. subst v'.
    assert (RF' : each n finite rho) by (intros j Hj; destruct (R j Hj) as (r & -> & _); eexists; split; [reflexivity|exact I]).
    set (hs := fun j => rfold (map (fun wj => to_R (fst wj)) (row j))).
    rewrite (sum_n_ext (K := Rops) n _ (fun i => rsum n (fun j => weight_of ft i j * (to_R (g j) / hs j) * to_R (v i)))).
    - rewrite (sum_n_ext (K := Rops) n (fun j => to_R (g j) * to_R (xdiv (H_apply ft v j) (Hs ft j))) (fun j => rsum n (fun i => weight_of ft i j * (to_R (g j) / hs j) * to_R (v i)))).
      + exact (ProblemFacts.sum_n_swap Rops_ring n n _).
      + intros j Hj. rewrite (dens_fin v j V Hj). cbn [to_R]. fold (hs j).
        transitivity (to_R (g j) / hs j * rsum n (fun i => weight_of ft j i * to_R (v i))); [ops; unfold Rdiv; ring|].
        etransitivity; [symmetry; exact (ProblemFacts.sum_n_mul_l Rops_ring n (to_R (g j) / hs j) (fun i => weight_of ft j i * to_R (v i)))|].
        apply (sum_n_ext (K := Rops)). intros i Hi. rewrite (SY i j Hi Hj). ops. ring.
    - intros i Hi. unfold filtered. rewrite H_weights; [|exact Hi|intros j Hj; rewrite (inner_finite rho g j RF' G Hj); eexists; split; [reflexivity|exact I]]. cbn [to_R].
      etransitivity; [symmetry; exact (ProblemFacts.sum_n_mul_r Rops_ring n (to_R (v i)) (fun j => weight_of ft i j * to_R (xdiv (xdiv (xmul (rho j) (g j)) (xmax (Fin (1 / 1000)) (rho j))) (Hs ft j))))|].
      apply (sum_n_ext (K := Rops)). intros j Hj. rewrite (inner_finite rho g j RF' G Hj). cbn [to_R]. fold (hs j). destruct (R j Hj) as (r & -> & B). cbn [to_R]. rewrite Rmax_right by lra.
      destruct (Hs_real j Hj) as (_ & P). fold (hs j) in P. ops. field. lra.
  Qed.
End Apply.

Section Symmetric.
  Variable dim : nat.
  Variables (points : list (list xr)) (cells : list (list nat)) (JxW : list (list xr)) (flex_inds : list nat).
  Variable query : list (list xr) -> nat -> list (xr * nat).
  Hypothesis MO : mesh_ok dim points cells JxW flex_inds.
  Let cs := flex_centroids dim points cells flex_inds.
  Let n := length flex_inds.
  Hypothesis QC : query_correct dim query cs.
  Hypothesis N : (20 <= n)%nat.
  Variable ft : filter.
  Hypothesis E : compute_filter_kd_tree dim points cells JxW flex_inds query = Ok ft.
  Lemma weight_stored (l : list (xr * nat)) w j : NoDup (map snd l) -> In (w, j) l -> rfold (map (fun wj => if (snd wj =? j)%nat then to_R (fst wj) else 0) l) = to_R w.
  Proof.
    induction l as [|(w' & j') l IH]; intros ND H; [destruct H|]. inversion ND as [|? ? NI ND']; subst. cbn [map fold_right fst snd]. destruct H as [H|H].
    - inversion H; subst. rewrite Nat.eqb_refl. clear IH ND ND' H.
      assert (Z : rfold (map (fun wj => if (snd wj =? j)%nat then to_R (fst wj) else 0) l) = 0); [|lra].
      cbn [snd] in NI. induction l as [|(w2 & j2) l IH]; [reflexivity|]. cbn [map fold_right fst snd] in *. destruct (Nat.eqb_spec j2 j) as [->|]; [exfalso; apply NI; now left|]. rewrite IH; [lra|]. intros A. apply NI. now right.
    - rewrite (IH ND' H). destruct (Nat.eqb_spec j' j) as [->|]; [|lra]. exfalso. apply NI. apply in_map_iff. exists (w, j). auto.
  Qed.
  Lemma weight_missing (l : list (xr * nat)) j : ~ In j (map snd l) -> rfold (map (fun wj => if (snd wj =? j)%nat then to_R (fst wj) else 0) l) = 0.
  Proof.
    intros NI. induction l as [|(w2 & j2) l IH]; [reflexivity|]. cbn [map fold_right fst snd] in *. destruct (Nat.eqb_spec j2 j) as [->|]; [exfalso; apply NI; now left|]. rewrite IH; [lra|]. intros A. apply NI. now right.
  Qed.
  Theorem weights_exact i j : (forall l, NoDup l -> (forall k, In k l -> (k < n)%nat /\ dist dim cs i k < radius dim cells JxW) -> (length l <= 20)%nat) ->
    (i < n)%nat -> (j < n)%nat -> weight_of ft i j = Rmax 0 (radius dim cells JxW - dist dim cs i j).
  Proof.
    intros FEW Hi Hj. destruct (compute_correct dim points cells JxW flex_inds query MO QC N) as (ft' & E' & FO & W & L & NR). rewrite E in E'. apply Ok_inj in E'. subst ft'. fold n cs in FO, W, L, NR.
    unfold weight_of. destruct (L i Hi) as (L20 & ND). destruct (in_dec Nat.eq_dec j (map snd (nth i (f_rows ft) []))) as [Y|Y].
    - apply in_map_iff in Y as ((w & j') & EJ & H). cbn [snd] in EJ. subst j'. rewrite (weight_stored _ w j ND H). rewrite (W i w j Hi H). reflexivity.
    - rewrite (weight_missing _ j Y). symmetry. apply Rmax_left. destruct (Rle_or_lt (radius dim cells JxW) (dist dim cs i j)) as [A|A]; [lra|]. exfalso.
      assert (LL : (length (j :: map snd (nth i (f_rows ft) [])) <= 20)%nat).
      { apply FEW; [constructor; assumption|]. intros k [<-|Hk]; [auto|]. split.
        - apply in_map_iff in Hk as ((w & k') & <- & H). now apply (proj2 FO i Hi) in H.
        - eapply Rle_lt_trans; [exact (NR i j k Hi Hj Hk Y)|exact A]. }
      cbn [length] in LL. rewrite map_length, L20 in LL. lia.
  Qed.
  Lemma dist_sym i j : dist dim cs i j = dist dim cs j i.
  Proof. unfold dist. f_equal. apply (sum_n_ext (K := Rops)). intros l _. ops. ring. Qed.
End Symmetric.

(** ** The optimization loop *)
Section Loop.
  Variables density_filtering sensitivity_filtering : bool.
  Variable solve : nat -> (nat -> nat -> XF) -> (nat -> XF) -> result (nat -> XF).
  Hypothesis SF : solves_finite solve.
  Variable fuel : nat.
  Variables m n : nat.
  Variable objectiveHandle : nat -> (nat -> xr) -> result (xr * (nat -> xr)).
  Variable consHandle : (nat -> xr) -> nat -> result ((nat -> xr) * (nat -> nat -> xr)).
  Hypothesis HF : handles_finite m n objectiveHandle consHandle.
  Variable ft : filter.
  Hypothesis FO : filter_ok n ft.

  Definition mma_ok (M : mma XF) : Prop := (forall i, x_min M i = Fin 0) /\ (forall i, x_max M i = Fin 1) /\ positive (moveLimit M) /\
    each n finite (xold1 M) /\ each n finite (xold2 M) /\ each n finite (lowAsymp M) /\ each n finite (upAsymp M) /\ scaling_ok m M.
  Lemma mma_design M xval : mma_ok M -> densities n xval -> design_ok n M xval.
  Proof.
    intros (A & B & C & D & E & F & G & _) X. split; [|auto]. intros j Hj. rewrite A, B. destruct (X j Hj) as (r & -> & R). repeat split; do 2 eexists; (split; [reflexivity|]; split; [reflexivity|]); lra.
  Qed.
  Lemma dens_finite rho : densities n rho -> each n finite rho.
  Proof. intros R j Hj. destruct (R j Hj) as (r & -> & _). eexists; split; [reflexivity|exact I]. Qed.
  Lemma physical_ok rho : densities n rho -> exists rp, physical density_filtering n ft rho = Ok rp /\ densities n rp.
  Proof. intros R. unfold physical. destruct density_filtering; [now apply (density_range n ft FO 0 1)|]. exists rho. auto. Qed.
  Lemma gradients_ok loop rho rp dJ vc dvc : densities n rho -> densities n rp -> gradients sensitivity_filtering n objectiveHandle consHandle ft loop rho rp = Ok (dJ, vc, dvc) ->
    values_ok m n dJ vc dvc.
  Proof.
    intros R RP. unfold gradients. destruct (objectiveHandle loop rp) as [(J & g)|] eqn:E1; [|discriminate]. destruct (consHandle rp loop) as [(v & dv)|] eqn:E2; [|discriminate]. cbn [bind fst snd].
    pose proof (proj1 HF _ _ _ _ RP E1) as G. destruct (proj2 HF _ _ _ _ RP E2) as (V & DV). destruct sensitivity_filtering.
    - unfold applySensitivityFilter. rewrite (proj1 FO), Nat.eqb_refl. cbn [bind fst snd]. intros H. apply Ok_inj in H. inversion H; subst. split; [|split; [exact V|intros i Hi]];
        apply (filtered_finite n ft FO); auto using dens_finite.
    - intros H. apply Ok_inj in H. inversion H; subst. split; [exact G|]. split; assumption.
  Qed.
  Lemma mmasub_ok M xval dJ vc dvc st M' : mma_ok M -> densities n xval -> values_ok m n dJ vc dvc -> mmasub solve fuel m n M xval dJ vc dvc = Done (Ok (st, M')) ->
    densities n (vx st) /\ M' = mkMma (F := XF) (epoch M) (xold1 M) (xold2 M) (low (mma_problem n M xval dJ vc dvc)) (upp (mma_problem n M xval dJ vc dvc)) (x_min M) (x_max M) (moveLimit M)
      (zconst M) (zscale M) (ylinscale M) (yquadscale M) /\ mma_ok M'.
  Proof.
    intros MOK X V. pose proof (mma_design M xval MOK X) as D. unfold mmasub. set (P := mma_problem n M xval dJ vc dvc).
    assert (W : well_posed m n P) by (apply approx_well_posed; [exact D|exact V|apply MOK]).
    destruct (subsolv m n P solve fuel _) as [r|] eqn:E; [|discriminate]. destruct r as [s|]; [|discriminate]. intros H. assert (s = st /\ M' = mkMma (F := XF) (epoch M) (xold1 M) (xold2 M) (low P) (upp P) (x_min M) (x_max M) (moveLimit M)
      (zconst M) (zscale M) (ylinscale M) (yquadscale M)) as (-> & EM) by (inversion H; auto). clear H.
    pose proof (subsolv_interior m n P solve W SF fuel _ st E) as IN. destruct D as (D1 & D2 & D3 & D4 & D5 & D6).
    pose proof (bounds n M xval dJ vc dvc D1 D2 D3 D4 D5 D6) as B. fold P in B.
    split; [|split; [exact EM|]].
    - intros j Hj. destruct (proj1 IN j Hj) as (I1 & I2). destruct (B j Hj) as (_ & _ & _ & _ & B5 & B6 & _). destruct MOK as (A0 & A1 & _). rewrite A0 in B5. rewrite A1 in B6.
      destruct I1 as (a & x & Ea & Ex & I1). destruct I2 as (x' & b & Ex' & Eb & I2). rewrite Ex in Ex'. inversion Ex'; subst x'. rewrite Ea in B5. rewrite Eb in B6.
      destruct B5 as (z & a' & Z1 & Z2 & B5). destruct B6 as (b' & o & Z3 & Z4 & B6). inversion Z1; inversion Z2; inversion Z3; inversion Z4; subst. rewrite Ex. eexists; split; [reflexivity|lra].
    - subst M'. destruct MOK as (A & B' & C & E1 & E2 & _ & _ & SC). unfold mma_ok. cbn [x_min x_max moveLimit xold1 xold2 lowAsymp upAsymp]. split; [exact A|]. split; [exact B'|]. split; [exact C|]. split; [exact E1|]. split; [exact E2|].
      split; [|split; [|exact SC]].
      + intros j Hj. destruct (B j Hj) as ((a & b & -> & _) & _). eexists; split; [reflexivity|exact I].
      + intros j Hj. destruct (B j Hj) as (_ & _ & _ & (a & b & _ & -> & _) & _). eexists; split; [reflexivity|exact I].
  Qed.
  Lemma loop_ok k : forall loop M xval tr r, mma_ok M -> densities n xval ->
    opt_loop density_filtering sensitivity_filtering solve fuel m n objectiveHandle consHandle ft k loop M xval = (tr, r) ->
    Forall (densities n) tr /\ (forall rho, r = Done (Ok rho) -> densities n rho) /\ ((7 <= fuel)%nat -> r <> Running).
  Proof.
    induction k as [|k IH]; intros loop M xval tr r MOK X E; cbn [opt_loop] in E.
    - inversion E; subst. split; [constructor|]. split; [|discriminate]. intros rho H. inversion H; subst. exact X.
    - destruct (physical_ok xval X) as (rp & EP & RP). rewrite EP in E.
      destruct (gradients _ n objectiveHandle consHandle ft (S loop) xval rp) as [((dJ & vc) & dvc)|] eqn:EG.
      2:{ inversion E; subst. split; [now repeat constructor|]. split; discriminate. }
      pose proof (gradients_ok (S loop) xval rp dJ vc dvc X RP EG) as V.
      destruct (mmasub solve fuel m n M xval dJ vc dvc) as [[(st & M')|]|] eqn:EM.
      + destruct (mmasub_ok M xval dJ vc dvc st M' MOK X V EM) as (XS & _ & MOK').
        destruct (opt_loop _ _ _ _ _ _ _ _ _ k _ _ _) as [tr' r'] eqn:EL. inversion E; subst tr r. 
        assert (MOK2 : mma_ok (mkMma (F := XF) (S (epoch M')) xval (xold1 M') (lowAsymp M') (upAsymp M') (x_min M') (x_max M') (moveLimit M') (zconst M') (zscale M') (ylinscale M') (yquadscale M'))).
        { destruct MOK' as (A & B & C & D & _ & F & G & H). unfold mma_ok. cbn [x_min x_max moveLimit xold1 xold2 lowAsymp upAsymp]. repeat (split; [assumption || exact (dens_finite xval X)|]). exact H. }
        destruct (IH _ _ _ _ _ MOK2 XS EL) as (A & B & C). split; [now constructor|]. auto.
      + inversion E; subst. split; [now repeat constructor|]. split; discriminate.
      + inversion E; subst. split; [now repeat constructor|]. split; [discriminate|]. intros FU _. unfold mmasub in EM.
        pose proof (subsolv_seven m n (mma_problem n M xval dJ vc dvc) solve fuel FU) as NR. destruct (subsolv m n _ solve fuel _) as [[s|]|] eqn:ES; try discriminate. now apply NR.
  Qed.
  Lemma initial_ok rho mv : densities n rho -> positive mv -> mma_ok (initial_mma rho mv).
  Proof.
    intros R P. assert (F1 : each n finite (fun _ => Fin 1)) by (intros i Hi; eexists; split; [reflexivity|exact I]). pose proof (dens_finite rho R).
    unfold mma_ok, initial_mma, scaling_ok. cbn [x_min x_max moveLimit xold1 xold2 lowAsymp upAsymp zconst zscale ylinscale yquadscale].
    repeat (split; [reflexivity || assumption || (eexists; split; [reflexivity|exact I]) || (intros i Hi; eexists; split; [reflexivity|exact I])|]). intros i Hi. eexists; split; [reflexivity|lra].
  Qed.
  Theorem optimize_box rho mv k tr r : densities n rho -> positive mv ->
    optimize_with density_filtering sensitivity_filtering solve fuel m n objectiveHandle consHandle ft rho mv k = (tr, r) ->
    Forall (densities n) tr /\ (forall rho', r = Done (Ok rho') -> densities n rho') /\ ((7 <= fuel)%nat -> r <> Running).
  Proof. intros R P. apply loop_ok; [now apply initial_ok|exact R]. Qed.
End Loop.

(** ** No exception if the handles and the linear solver raise none *)
Section Total.
  Variable solve : nat -> (nat -> nat -> XF) -> (nat -> XF) -> result (nat -> XF).
  Hypothesis ST : solves_always solve.
  Variables m n : nat.
  Hypothesis N : (0 < n)%nat.
  Lemma np_max_ok (l : list XF) : l <> [] -> exists r, np_max l = Ok r.
  Proof. destruct l; [congruence|]. intros _. eexists; reflexivity. Qed.
  Lemma py_maxl_ok (l : list XF) : l <> [] -> exists r, py_maxl l = Ok r.
  Proof. destruct l; [congruence|]. intros _. eexists; reflexivity. Qed.
  Lemma entries_ne (u : nat -> XF) : entries n u <> [].
  Proof. unfold entries. destruct n; [lia|]. discriminate. Qed.
  Lemma residu_ne (P : subproblem XF) e st : residu m n P e st <> [].
  Proof. unfold residu. intros H. apply app_eq_nil in H as (H & _). exact (entries_ne _ H). Qed.
  Lemma map_ne {A B} (f : A -> B) l : l <> [] -> map f l <> [].
  Proof. destruct l; [congruence|discriminate]. Qed.
  Lemma direction_total (P : subproblem XF) e st : exists d, direction m n P e st solve = Ok d.
  Proof.
    unfold direction. destruct (m <? n)%nat; unfold few, many.
    - destruct (ST (m + 1)%nat (AA_few m n P st) (bb_few m n P e st)) as (s & ->). eexists. reflexivity.
    - destruct (ST (n + 1)%nat (AA_many m n P st) (bb_many m n P e st)) as (s & ->). eexists. reflexivity.
  Qed.
  Lemma first_steg_total (P : subproblem XF) st d : exists s, first_steg m n P st d = Ok s.
  Proof.
    unfold first_steg. destruct (np_max_ok (steps m n st d)) as (a & ->).
    - unfold steps. intros H. apply app_eq_nil in H as (_ & H). discriminate.
    - unfold bind at 1. match goal with |- context [bind (np_max ?l)] => destruct (np_max_ok l (entries_ne _)) as (b & ->) end. unfold bind at 1.
      match goal with |- context [bind (np_max ?l)] => destruct (np_max_ok l (entries_ne _)) as (c & ->) end. eexists. reflexivity.
  Qed.
  Lemma inner_step_total (P : subproblem XF) e it : exists it', inner_step m n P solve e it = Ok it'.
  Proof. unfold inner_step. destruct (direction_total P e (it_st it)) as (d & ->). unfold bind at 1. destruct (first_steg_total P (it_st it) d) as (s & ->). unfold bind. eexists. reflexivity. Qed.
  Lemma search_ne (P : subproblem XF) k e old d r0 : forall steg r1 cur r, r <> [] -> it_residu (search m n P k e old d r0 steg r1 cur r) <> [].
  Proof. induction k as [|k IH]; intros steg r1 cur r H; [exact H|]. rewrite search_unfold. cbv zeta. destruct (ltb r0 r1); [|exact H]. apply IH. apply residu_ne. Qed.
  Lemma inner_total P k e : forall rmax it, it_residu it <> [] -> exists it', inner m n P solve k e rmax it = Ok it'.
  Proof.
    induction k as [|k IH]; intros rmax it H; cbn [inner]; destruct (ltb _ _); try (eexists; reflexivity).
    destruct (inner_step_total P e it) as (it2 & E). rewrite E. unfold bind at 1.
    assert (H2 : it_residu it2 <> []).
    { unfold inner_step in E. destruct (direction m n P e (it_st it) solve); [|discriminate]. unfold bind at 1 in E. destruct (first_steg m n P (it_st it) a); [|discriminate]. unfold bind in E. apply Ok_inj in E. subst it2. apply search_ne. exact H. }
    destruct (py_maxl_ok (map absn (it_residu it2)) (map_ne _ _ H2)) as (r & ->). unfold bind. apply IH. exact H2.
  Qed.
  Lemma outer_step_total P e st : exists st', outer_step m n P solve e st = Ok st'.
  Proof.
    unfold outer_step. destruct (np_max_ok (map absn (residu m n P e st)) (map_ne _ _ (residu_ne P e st))) as (r & ->). unfold bind at 1.
    destruct (inner_total P 200 e r (mkIt st (residu m n P e st) (residunorm m n P e st)) (residu_ne P e st)) as (it & ->). unfold bind. eexists. reflexivity.
  Qed.
  Lemma outer_total P fuel emin : forall e st err, outer m n P solve fuel emin e st <> Done (Err err).
  Proof. induction fuel as [|f IH]; intros e st err; cbn [outer]; destruct (ltb _ _); try discriminate. destruct (outer_step_total P e st) as (s & ->). apply IH. Qed.
  Theorem subsolv_total P fuel : (7 <= fuel)%nat -> exists st, subsolv m n P solve fuel (Fin (1 / 10000000) : XF) = Done (Ok st).
  Proof.
    intros F. pose proof (subsolv_seven m n P solve fuel F) as R. pose proof (outer_total P fuel (Fin (1 / 10000000) : XF) (@lit XF 1) (start P)) as E. unfold subsolv in *.
    destruct (outer m n P solve fuel _ _ _) as [[st|err]|]; [eauto|now destruct (E err)|congruence].
  Qed.
  Variables density_filtering sensitivity_filtering : bool.
  Variable objectiveHandle : nat -> (nat -> xr) -> result (xr * (nat -> xr)).
  Variable consHandle : (nat -> xr) -> nat -> result ((nat -> xr) * (nat -> nat -> xr)).
  Hypothesis HO : forall l rho, exists r, objectiveHandle l rho = Ok r.
  Hypothesis HC : forall l rho, exists r, consHandle rho l = Ok r.
  Variable ft : filter.
  Hypothesis FL : length (f_rows ft) = n.
  Variable fuel : nat.
  Hypothesis FU : (7 <= fuel)%nat.
  Lemma loop_total k : forall loop M xval, exists tr rho', opt_loop density_filtering sensitivity_filtering solve fuel m n objectiveHandle consHandle ft k loop M xval = (tr, Done (Ok rho')) /\ length tr = k.
  Proof.
    induction k as [|k IH]; intros loop M xval; cbn [opt_loop]; [do 2 eexists; split; reflexivity|].
    assert (EP : exists rp, physical density_filtering n ft xval = Ok rp) by (unfold physical, applyDensityFilter; rewrite FL, Nat.eqb_refl; destruct density_filtering; eexists; reflexivity).
    destruct EP as (rp & ->).
    assert (EG : exists dJ vc dvc, gradients sensitivity_filtering n objectiveHandle consHandle ft (S loop) xval rp = Ok (dJ, vc, dvc)).
    { unfold gradients, applySensitivityFilter. destruct (HO (S loop) rp) as (r1 & ->). cbn [bind]. destruct (HC (S loop) rp) as (r2 & ->). cbn [bind]. rewrite FL, Nat.eqb_refl. destruct sensitivity_filtering; do 3 eexists; reflexivity. }
    destruct EG as (dJ & vc & dvc & ->). unfold mmasub. destruct (subsolv_total (mma_problem n M xval dJ vc dvc) fuel FU) as (st & E). change (@lit XF (1 / 10000000)) with (Fin (1 / 10000000)). rewrite E.
    match goal with |- context [opt_loop _ _ _ _ _ _ _ _ _ k ?l ?M ?x] => destruct (IH l M x) as (tr & rho' & -> & L) end. do 2 eexists. split; [reflexivity|]. cbn [length]. now rewrite L.
  Qed.
End Total.

(** ** The history *)
Section History.
  Variables density_filtering sensitivity_filtering : bool.
  Variable solve : nat -> (nat -> nat -> XF) -> (nat -> XF) -> result (nat -> XF).
  Variable fuel : nat.
  Variables m n : nat.
  Variable objectiveHandle : nat -> (nat -> xr) -> result (xr * (nat -> xr)).
  Variable consHandle : (nat -> xr) -> nat -> result ((nat -> xr) * (nat -> nat -> xr)).
  Variable ft : filter.
  Variable mv : xr.
  Definition box_mma ep (a b l u : nat -> xr) : mma XF := mkMma (F := XF) ep a b l u (fun _ => Fin 0) (fun _ => Fin 1) mv (Fin 1) (fun _ => Fin 0) (fun _ => Fin 10000) (fun _ => Fin 0).
  Definition back (d : nat -> nat -> xr) (before : nat -> nat -> xr) (i k : nat) : nat -> xr := if (k <=? i)%nat then d (i - k)%nat else before (k - i)%nat.
  Definition iteration_from loop (before d L U : nat -> nat -> xr) (handed : list (nat -> xr)) (i : nat) : Prop :=
    exists rho dJ vc dvc st,
      nth_error handed i = Some rho /\ physical density_filtering n ft (d i) = Ok rho /\
      gradients sensitivity_filtering n objectiveHandle consHandle ft (loop + i + 1) (d i) rho = Ok (dJ, vc, dvc) /\
      let S := mma_problem n (box_mma (loop + i + 1) (back d before i 1) (back d before i 2) (L i) (U i)) (d i) dJ vc dvc in
      subsolv m n S solve fuel (Fin (1 / 10000000) : XF) = Done (Ok st) /\ d (i + 1)%nat = vx st /\ L (i + 1)%nat = low S /\ U (i + 1)%nat = upp S.
  Lemma loop_history k : forall loop a b l u xval tr rho, 
    opt_loop density_filtering sensitivity_filtering solve fuel m n objectiveHandle consHandle ft k loop (box_mma (loop + 1) a b l u) xval = (tr, Done (Ok rho)) ->
    exists d L U, d 0%nat = xval /\ L 0%nat = l /\ U 0%nat = u /\ d k = rho /\ length tr = k /\
      forall i, (i < k)%nat -> iteration_from loop (fun j => if (j =? 1)%nat then a else b) d L U tr i.
  Proof.
    induction k as [|k IH]; intros loop a b l u xval tr rho E; cbn [opt_loop] in E.
    - inversion E; subst. exists (fun _ => rho), (fun _ => l), (fun _ => u). repeat split. intros i Hi. lia.
    - destruct (physical _ n ft xval) as [rp|] eqn:EP; [|inversion E]. destruct (gradients _ n _ _ ft (S loop) xval rp) as [((dJ & vc) & dvc)|] eqn:EG; [|inversion E].
      unfold mmasub in E. change (@lit XF (1 / 10000000)) with (Fin (1 / 10000000)) in E. set (P := mma_problem n (box_mma (loop + 1) a b l u) xval dJ vc dvc) in *.
      destruct (subsolv m n P solve fuel (Fin (1 / 10000000))) as [[st|]|] eqn:ES; [|inversion E|inversion E].
      destruct (opt_loop _ _ _ _ _ _ _ _ _ k _ _ _) as [tr' r'] eqn:EL. inversion E; subst tr r'. clear E.
      cbn [epoch xold1 xold2 lowAsymp upAsymp x_min x_max moveLimit zconst zscale ylinscale yquadscale box_mma] in EL.
      replace (S (loop + 1)) with (S loop + 1)%nat in EL by lia. fold (box_mma (S loop + 1) xval a (low P) (upp P)) in EL.
      destruct (IH (S loop) xval a (low P) (upp P) (vx st) tr' rho EL) as (d & L & U & D0 & L0 & U0 & DK & LT & H).
      exists (fun i => match i with 0%nat => xval | S i => d i end), (fun i => match i with 0%nat => l | S i => L i end), (fun i => match i with 0%nat => u | S i => U i end).
      repeat (split; [reflexivity || assumption || (cbn [length]; now rewrite LT)|]). intros [|i] Hi.
      + exists rp, dJ, vc, dvc, st. split; [reflexivity|]. split; [exact EP|]. replace (loop + 0 + 1)%nat with (S loop) by lia. split; [exact EG|]. cbv zeta. cbn [Nat.add]. unfold back. cbn [Nat.leb Nat.sub Nat.eqb].
        replace (S loop) with (loop + 1)%nat by lia. fold P. rewrite D0, L0, U0. auto.
      + destruct (H i ltac:(lia)) as (rho' & dJ' & vc' & dvc' & st' & A1 & A2 & A3 & A4). exists rho', dJ', vc', dvc', st'. split; [exact A1|]. split; [exact A2|].
        replace (loop + S i + 1)%nat with (S loop + i + 1)%nat by lia. split; [exact A3|]. cbv zeta in A4 |- *. cbn [Nat.add] in A4 |- *.
        replace (back (fun i => match i with 0%nat => xval | S i => d i end) (fun j => if (j =? 1)%nat then a else b) (S i) 1) with (back d (fun j => if (j =? 1)%nat then xval else a) i 1).
        2:{ unfold back. destruct i as [|i]; [reflexivity|]. cbn [Nat.leb Nat.sub]. rewrite Nat.sub_0_r. reflexivity. }
        replace (back (fun i => match i with 0%nat => xval | S i => d i end) (fun j => if (j =? 1)%nat then a else b) (S i) 2) with (back d (fun j => if (j =? 1)%nat then xval else a) i 2).
        2:{ unfold back. destruct i as [|[|i]]; [reflexivity|reflexivity|]. cbn [Nat.leb Nat.sub]. rewrite Nat.sub_0_r. reflexivity. }
        exact A4.
  Qed.
  Theorem optimize_history k rho_ini tr rho : optimize_with density_filtering sensitivity_filtering solve fuel m n objectiveHandle consHandle ft rho_ini mv k = (tr, Done (Ok rho)) ->
    exists d L U, d 0%nat = rho_ini /\ (L 0%nat = fun _ => Fin 1) /\ (U 0%nat = fun _ => Fin 1) /\ d k = rho /\ length tr = k /\
      forall i, (i < k)%nat -> mma_iteration density_filtering sensitivity_filtering solve fuel m n objectiveHandle consHandle ft mv d L U tr i.
  Proof.
    intros E. unfold optimize_with, initial_mma in E. change (xmul (Fin 10000) (Fin 1)) with (Fin (10000 * 1)) in E. rewrite Rmult_1_r in E.
    destruct (loop_history k 0 rho_ini rho_ini _ _ rho_ini tr rho E) as (d & L & U & D0 & L0 & U0 & DK & LT & H). exists d, L, U. repeat (split; [assumption|]). intros i Hi.
    destruct (H i Hi) as (rho' & dJ' & vc' & dvc' & st' & A1 & A2 & A3 & A4). exists rho', dJ', vc', dvc', st'. split; [exact A1|]. split; [exact A2|]. split; [exact A3|].
    replace (back d (fun j => if (j =? 1)%nat then rho_ini else rho_ini) i 1) with (d (i - 1)%nat) in A4.
    2:{ unfold back. destruct i as [|i]; [cbn; now rewrite D0|reflexivity]. }
    replace (back d (fun j => if (j =? 1)%nat then rho_ini else rho_ini) i 2) with (d (i - 2)%nat) in A4.
    2:{ unfold back. destruct i as [|[|i]]; [cbn; now rewrite D0|cbn; now rewrite D0|reflexivity]. }
    exact A4.
  Qed.
  Hypothesis SF : solves_finite solve.
  Hypothesis HF : handles_finite m n objectiveHandle consHandle.
  Hypothesis FO : filter_ok n ft.
  Lemma iteration_moves d L U tr i : positive mv -> densities n (d i) -> densities n (d (i - 1)%nat) -> densities n (d (i - 2)%nat) -> each n finite (L i) -> each n finite (U i) ->
    mma_iteration density_filtering sensitivity_filtering solve fuel m n objectiveHandle consHandle ft mv d L U tr i ->
    densities n (d (i + 1)%nat) /\ each n finite (L (i + 1)%nat) /\ each n finite (U (i + 1)%nat) /\
    forall j, (j < n)%nat -> fin_with (fun t => Rabs t <= to_R mv) (xsub (d (i + 1)%nat j) (d i j)).
  Proof.
    intros MP R0 R1 R2 FL FU (rho & dJ & vc & dvc & st & A1 & A2 & A3 & A4). cbv zeta in A4. fold (box_mma (i + 1) (d (i - 1)%nat) (d (i - 2)%nat) (L i) (U i)) in A4. set (M := box_mma _ _ _ _ _) in *. destruct A4 as (A4 & AD & AL & AU).
    assert (MOK : mma_ok m n M).
    { unfold mma_ok, M, box_mma, scaling_ok. cbn [x_min x_max moveLimit xold1 xold2 lowAsymp upAsymp zconst zscale ylinscale yquadscale]. pose proof (dens_finite n _ R1). pose proof (dens_finite n _ R2).
      repeat (split; [reflexivity || assumption || (eexists; split; [reflexivity|exact I]) || (intros ? ?; eexists; split; [reflexivity|exact I])|]). intros ? ?. eexists; split; [reflexivity|lra]. }
    destruct (physical_ok density_filtering n ft FO (d i) R0) as (rp & EP & RP). rewrite A2 in EP. apply Ok_inj in EP. subst rp.
    pose proof (gradients_ok sensitivity_filtering m n objectiveHandle consHandle HF ft FO (i + 1)%nat (d i) rho dJ vc dvc R0 RP A3) as V.
    destruct (mmasub_ok solve SF fuel m n M (d i) dJ vc dvc st _ MOK R0 V ltac:(unfold mmasub; change (@lit XF (1 / 10000000)) with (Fin (1 / 10000000)); rewrite A4; reflexivity)) as (X & _ & MOK').
    rewrite AD, AL, AU. split; [exact X|]. destruct MOK' as (_ & _ & _ & _ & _ & FL' & FU' & _). split; [exact FL'|]. split; [exact FU'|]. intros j Hj.
    pose proof (mma_design m n M (d i) MOK R0) as (D1 & D2 & D3 & D4 & D5 & D6). destruct (bounds n M (d i) dJ vc dvc D1 D2 D3 D4 D5 D6 j Hj) as (_ & _ & _ & _ & _ & _ & _ & B1 & B2).
    destruct (proj1 (subsolv_interior m n _ solve (approx_well_posed m n M (d i) dJ vc dvc (mma_design m n M (d i) MOK R0) V ltac:(apply MOK)) SF fuel _ st A4) j Hj) as (I1 & I2).
    set (P := mma_problem n M (d i) dJ vc dvc) in *. change (x_min M j) with (Fin 0) in B1, B2. change (x_max M j) with (Fin 1) in B1, B2. change (moveLimit M) with mv in B1, B2.
    destruct (R0 j Hj) as (x & EX & _). destruct MP as (mr & EM & MP). rewrite EX, EM in B1, B2. rewrite EX, EM.
    destruct I1 as (al & y & Ea & Ey & I1). destruct I2 as (y' & be & Ey' & Eb & I2). rewrite Ey in Ey'. inversion Ey'; subst y'. rewrite Ea in B1. rewrite Eb in B2. rewrite Ey.
    destruct B1 as (t & al' & Z1 & Z2 & B1). destruct B2 as (be' & t' & Z3 & Z4 & B2). ops. cbn [xmul xsub xadd xopp] in Z1, Z4. inversion Z1; inversion Z2; inversion Z3; inversion Z4; subst.
    eexists; split; [reflexivity|]. cbn [to_R]. apply Rabs_le. lra.
  Qed.
  Theorem optimize_moves k d L U tr : positive mv -> densities n (d 0%nat) -> (L 0%nat = fun _ => Fin 1) -> (U 0%nat = fun _ => Fin 1) ->
    (forall i, (i < k)%nat -> mma_iteration density_filtering sensitivity_filtering solve fuel m n objectiveHandle consHandle ft mv d L U tr i) ->
    forall i, (i < k)%nat -> forall j, (j < n)%nat -> fin_with (fun t => Rabs t <= to_R mv) (xsub (d (i + 1)%nat j) (d i j)).
  Proof.
    intros MP R0 L0 U0 H. 
    assert (F1 : each n finite (fun _ : nat => Fin 1)) by (intros j Hj; eexists; split; [reflexivity|exact I]).
    assert (Z : forall i, (i <= k)%nat -> forall j, (j <= i)%nat -> densities n (d j) /\ each n finite (L j) /\ each n finite (U j)).
    { induction i as [|i IH]; intros Hi j Hj.
      - replace j with 0%nat by lia. rewrite L0, U0. auto.
      - destruct (Nat.eq_dec j (S i)) as [->|]; [|apply IH; lia]. replace (S i) with (i + 1)%nat by lia.
        destruct (iteration_moves d L U tr i MP (proj1 (IH ltac:(lia) i ltac:(lia))) (proj1 (IH ltac:(lia) (i - 1)%nat ltac:(lia))) (proj1 (IH ltac:(lia) (i - 2)%nat ltac:(lia)))
          (proj1 (proj2 (IH ltac:(lia) i ltac:(lia)))) (proj2 (proj2 (IH ltac:(lia) i ltac:(lia)))) (H i ltac:(lia))) as (A & B & C & _). auto. }
    intros i Hi. destruct (iteration_moves d L U tr i MP (proj1 (Z i ltac:(lia) i ltac:(lia))) (proj1 (Z i ltac:(lia) (i - 1)%nat ltac:(lia))) (proj1 (Z i ltac:(lia) (i - 2)%nat ltac:(lia)))
          (proj1 (proj2 (Z i ltac:(lia) i ltac:(lia)))) (proj2 (proj2 (Z i ltac:(lia) i ltac:(lia)))) (H i Hi)) as (_ & _ & _ & D). exact D.
  Qed.
End History.
