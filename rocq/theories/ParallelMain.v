(** Proofs for C97: the distributed system, the grid, the whole run. *)
From Coq Require Import List Arith Bool Lia Reals Lra ZArith Permutation.
From Verif Require Import Num Arr ArrFacts Fe FeFacts Problem XNum ElasticFacts LinAlg Parallel SpecParallel ParallelFacts.
Import ListNotations.
Local Open Scope R_scope.
Local Notation sum n g := (sum_n (K := Rops) n g).

Lemma total_seq n (g : nat -> R) : total (seq 0 n) g = sum n g.
Proof. induction n as [|n IH]; [reflexivity|]. rewrite seq_S, total_app, (sum_n_S Rops_ring), IH. cbn; req; ring. Qed.
Lemma total_flat {A B} (f : A -> list B) l g : total (flat_map f l) g = total l (fun a => total (f a) g).
Proof. induction l as [|a l IH]; [reflexivity|]. cbn [flat_map]. rewrite total_app, IH. reflexivity. Qed.
Lemma total_prod {A B} (l : list A) (m : list B) g : total (list_prod l m) g = total l (fun a => total m (fun b => g (a, b))).
Proof. induction l as [|a l IH]; [reflexivity|]. cbn [list_prod]. rewrite total_app, IH, total_map. reflexivity. Qed.
Lemma sum_reindex n (num : nat -> nat) (g : nat -> R) : (forall k, (k < n)%nat -> (num k < n)%nat) -> (forall k l, (k < n)%nat -> (l < n)%nat -> num k = num l -> k = l) ->
  sum n (fun l => g (num l)) = sum n g.
Proof.
  intros H I. rewrite <- !total_seq, <- (total_map num (seq 0 n) g). apply total_perm.
  apply NoDup_Permutation_bis.
  - assert (P : forall L, NoDup L -> (forall k, In k L -> (k < n)%nat) -> NoDup (map num L)).
    { induction L as [|a L IH]; intros N B; [constructor|]. inversion N; subst. cbn. constructor; [|apply IH; auto; intros; apply B; now right].
      intros Hi. apply in_map_iff in Hi as (b & E & Hb). assert (b = a) by (apply I; auto; apply B; [now right|now left]). now subst. }
    apply P; [apply seq_NoDup|]. intros k Hk. apply in_seq in Hk. lia.
  - now rewrite map_length.
  - intros x Hx. apply in_map_iff in Hx as (k & <- & Hk). apply in_seq in Hk. apply in_seq. pose proof (H k ltac:(lia)). lia.
Qed.

Section Dist.
  Variable coords : list pt.
  Variable cells : list (list nat).
  Hypothesis TR : triangulation coords cells.
  Notation n := (length coords).
  Notation at_ := (at_ coords).
  Variables (num : nat -> nat) (ranks : list rank_view) (vert : list (nat -> nat)).
  Hypothesis D : distributes coords cells num ranks vert.
  Notation zn := (zn num).
  Notation gc := (gcells ranks vert).
  Let NI := d_inj _ _ _ _ _ D.

  Lemma gc_good c : In c gc -> good coords c.
  Proof.
    intros Hc. destruct (d_cover _ _ _ _ _ D) as (cells' & P & F). apply (Permutation_in _ P) in Hc. clear P.
    assert (TR' := TR). unfold triangulation in TR'. clear NI; clear TR D. induction F as [|a b l m Hp F IH]; [destruct Hc|]. destruct Hc as [->|Hc].
    - apply (good_perm coords b c); [now apply Permutation_sym|]. apply TR'. now left.
    - apply IH; auto. intros; apply TR'. now right.
  Qed.
  Lemma views r m : In (r, m) (combine ranks vert) -> view_ok coords num r m.
  Proof.
    intros H. split.
    - intros v Hv. destruct (d_local _ _ _ _ _ D r v m H Hv) as (B & X & O). split; [exact B|]. split; [exact X|]. rewrite O. apply (gd_local num).
    - intros c Hc. split.
      + assert (G : good coords (map m c)) by (apply gc_good; apply in_flat_map; exists (r, m); split; [exact H|]; apply in_map_iff; eauto).
        destruct G as (i & j & k & E & _). rewrite <- (map_length m), E. reflexivity.
      + intros v Hv. apply (d_cells _ _ _ _ _ D r c v); auto. eapply in_combine_l; eauto.
  Qed.
  Definition A0 (k l : nat) : R := total gc (entry coords k l).
  Definition b0 (f : R -> R -> R) (k : nat) : R := total gc (load_entry coords f k).
  Lemma good_in c v : good coords c -> In v c -> (v < n)%nat.
  Proof. intros (i & j & k & -> & Hi & Hj & Hk & _) [<-|[<-|[<-|[]]]]; assumption. Qed.
  Lemma good_len c : good coords c -> length c = 3%nat.
  Proof. intros (i & j & k & -> & _). reflexivity. Qed.
  Lemma move_cells (g : list nat -> R) : (forall c c', Permutation c c' -> good coords c -> g c = g c') -> total gc g = total cells g.
  Proof.
    intros H. destruct (d_cover _ _ _ _ _ D) as (cells' & P & F). unfold gcells. rewrite (total_perm _ _ g P). apply (total_Forall2 _ _ _ _ _ F). intros a b Ha Hb Hp. apply H; auto.
    apply gc_good. eapply Permutation_in; [apply Permutation_sym; exact P|exact Ha].
  Qed.
  Lemma form_all (w u : nat -> R) : sum n (fun k => w k * sum n (fun l => A0 k l * u l)) = total cells (fun c => cell_energy coords c u w).
  Proof.
    transitivity (sum n (fun k => total gc (fun c => w k * sum n (fun l => entry coords k l c * u l)))).
    - apply Rsum_ext. intros k Hk. rewrite total_mul. f_equal. rewrite total_sum. apply Rsum_ext. intros l Hl. unfold A0.
      rewrite Rmult_comm, <- total_mul. apply total_ext. intros c Hc. apply Rmult_comm.
    - rewrite <- (total_sum gc n (fun c k => w k * sum n (fun l => entry coords k l c * u l))).
      transitivity (total gc (fun c => cell_energy coords c u w)).
      + apply total_ext. intros c Hc. pose proof (gc_good c Hc) as G. rewrite entry_form by (auto using good_len; intros; eapply good_in; eauto). now apply form_energy.
      + apply move_cells. intros c c' P G. unfold cell_energy. now rewrite (area_perm coords c c' P G), !(grad_perm coords c c' _ P G).
  Qed.
  Lemma load_all f (w : nat -> R) : sum n (fun k => w k * b0 f k) = load_of coords cells f w.
  Proof.
    transitivity (sum n (fun k => total gc (fun c => w k * load_entry coords f k c))).
    - apply Rsum_ext. intros k Hk. now rewrite total_mul.
    - rewrite <- (total_sum gc n (fun c k => w k * load_entry coords f k c)). unfold load_of.
      transitivity (total gc (fun c => cell_area coords c * f (fst (centroid coords c)) (snd (centroid coords c)) * (total c w / 3))).
      + apply total_ext. intros c Hc. pose proof (gc_good c Hc) as G. rewrite load_form by (auto using good_len; intros; eapply good_in; eauto). rewrite load_cell by exact G. field.
      + apply move_cells. intros c c' P G. unfold centroid. now rewrite (area_perm coords c c' P G), !(total_perm c c' _ P).
  Qed.
  Lemma energy_total u w e : energy_is coords cells u w e <-> e = total cells (fun c => cell_energy coords c u w).
  Proof.
    split.
    - intros H. apply (H (fun c => grad_of coords c u) (fun c => grad_of coords c w)). intros c Hc. split; apply grad_ok, TR, Hc.
    - intros -> gu gw H. apply total_ext. intros c Hc. destruct (H c Hc) as [Gu Gw]. unfold cell_energy.
      now rewrite (grad_unique coords c u _ (TR c Hc) Gu), (grad_unique coords c w _ (TR c Hc) Gw).
  Qed.

  (** boundary rows *)
  Lemma dir_fold rs : forall mb, let bd g := existsb (fun r => existsb (Z.eqb g) (boundary_dofs r)) rs in
    (forall g h, fst (fold_left dirichlet rs mb) g h = if bd g then (if (g =? h)%Z then 1 else 0) else fst mb g h) /\
    (forall g, snd (fold_left dirichlet rs mb) g = if bd g then 0 else snd mb g).
  Proof.
    induction rs as [|r rs IH]; intros mb; cbn [fold_left existsb]; [split; reflexivity|]. destruct (IH (dirichlet mb r)) as [H1 H2]. split.
    - intros g h. rewrite H1. unfold dirichlet. cbn [fst]. destruct (existsb (Z.eqb g) (boundary_dofs r)), (existsb _ rs); reflexivity.
    - intros g. rewrite H2. unfold dirichlet. cbn [snd]. destruct (existsb (Z.eqb g) (boundary_dofs r)), (existsb _ rs); reflexivity.
  Qed.
  Lemma in_rank r : In r ranks -> exists m, In (r, m) (combine ranks vert).
  Proof.
    pose proof (d_len _ _ _ _ _ D) as L. revert L. clear. revert vert. induction ranks as [|a l IH]; intros [|m v] L H; try discriminate; [destruct H|]. destruct H as [->|H]; [exists m; now left|].
    destruct (IH v ltac:(cbn in L; lia) H) as [m' Hm]. exists m'. now right.
  Qed.
  Lemma bd_iff k : (k < n)%nat -> existsb (fun r => existsb (Z.eqb (zn k)) (boundary_dofs r)) ranks = near_boundary (at_ k).
  Proof.
    intros Hk. destruct (near_boundary (at_ k)) eqn:E.
    - apply existsb_exists. destruct (d_owner _ _ _ _ _ D k Hk) as (r & m & v & Hi & Hv & Hm & Ho). exists r. split; [eapply in_combine_l; eauto|].
      destruct (views r m Hi) as [V _]. destruct (V v Hv) as (_ & X & G). rewrite Hm in X, G.
      apply existsb_exists. exists (zn k). split; [|apply Z.eqb_refl]. unfold boundary_dofs. apply filter_In. split.
      + apply in_map_iff. exists v. split; [exact G|]. apply filter_In. split; [apply in_seq; lia|]. now rewrite X.
      + apply andb_true_iff. unfold zn. split; [apply Z.leb_le|apply Z.ltb_lt]; lia.
    - apply not_true_iff_false. intros H. apply existsb_exists in H as (r & Hr & H). apply existsb_exists in H as (g & Hg & Eg). apply Z.eqb_eq in Eg. subst g.
      unfold boundary_dofs in Hg. apply filter_In in Hg as [Hg _]. apply in_map_iff in Hg as (v & G & Hv). apply filter_In in Hv as [Hv Nb]. apply in_seq in Hv.
      destruct (in_rank r Hr) as [m Hi]. destruct (views r m Hi) as [V _]. destruct (V v ltac:(lia)) as (B & X & G'). rewrite G' in G.
      unfold zn in G. apply Nat2Z.inj in G. apply NI in G; auto. rewrite X, G, E in Nb. discriminate.
  Qed.
  Lemma system f : exists A b, parallel_system f ranks = Ok (A, b) /\
    (forall k l, (k < n)%nat -> (l < n)%nat -> A (zn k) (zn l) = if near_boundary (at_ k) then (if (k =? l)%nat then 1 else 0) else A0 k l) /\
    (forall k, (k < n)%nat -> b (zn k) = if near_boundary (at_ k) then 0 else b0 f k).
  Proof.
    destruct (asm_all coords num NI f ranks vert (d_len _ _ _ _ _ D) views ((fun _ _ => 0), (fun _ => 0))) as (mb & E & HM & HL).
    destruct (dir_fold ranks mb) as [F1 F2].
    exists (fst (fold_left dirichlet ranks mb)), (snd (fold_left dirichlet ranks mb)). split.
    - assert (E1 : assemble f ranks = Ok mb) by exact E. unfold parallel_system. rewrite E1. cbn [bind]. now rewrite <- surjective_pairing.
    - split.
      + intros k l Hk Hl. rewrite F1, (bd_iff k Hk), (zn_eqb coords num NI) by auto. destruct (near_boundary (at_ k)); [reflexivity|]. rewrite (HM k l Hk Hl). cbn [fst]. unfold A0. ring.
      + intros k Hk. rewrite F2, (bd_iff k Hk). destruct (near_boundary (at_ k)); [reflexivity|]. rewrite (HL k Hk). cbn [snd]. unfold b0. ring.
  Qed.

  Lemma assembled f : exists A b, assemble f ranks = Ok (A, b) /\
    (forall w u, energy_is coords cells u w (sum n (fun k => w k * sum n (fun l => A (zn k) (zn l) * u l)))) /\
    (forall w, sum n (fun k => w k * b (zn k)) = load_of coords cells f w).
  Proof.
    destruct (asm_all coords num NI f ranks vert (d_len _ _ _ _ _ D) views ((fun _ _ => 0), (fun _ => 0))) as ([A b] & E & HM & HL). exists A, b. split; [exact E|]. split.
    - intros w u. apply energy_total. rewrite <- form_all. apply Rsum_ext. intros k Hk. f_equal. apply Rsum_ext. intros l Hl. f_equal.
      refine (eq_trans (HM k l Hk Hl) _). cbn [fst]. unfold A0. apply Rplus_0_l.
    - intros w. rewrite <- load_all. apply Rsum_ext. intros k Hk. f_equal. refine (eq_trans (HL k Hk) _). cbn [snd]. unfold b0. apply Rplus_0_l.
  Qed.

  Section Sys.
    Variables (f : R -> R -> R) (A : mat) (b : vec_).
    Hypothesis HA : forall k l, (k < n)%nat -> (l < n)%nat -> A (zn k) (zn l) = if near_boundary (at_ k) then (if (k =? l)%nat then 1 else 0) else A0 k l.
    Hypothesis Hb : forall k, (k < n)%nat -> b (zn k) = if near_boundary (at_ k) then 0 else b0 f k.
    Lemma row_bd k (u : nat -> R) : (k < n)%nat -> near_boundary (at_ k) = true -> sum n (fun l => A (zn k) (zn l) * u l) = u k.
    Proof. intros Hk B. rewrite <- (Rsum_delta n k u Hk). apply Rsum_ext. intros l Hl. rewrite HA, B by auto. reflexivity. Qed.
    Lemma row_in k (u : nat -> R) : (k < n)%nat -> near_boundary (at_ k) = false -> sum n (fun l => A (zn k) (zn l) * u l) = sum n (fun l => A0 k l * u l).
    Proof. intros Hk B. apply Rsum_ext. intros l Hl. rewrite HA, B by auto. reflexivity. Qed.
    Lemma form_sys w u : vanishes coords w -> sum n (fun k => w k * sum n (fun l => A (zn k) (zn l) * u l)) = total cells (fun c => cell_energy coords c u w).
    Proof.
      intros W. rewrite <- form_all. apply Rsum_ext. intros k Hk. destruct (near_boundary (at_ k)) eqn:B.
      - rewrite (W k Hk B). ring.
      - now rewrite row_in.
    Qed.
    Lemma sys_galerkin u : (forall k, (k < n)%nat -> sum n (fun l => A (zn k) (zn l) * u l) = b (zn k)) <-> galerkin coords cells f u.
    Proof.
      split.
      - intros H. assert (VU : vanishes coords u).
        { intros k Hk B. rewrite <- (row_bd k u Hk B), (H k Hk), Hb by exact Hk. unfold on_boundary in B. now rewrite B. }
        split; [exact VU|]. intros w W. apply energy_total. rewrite <- (form_sys w u W), <- load_all. apply Rsum_ext. intros k Hk. rewrite (H k Hk), Hb by exact Hk.
        destruct (near_boundary (at_ k)) eqn:B; [rewrite (W k Hk B); ring|reflexivity].
      - intros [VU G] k Hk. destruct (near_boundary (at_ k)) eqn:B.
        + rewrite (row_bd k u Hk B), Hb, B by exact Hk. now apply VU.
        + set (w := fun l => if (k =? l)%nat then 1 else 0). assert (W : vanishes coords w).
          { intros l Hl Bl. unfold w. destruct (Nat.eqb_spec k l) as [<-|]; [|reflexivity]. unfold on_boundary in Bl. congruence. }
          pose proof (proj1 (energy_total u w _) (G w W)) as E. rewrite <- (form_sys w u W), <- load_all in E.
          assert (E1 : sum n (fun j => w j * b0 f j) = b0 f k) by exact (Rsum_delta n k (b0 f) Hk).
          assert (E2 : sum n (fun j => w j * sum n (fun l => A (zn j) (zn l) * u l)) = sum n (fun l => A (zn k) (zn l) * u l)) by exact (Rsum_delta n k (fun k => sum n (fun l => A (zn k) (zn l) * u l)) Hk).
          rewrite Hb, B by exact Hk. exact (eq_trans (eq_sym E2) (eq_trans (eq_sym E) E1)).
    Qed.
    (** on vectors that vanish on the boundary *)
    Lemma sys_stays x : vanishes coords x -> vanishes coords (fun k => sum n (fun l => A (zn k) (zn l) * x l)).
    Proof. intros X k Hk B. rewrite row_bd by auto. now apply X. Qed.
    Lemma sys_b : vanishes coords (fun k => b (zn k)).
    Proof. intros k Hk B. rewrite Hb by auto. unfold on_boundary in B. now rewrite B. Qed.
    Lemma sys_sym x y : vanishes coords x -> vanishes coords y ->
      sum n (fun k => y k * sum n (fun l => A (zn k) (zn l) * x l)) = sum n (fun k => x k * sum n (fun l => A (zn k) (zn l) * y l)).
    Proof. intros X Y. rewrite !form_sys by auto. apply total_ext. intros c Hc. unfold cell_energy. ring. Qed.
    Lemma area_pos c : good coords c -> 0 < cell_area coords c.
    Proof. intros (i & j & k & -> & _ & _ & _ & N). unfold cell_area. cbn [nth]. pose proof (Rabs_pos_lt _ N). lra. Qed.
    Lemma energy_nonneg c x : good coords c -> 0 <= cell_energy coords c x x.
    Proof. intros G. unfold cell_energy. apply Rmult_le_pos; [left; now apply area_pos|]. nra. Qed.
    Lemma sys_pos x : vanishes coords x -> 0 <= sum n (fun k => x k * sum n (fun l => A (zn k) (zn l) * x l)).
    Proof. intros X. rewrite form_sys by auto. apply total_nonneg. intros c Hc. apply energy_nonneg, TR, Hc. Qed.
    Lemma sys_null x : vanishes coords x -> sum n (fun k => x k * sum n (fun l => A (zn k) (zn l) * x l)) = 0 ->
      forall c k l, In c cells -> In k c -> In l c -> x k = x l.
    Proof.
      intros X Z c k l Hc Hk Hl. rewrite form_sys in Z by auto. pose proof (total_zero _ _ (fun c Hc => energy_nonneg c x (TR c Hc)) Z c Hc) as E.
      pose proof (area_pos c (TR c Hc)) as P. unfold cell_energy in E. assert (Q : fst (grad_of coords c x) * fst (grad_of coords c x) + snd (grad_of coords c x) * snd (grad_of coords c x) = 0) by nra.
      assert (fst (grad_of coords c x) = 0 /\ snd (grad_of coords c x) = 0) as [E1 E2] by (split; nra).
      pose proof (grad_ok coords c x (TR c Hc) k l Hk Hl) as G. rewrite E1, E2 in G. lra.
    Qed.
  End Sys.

  (** gathering *)
  Lemma find_last (d : list ((Z * Z) * R)) key val : (forall e, In e d -> fst e = key -> snd e = val) -> (exists e, In e d /\ fst e = key) -> dict_get d key = Ok val.
  Proof.
    intros H (e & He & Ke). unfold dict_get. destruct (find (fun e => key_eqb (fst e) key) (rev d)) as [e'|] eqn:F.
    - apply find_some in F as [Hi K]. apply in_rev in Hi. f_equal. apply H; [exact Hi|]. unfold key_eqb in K. apply andb_true_iff in K as [K1 K2]. apply Z.eqb_eq in K1, K2. now apply injective_projections.
    - exfalso. apply in_rev in He. apply (find_none _ _ F) in He. rewrite Ke in He. unfold key_eqb in He. now rewrite !Z.eqb_refl in He.
  Qed.
  Lemma mapM_ok {X Y} (g : X -> result Y) (h : X -> Y) l : (forall x, In x l -> g x = Ok (h x)) -> mapM g l = Ok (map h l).
  Proof. induction l as [|x l IH]; intros H; [reflexivity|]. cbn [mapM map]. rewrite (H x) by now left. cbn [bind]. rewrite IH by (intros; apply H; now right). reflexivity. Qed.
  Lemma gathered (xykey : pt -> Z * Z) (x : vec_) : (forall k l, (k < n)%nat -> (l < n)%nat -> xykey (at_ k) = xykey (at_ l) -> k = l) ->
    u_vtk xykey x ranks coords = Ok (map (fun k => x (zn k)) (seq 0 n)).
  Proof.
    intros KI. unfold u_vtk. cbv zeta. assert (EC : coords = map (SpecParallel.at_ coords) (seq 0 n)).
    { apply (nth_ext _ _ (0, 0) (0, 0)); [now rewrite map_length, seq_length|]. intros k Hk. rewrite (nth_map_in _ _ _ 0%nat) by now rewrite seq_length. now rewrite seq_nth. }
    assert (G : forall k, (k < n)%nat -> dict_get (flat_map (owned xykey x) ranks) (xykey (at_ k)) = Ok (x (zn k))).
    { intros k Hk. apply find_last.
      - intros e He Ke. apply in_flat_map in He as (r & Hr & He). unfold owned in He. apply in_map_iff in He as (v & <- & Hv). apply filter_In in Hv as [Hv _]. apply in_seq in Hv.
        destruct (in_rank r Hr) as [m Hi]. destruct (views r m Hi) as [V _]. destruct (V v ltac:(lia)) as (B & X & G'). cbn [fst snd] in *. rewrite X in Ke. apply KI in Ke; auto. now rewrite G', Ke.
      - destruct (d_owner _ _ _ _ _ D k Hk) as (r & m & v & Hi & Hv & Hm & Ho). destruct (views r m Hi) as [V _]. destruct (V v Hv) as (_ & X & G'). rewrite Hm in X, G'.
        exists (xykey (at_ k), x (zn k)). split; [|reflexivity]. apply in_flat_map. exists r. split; [eapply in_combine_l; eauto|]. unfold owned. apply in_map_iff. exists v. split; [now rewrite X, G'|].
        apply filter_In. split; [apply in_seq; lia|]. rewrite G'. apply andb_true_iff. unfold zn. split; [apply Z.leb_le|apply Z.ltb_lt]; lia. }
    rewrite EC at 1. assert (MM : forall L, (forall k, In k L -> (k < n)%nat) -> mapM (fun c => dict_get (flat_map (owned xykey x) ranks) (xykey c)) (map (SpecParallel.at_ coords) L) = Ok (map (fun k => x (zn k)) L)).
    { induction L as [|k L IH]; intros HL; [reflexivity|]. cbn [map mapM]. rewrite (G k) by (apply HL; now left). cbn [bind]. rewrite IH by (intros; apply HL; now right). reflexivity. }
    apply MM. intros k Hk. apply in_seq in Hk. lia.
  Qed.
End Dist.
