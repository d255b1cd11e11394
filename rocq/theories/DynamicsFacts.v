(** Lemmas for C75: masses, held dofs, one step. *)
From Coq Require Import Reals List Arith Lia Lra Bool.
From Verif Require Import Num Arr ArrFacts Fe Problem SpecAssembly BatchFacts ProblemFacts AssemblyFacts DerivFacts Basis SpecBasis SpecFe FeFacts GeomFacts SolverBc SpecBc BcFacts SpecWeak KernelFacts BalanceFacts
  SpecEnergy EnergyFacts Elastic ElasticFacts SpecElastic ElasticMain Dynamics SpecDynamics.
Import ListNotations.
Local Open Scope R_scope.

(** *** arrays *)
Lemma shaped_row {A} n m (x : list (list A)) i : shaped n m x -> (i < n)%nat -> length (nth i x []) = m.
Proof. intros [L H] Hi. apply H, nth_In. lia. Qed.
Lemma shaped_map2 {A B C} (g : A -> B -> C) n m x y : shaped n m x -> shaped n m y -> shaped n m (map2 (map2 g) x y).
Proof.
  intros [L1 H1] [L2 H2]. split; [rewrite length_map2; lia|]. intros row Hr. unfold map2 in Hr at 1. apply in_map_iff in Hr as ([a b] & <- & Hab).
  pose proof (in_combine_l _ _ _ _ Hab). pose proof (in_combine_r _ _ _ _ Hab). cbn [fst snd]. rewrite length_map2, H1, H2 by auto. lia.
Qed.
Lemma get2_map2 {A B C} (g : A -> B -> C) n m x y i j da db dc : shaped n m x -> shaped n m y -> (i < n)%nat -> (j < m)%nat ->
  get2 dc (map2 (map2 g) x y) i j = g (get2 da x i j) (get2 db y i j).
Proof.
  intros S1 S2 Hi Hj. unfold get2. rewrite (nth_map2 (map2 g) x y i [] [] []) by (rewrite ?(proj1 S1), ?(proj1 S2); auto).
  apply nth_map2; erewrite shaped_row by eauto; auto.
Qed.
Lemma shaped_ext {A} (d : A) n m x y : shaped n m x -> shaped n m y -> (forall i j, (i < n)%nat -> (j < m)%nat -> get2 d x i j = get2 d y i j) -> x = y.
Proof.
  intros S1 S2 E. apply (nth_ext x y [] []); [rewrite (proj1 S1), (proj1 S2); auto|]. intros i Hi. rewrite (proj1 S1) in Hi.
  apply (nth_ext _ _ d d); [rewrite (shaped_row n m x), (shaped_row n m y); auto|]. intros j Hj. rewrite (shaped_row n m x) in Hj by auto. now apply E.
Qed.

Lemma length_at_add1 x is_ vs : length (at_add1 x is_ vs) = length x.
Proof. unfold at_add1. generalize (combine is_ vs). intros l. revert x. induction l as [|u l IH]; intros x; [reflexivity|]. cbn. rewrite IH. apply length_upd_nth. Qed.
Lemma nth_at_add1 x is_ vs n : (n < length x)%nat -> nth n (at_add1 x is_ vs) 0 = nth n x 0 + sum_over (K := Rops) (combine is_ vs) (fun u => if (fst u =? n)%nat then snd u else 0).
Proof.
  unfold at_add1. generalize (combine is_ vs). intros l. revert x. induction l as [|u l IH]; intros x Hn; cbn [fold_left].
  - rewrite sum_over_nil. cbn. req; ring.
  - rewrite IH by (now rewrite length_upd_nth). rewrite sum_over_cons, nth_upd_nth. apply Nat.ltb_lt in Hn. rewrite Hn, andb_true_r.
    destruct u as [i v]. cbn. destruct (i =? n)%nat; req; ring.
Qed.

Lemma sum_combine_rows (cs : list (list nat)) nn (g : nat -> nat -> Rops) (h : nat * Rops -> Rops) s : (forall c, In c cs -> length c = nn) ->
  sum_over (K := Rops) (combine (concat cs) (flat_map (fun e => map (g e) (seq 0 nn)) (seq s (length cs)))) h
  = sum_n (K := Rops) (length cs) (fun c => sum_n (K := Rops) nn (fun a => h (nth a (nth c cs []) 0%nat, g (s + c)%nat a))).
Proof.
  revert s. induction cs as [|c cs IH]; intros s L; [reflexivity|]. cbn [concat length seq flat_map].
  assert (Lc : length c = nn) by (apply L; now left).
  rewrite <- (app_nil_r (map (g s) _)) at 1.
  assert (E : forall (a b : list nat) (x y : list Rops), length a = length x -> combine (a ++ b) (x ++ y) = combine a x ++ combine b y).
  { induction a as [|? ? IHa]; intros b [|? x] y Hl; cbn in *; try lia; auto. rewrite IHa by lia. reflexivity. }
  rewrite app_nil_r, E by (rewrite map_length, seq_length; auto). rewrite (sum_over_app Rops_ring). rewrite IH by (intros; apply L; now right).
  unfold sum_n at 3. cbn [seq]. rewrite sum_over_cons. rewrite <- seq_shift, sum_over_map. f_equal.
  - cbn [nth]. rewrite Nat.add_0_r. clear -Lc. subst nn. unfold sum_n.
    assert (G : forall k, sum_over (K := Rops) (combine c (map (g s) (seq k (length c)))) h = sum_over (K := Rops) (seq 0 (length c)) (fun a => h (nth a c 0%nat, g s (k + a)%nat))).
    { induction c as [|x c IH]; intros k; [reflexivity|]. cbn [length seq map combine]. rewrite !sum_over_cons. rewrite IH.
      rewrite <- seq_shift, sum_over_map. cbn [nth]. rewrite Nat.add_0_r. f_equal. apply sum_over_ext_in. intros a _. now rewrite Nat.add_succ_r. }
    apply G.
  - apply sum_over_ext_in. intros i _. cbn [nth]. now rewrite Nat.add_succ_r.
Qed.

Section Facts.
  Context {V : Type}.
  Variables (sqrtK : Rops -> Rops) (p : problem Rops V) (f : fe Rops) (P : list (list Rops)) (rho dt : R).
  Hypothesis WF : wf_problem p.
  Hypothesis NC : (0 < p_num_cells p)%nat.
  Hypothesis STD : standard_problem p f.
  Let N := length (points f).
  Lemma f_in : In f (fes p).
  Proof. rewrite (fes_f p f STD). now left. Qed.
  Lemma ncells_f : length (cells f) = p_num_cells p.
  Proof. apply (wf_cells p WF), f_in. Qed.
  Lemma field_ok u : is_field f u <-> sol_ok p [u].
  Proof using STD.
    unfold is_field, sol_ok. rewrite (fes_f p f STD). cbn [length]. split.
    - intros S. split; auto. intros v Hv. replace v with 0%nat by (clear -Hv; lia). rewrite (fe_of_f p f STD). exact S.
    - intros [_ H]. specialize (H 0%nat). rewrite (fe_of_f p f STD) in H. apply H. exact Nat.lt_0_1.
  Qed.

  (** *** masses *)
  Lemma length_nodal_mass : length (nodal_mass f P rho) = N.
  Proof. unfold nodal_mass. rewrite length_at_add1, repeat_length. reflexivity. Qed.
  Lemma nodal_mass_entry n : (n < N)%nat -> nth n (nodal_mass f P rho) 0 = lumped_mass f P rho n.
  Proof.
    intros Hn. unfold nodal_mass. rewrite nth_at_add1 by (rewrite repeat_length; exact Hn). rewrite nth_repeat.
    rewrite (sum_combine_rows (cells f) (num_nodes f) (element_mass f P rho) _ 0).
    - unfold lumped_mass. rewrite Rplus_0_l. apply Rsum_ext. intros c Hc. apply Rsum_ext. intros a Ha. reflexivity.
    - intros c Hc. apply (wf_cell_len p WF f); auto using f_in.
  Qed.
  Lemma mass_shaped : shaped N (vec f) (mass f P rho).
  Proof.
    split; [unfold mass; rewrite map_length; apply length_nodal_mass|]. intros row Hr. unfold mass in Hr. apply in_map_iff in Hr as (m & <- & _). apply repeat_length.
  Qed.
  Lemma mass_entry n k : (n < N)%nat -> (k < vec f)%nat -> get2 (@zero Rops) (mass f P rho) n k = lumped_mass f P rho n.
  Proof.
    intros Hn Hk. pose proof length_nodal_mass as L. unfold get2, mass.
    rewrite (nth_map_in (fun m : Rops => repeat m (vec f)) (nodal_mass f P rho) n (@zero Rops) []) by (rewrite L; exact Hn).
    rewrite <- nodal_mass_entry by auto. rewrite (nth_indep _ _ (nth n (nodal_mass f P rho) (@zero Rops))) by (rewrite repeat_length; auto). apply nth_repeat.
  Qed.
  Lemma mass_total s : built_element s (dim f) f -> sum_n (K := Rops) N (fun n => lumped_mass f P rho n) = rho * volume f P.
  Proof.
    intros LAG. unfold lumped_mass, volume. rewrite Rsum_swap, <- Rsum_mul. apply Rsum_ext. intros c Hc. rewrite Rsum_swap.
    transitivity (sum_n (K := Rops) (num_nodes f) (fun a => rho * sum_n (K := Rops) (num_quads f) (fun q => shape_vals f q a * get_JxW P f c q))).
    - apply Rsum_ext. intros a Ha.
      transitivity (sum_n (K := Rops) N (fun n => (if (cell_node f c a =? n)%nat then 1 else 0) * (rho * sum_n (K := Rops) (num_quads f) (fun q => shape_vals f q a * get_JxW P f c q)))).
      { apply Rsum_ext. intros n Hn. destruct (_ =? n)%nat; req; ring. }
      rewrite (Rsum_delta N (cell_node f c a) (fun _ => _)); [reflexivity|]. apply (node_ok p f WF STD); auto. rewrite <- ncells_f. exact Hc.
    - rewrite Rsum_mul. f_equal. rewrite Rsum_swap. apply Rsum_ext. intros q Hq.
      transitivity (sum_n (K := Rops) (num_nodes f) (fun a => get_JxW P f c q * shape_vals f q a)).
      { apply Rsum_ext. intros; req; ring. }
      rewrite Rsum_mul. pose proof (vals_total Rops_ring s f q LAG) as T. cbn in T. rewrite T. req; ring.
  Qed.

End Facts.

Section Held.
  Variable (f : fe Rops).
  Let N := length (points f).
  (** *** held dofs *)
  Lemma at_set_true (us : list (nat * nat)) (x : list (list bool)) n m i j : shaped n m x -> (i < n)%nat -> (j < m)%nat ->
    let y := fold_left (fun acc u => upd2 (fst (fst u)) (snd (fst u)) (fun _ => snd u) acc) (combine us (repeat true (length us))) x in
    shaped n m y /\ (get2 false y i j = true <-> get2 false x i j = true \/ In (i, j) us).
  Proof.
    revert x. induction us as [|[a b] us IH]; intros x S Hi Hj.
    - cbn. split; auto. tauto.
    - cbn [length repeat combine fold_left fst snd].
      assert (S' : shaped n m (upd2 a b (fun _ => true) x)).
      { destruct (has_shape2_upd2 n m x a b (fun _ => true)) as [A B]; [split; [apply S|]; apply Forall_forall; apply S|]. split; auto. now apply Forall_forall. }
      destruct (IH _ S' Hi Hj) as (S2 & E). split; [exact S2|]. rewrite E. rewrite get2_upd2.
      rewrite (has_shape2_in2 n m) by (split; [apply S|]; apply Forall_forall; apply S).
      apply Nat.ltb_lt in Hi, Hj. rewrite Hi, Hj, andb_true_r. cbn [In].
      destruct (Nat.eqb_spec a i) as [->|], (Nat.eqb_spec b j) as [->|]; cbn [andb]; intuition congruence.
  Qed.
  Lemma fixed_spec : bc_ok f -> shaped N (vec f) (fixed f) /\
    forall n k, (n < N)%nat -> (k < vec f)%nat -> get2 false (fixed f) n k = true <-> constrained f n k.
  Proof.
    intros BC.
    assert (G : forall gs (x : list (list bool)), (forall g, In g gs -> length (snd g) = length (fst g)) -> shaped N (vec f) x ->
      let y := fold_left (fun acc nv => at_set2 acc (fst nv) (snd nv) (repeat true (length (fst nv)))) gs x in
      shaped N (vec f) y /\ forall n k, (n < N)%nat -> (k < vec f)%nat -> get2 false y n k = true <-> get2 false x n k = true \/ exists g, In g gs /\ In (n, k) (combine (fst g) (snd g))).
    { induction gs as [|g gs IH]; intros x L S.
      - cbn. split; auto. intros n k _ _. split; auto. intros [H|(g & [] & _)]; auto.
      - cbn [fold_left]. assert (Lg : length (snd g) = length (fst g)) by (apply L; now left).
        set (x1 := at_set2 x (fst g) (snd g) (repeat true (length (fst g)))).
        assert (X : forall i j, (i < N)%nat -> (j < vec f)%nat -> shaped N (vec f) x1 /\ (get2 false x1 i j = true <-> get2 false x i j = true \/ In (i, j) (combine (fst g) (snd g)))).
        { intros i j Hi Hj. pose proof (at_set_true (combine (fst g) (snd g)) x N (vec f) i j S Hi Hj) as A. cbv zeta in A.
          rewrite combine_length, Lg, Nat.min_id in A. exact A. }
        assert (S1 : shaped N (vec f) x1).
        { unfold x1, at_set2. generalize (combine (combine (fst g) (snd g)) (repeat true (length (fst g)))). intros us. clear -S. revert x S. induction us as [|u us IH]; intros x S; cbn; auto.
          apply IH. destruct (has_shape2_upd2 N (vec f) x (fst (fst u)) (snd (fst u)) (fun _ => snd u)) as [A B]; [split; [apply S|]; apply Forall_forall; apply S|].
          split; auto. now apply Forall_forall. }
        destruct (IH x1 (fun g' H => L g' (or_intror H)) S1) as (S2 & E). split; [exact S2|].
        intros n k Hn Hk. rewrite E by auto. rewrite (proj2 (X n k Hn Hk)). split.
        + intros [[H|H]|(g' & H1 & H2)]; auto; right; [exists g|exists g']; cbn; auto.
        + intros [H|(g' & [->|H1] & H2)]; auto. right. eauto. }
    assert (LG : forall g, In g (combine (node_inds_list f) (vec_inds_list f)) -> exists i, (i < length (node_inds_list f))%nat /\ g = (nth i (node_inds_list f) [], nth i (vec_inds_list f) [])).
    { intros g Hg. apply (In_nth _ _ ([], [])) in Hg as (i & Hi & <-). rewrite combine_length in Hi. exists i. split; [lia|].
      assert (A : forall (l : list (list nat)) m i, (i < length l)%nat -> (i < length m)%nat -> nth i (combine l m) ([], []) = (nth i l [], nth i m ([] : list nat))).
      { clear. induction l as [|x l IH]; intros [|y m] [|i] H1 H2; cbn in *; try lia; auto. apply IH; lia. }
      apply A; lia. }
    destruct (G (combine (node_inds_list f) (vec_inds_list f)) (zeros2 false N (vec f))) as (S & E).
    - intros g Hg. destruct (LG g Hg) as (i & Hi & ->). cbn. apply (BC i Hi).
    - split; [apply repeat_length|]. intros row Hr. apply repeat_spec in Hr as ->. apply repeat_length.
    - split; [exact S|]. intros n k Hn Hk. unfold fixed. change (num_total_nodes f) with N. rewrite E by auto.
      assert (Z : get2 false (zeros2 false N (vec f)) n k = false).
      { unfold get2, zeros2. rewrite (nth_indep _ [] (repeat false (vec f))) by (rewrite repeat_length; auto). rewrite nth_repeat. apply nth_repeat. }
      rewrite Z. unfold constrained, bc_entries. split.
      + intros [H|(g & Hg & H)]; [discriminate|]. destruct (LG g Hg) as (i & Hi & ->). cbn in H. destruct (BC i Hi) as (L1 & L2 & _).
        apply (In_nth _ _ (0%nat, 0%nat)) in H as (j & Hj & Ej).
        exists (nth j (nth i (vals_list f) []) (@zero Rops)). apply in_flat_map. exists i. split; [apply in_seq; lia|].
        rewrite <- Ej. rewrite <- combine_nth; [|rewrite combine_length; cbn [car Rops] in *; lia]. apply nth_In. rewrite !combine_length. rewrite combine_length in Hj. cbn [car Rops] in *. lia.
      + intros (b & Hb). right. apply in_flat_map in Hb as (i & Hi & Hb). apply in_seq in Hi. apply in_combine_l in Hb.
        exists (nth i (node_inds_list f) [], nth i (vec_inds_list f) []). split; [|exact Hb].
        destruct (Nat.lt_ge_cases i (length (vec_inds_list f))) as [H|H].
        * assert (A : forall (l m : list (list nat)) i, (i < length l)%nat -> (i < length m)%nat -> In (nth i l [], nth i m []) (combine l m)).
          { clear. induction l as [|x l IH]; intros [|y m] [|i] H1 H2; cbn in *; try lia; auto. right. apply IH; lia. }
          apply A; lia.
        * rewrite (nth_overflow (vec_inds_list f)) in Hb by auto. destruct (nth i (node_inds_list f) []); destruct Hb.
  Qed.
End Held.
