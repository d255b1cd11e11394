(** Proofs about the element tables. *)
From Coq Require Import List Arith Lia Bool String ZArith InitialRing Permutation Reals.
From Verif Require Import Num Arr ArrFacts Fe Basis SpecBasis.
Import ListNotations.

Lemma get_elements_cases s i : get_elements s = Ok i -> In s nine_names.
Proof.
  unfold get_elements, nine_names.
  repeat match goal with |- context [String.eqb s ?n] => destruct (String.eqb_spec s n) as [->|_]; [intros _; cbn; intuition|] end.
  discriminate.
Qed.
Lemma get_elements_err s : ~ In s nine_names -> get_elements s = Err NotImplementedErr.
Proof.
  intros H. unfold get_elements.
  repeat match goal with |- context [String.eqb s ?n] => destruct (String.eqb_spec s n) as [->|_]; [destruct H; cbn; intuition|] end.
  reflexivity.
Qed.
Lemma get_meshio_err s : ~ In s nine_names -> get_meshio_cell_type s = Err NotImplementedErr.
Proof.
  intros H. unfold get_meshio_cell_type.
  repeat match goal with |- context [String.eqb s ?n] => destruct (String.eqb_spec s n) as [->|_]; [destruct H; cbn; intuition|] end.
  reflexivity.
Qed.
Ltac names H := unfold nine_names, lagrange_names in H; cbn [In] in H;
  repeat (destruct H as [<-|H]); [..|destruct H].

Lemma get_elements_ok s : In s nine_names -> exists i, get_elements s = Ok i.
Proof. intros H. names H; eexists; reflexivity. Qed.
Lemma get_meshio_ok s : In s nine_names -> exists c, get_meshio_cell_type s = Ok c.
Proof. intros H. names H; eexists; reflexivity. Qed.
Lemma get_meshio_inj s s' c : get_meshio_cell_type s = Ok c -> get_meshio_cell_type s' = Ok c -> s = s'.
Proof.
  intros H H'.
  destruct (in_dec String.string_dec s nine_names) as [I|I]; [|rewrite get_meshio_err in H by auto; discriminate].
  destruct (in_dec String.string_dec s' nine_names) as [I'|I']; [|rewrite get_meshio_err in H' by auto; discriminate].
  names I; names I'; cbn in H, H'; try reflexivity; congruence.
Qed.

(** permutation of 0..n-1 by computation *)
Definition perm_check (l : list nat) : bool :=
  forallb (fun k => existsb (Nat.eqb k) l) (seq 0 (List.length l)).
Lemma perm_check_ok l : perm_check l = true -> Permutation l (seq 0 (List.length l)).
Proof.
  intros H. symmetry. apply NoDup_Permutation_bis.
  - apply seq_NoDup.
  - now rewrite seq_length.
  - intros k Hk. unfold perm_check in H. rewrite forallb_forall in H. apply H in Hk.
    apply existsb_exists in Hk as (x & Hx & E). apply Nat.eqb_eq in E. now subst.
Qed.
Lemma re_order_perm s i : get_elements s = Ok i -> Permutation (re_order i) (seq 0 (node_count s)).
Proof.
  intros H. pose proof (get_elements_cases s i H) as I.
  names I; injection H as <-; apply perm_check_ok; reflexivity.
Qed.

(** ** reorder_inds *)
Lemma argwhere_map_eq_In (l : list nat) x k :
  In k (positions l x) <-> k < List.length l /\ nth k l 0 = x.
Proof.
  unfold positions, argwhere. rewrite in_map_iff. split.
  - intros ([k' b] & <- & H). apply filter_In in H as [H Hb]. cbn in *. subst b.
    apply (In_nth _ _ (0, false)) in H as (m & Hm & E).
    rewrite combine_length, seq_length, map_length in Hm.
    rewrite combine_nth in E by (rewrite seq_length, map_length; auto).
    rewrite seq_nth in E by (rewrite map_length; lia). injection E as <- E. cbn.
    rewrite (nth_map_in _ _ _ 0) in E by lia. apply Nat.eqb_eq in E. split; [lia|auto].
  - intros [Hk E]. exists (k, true). split; [reflexivity|]. apply filter_In. split; [|reflexivity].
    replace (k, true) with (nth k (combine (seq 0 (List.length (map (Nat.eqb x) l))) (map (Nat.eqb x) l)) (0, false)).
    + apply nth_In. rewrite combine_length, seq_length, map_length. lia.
    + rewrite combine_nth by (rewrite seq_length; auto). rewrite seq_nth by (rewrite map_length; lia).
      rewrite (nth_map_in _ _ _ 0) by lia. subst. now rewrite Nat.eqb_refl.
Qed.
Lemma positions_NoDup l x : NoDup (positions l x).
Proof.
  unfold positions, argwhere. generalize (map (Nat.eqb x) l) as fl. intros fl.
  assert (G : forall (fl : list bool) s, NoDup (map fst (filter (fun p => snd p) (combine (seq s (List.length fl)) fl))) /\
      forall k, In k (map fst (filter (fun p => snd p) (combine (seq s (List.length fl)) fl))) -> s <= k).
  { clear. induction fl as [|b fl IH]; intros s; cbn; [split; [constructor|intros k []]|].
    destruct (IH (S s)) as [N L]. destruct b; cbn.
    - split; [constructor; [intros H; apply L in H; lia|exact N]|]. intros k [<-|H]; [lia|]. apply L in H. lia.
    - split; [exact N|]. intros k H. apply L in H. lia. }
  apply G.
Qed.
Lemma positions_perm re n x : Permutation re (seq 0 n) -> x < n ->
  exists k, positions re x = [k] /\ k < n /\ nth k re 0 = x.
Proof.
  intros P Hx. assert (L : List.length re = n) by (rewrite (Permutation_length P), seq_length; auto).
  assert (I : In x re) by (apply (Permutation_in x (Permutation_sym P)); apply in_seq; lia).
  apply (In_nth _ _ 0) in I as (k & Hk & E).
  assert (U : forall m, In m (positions re x) -> m = k).
  { intros m Hm. apply argwhere_map_eq_In in Hm as [Hm Em].
    apply (NoDup_nth re 0); auto; [|congruence].
    apply (Permutation_NoDup (Permutation_sym P)), seq_NoDup. }
  exists k. split; [|split; [lia|auto]].
  assert (Ik : In k (positions re x)) by (apply argwhere_map_eq_In; auto).
  pose proof (positions_NoDup re x) as ND.
  destruct (positions re x) as [|a [|b t]]; [destruct Ik| |].
  - f_equal. apply U. now left.
  - assert (a = k) by (apply U; now left). assert (b = k) by (apply U; right; now left). subst.
    inversion ND as [|? ? X _]. destruct X. now left.
Qed.
Lemma reorder_inds_ok re n (inds : list (list nat)) : Permutation re (seq 0 n) ->
  (forall row x, In row inds -> In x row -> x < n) ->
  exists r, reorder_inds inds re = Ok r /\ map (map (fun k => nth k re 0)) r = inds /\
            map (@List.length nat) r = map (@List.length nat) inds.
Proof.
  intros P H. unfold reorder_inds.
  replace (forallb _ _) with true.
  - eexists. split; [reflexivity|]. rewrite !map_map. split.
    + rewrite <- map_id. apply map_ext_in. intros row Hr. rewrite !map_map. rewrite <- map_id. apply map_ext_in.
      intros x Hx. destruct (positions_perm re n x P (H row x Hr Hx)) as (k & E & _ & Ek). now rewrite E.
    + apply map_ext. intros row. now rewrite !map_length.
  - symmetry. apply forallb_forall. intros row' H'. apply in_map_iff in H' as (row & <- & Hr).
    apply forallb_forall. intros h Hh. apply in_map_iff in Hh as (x & <- & Hx).
    destruct (positions_perm re n x P (H row x Hr Hx)) as (k & E & _). now rewrite E.
Qed.

(** ** Tables of the nine elements, by computation *)
Definition face_table_ok (s : string) (i : element_info) : bool :=
  match reorder_inds (facets (basix_ele i)) (re_order i) with
  | Err _ => false
  | Ok fi => if list_eq_dec (list_eq_dec (list_eq_dec Nat.eq_dec))
       (map (map (fun k => nth k (mesh_nodes2 s) [])) fi)
       (map (map (fun v => map (Nat.mul 2) (nth v (geometry (basix_ele i)) []))) (facets (basix_ele i)))
     then true else false
  end.
Lemma face_table s i : get_elements s = Ok i ->
  exists fi, reorder_inds (facets (basix_ele i)) (re_order i) = Ok fi /\
    map (map (fun k => nth k (mesh_nodes2 s) [])) fi =
    map (map (fun v => map (Nat.mul 2) (nth v (geometry (basix_ele i)) []))) (facets (basix_ele i)).
Proof.
  intros H. pose proof (get_elements_cases s i H) as I.
  assert (C : face_table_ok s i = true) by (names I; injection H as <-; vm_compute; reflexivity).
  unfold face_table_ok in C. destruct (reorder_inds _ _) as [fi|]; [|discriminate]. exists fi. split; [reflexivity|].
  now destruct (list_eq_dec _ _ _).
Qed.
Lemma node_table s i k : get_elements s = Ok i -> k < node_count s ->
  nth k (mesh_nodes2 s) [] = nth (nth k (re_order i) 0) (lagrange_nodes2 (basix_ele i) (degree i)) [].
Proof.
  intros H Hk. pose proof (get_elements_cases s i H) as I.
  assert (C : forallb (fun k => if list_eq_dec Nat.eq_dec (nth k (mesh_nodes2 s) [])
       (nth (nth k (re_order i) 0) (lagrange_nodes2 (basix_ele i) (degree i)) []) then true else false) (seq 0 (node_count s)) = true)
    by (names I; injection H as <-; vm_compute; reflexivity).
  rewrite forallb_forall in C. specialize (C k (proj2 (in_seq _ _ _) (conj (Nat.le_0_l k) Hk))).
  now destruct (list_eq_dec _ _ _).
Qed.

(** ** Shape functions over any commutative ring *)
Section Ring.
  Context {K : ops} (KR : ring_laws K).
  Open Scope num_scope.
  Let Kth : ring_theory (@zero K) one add mul sub opp eq := KR.
  Add Ring KringB : Kth.

  Ltac expand X := cbv -[add sub mul opp zero one X car].

  Lemma shape_sum s i (x : list K) : In s nine_names -> get_elements s = Ok i ->
    sum_n (node_count s) (shape_value i x) = 1.
  Proof.
    intros I H. unfold shape_value. set (X := pt x). names I; injection H as <-; expand X; ring.
  Qed.
  Lemma grad_sum s i (x : list K) j : In s nine_names -> get_elements s = Ok i -> (j < cell_dim (basix_ele i))%nat ->
    sum_n (node_count s) (fun a => shape_grad i x a j) = 0.
  Proof.
    intros I H Hj. unfold shape_grad. set (X := pt x). names I; injection H as <-; cbn in Hj;
      (destruct j as [|[|[|j]]]; [| | |lia]); try lia; clear Hj; expand X; ring.
  Qed.
  Lemma two_half (half a b : K) : half + half = 1 -> a = (1 + 1) * b -> a * half = b.
  Proof. intros H ->. transitivity ((half + half) * b); [ring|rewrite H; ring]. Qed.
  Lemma sum_half n (f g : nat -> K) (half b : K) : half + half = 1 ->
    sum_n n (fun a => f a * g a) = (1 + 1) * b -> sum_n n (fun a => f a * half * g a) = b.
  Proof.
    intros H E. rewrite (sum_n_ext n _ (fun a => (f a * g a) * half)) by (intros; ring).
    unfold sum_n. rewrite (sum_over_mul_r KR). now apply two_half.
  Qed.
  Lemma shape_linear s i (half : K) (x : list K) k : half + half = 1 ->
    In s nine_names -> get_elements s = Ok i -> (k < cell_dim (basix_ele i))%nat ->
    sum_n (node_count s) (fun a => ref_coord half s a k * shape_value i x a) = pt x k.
  Proof.
    intros Hh I H Hk. unfold ref_coord. apply sum_half; auto. unfold shape_value. set (X := pt x).
    names I; injection H as <-; cbn in Hk;
      (destruct k as [|[|[|k]]]; [| | |lia]); try lia; clear Hk; expand X; ring.
  Qed.
  Lemma grad_linear s i (half : K) (x : list K) k j : half + half = 1 ->
    In s nine_names -> get_elements s = Ok i ->
    (k < cell_dim (basix_ele i))%nat -> (j < cell_dim (basix_ele i))%nat ->
    sum_n (node_count s) (fun a => ref_coord half s a k * shape_grad i x a j) = if (k =? j)%nat then 1 else 0.
  Proof.
    intros Hh I H Hk Hj. unfold ref_coord. apply sum_half; auto. unfold shape_grad. set (X := pt x).
    names I; injection H as <-; cbn in Hk, Hj;
      (destruct k as [|[|[|k]]]; [| | |lia]); try lia; clear Hk;
      (destruct j as [|[|[|j]]]; [| | |lia]); try lia; clear Hj; expand X; ring.
  Qed.

  (** *** Evaluation at half-integer points by integer computation *)
  Lemma ofZ_morph : ring_morph (@zero K) one add mul sub opp eq 0%Z 1%Z Z.add Z.mul Z.sub Z.opp Zeq_bool (@ofZ K).
  Proof. apply gen_phiZ_morph; [apply Eqsth|apply Eq_ext|exact KR]. Qed.
  Lemma ofZ_add a b : ofZ (a + b)%Z = @ofZ K a + ofZ b.
  Proof. apply (morph_add ofZ_morph). Qed.
  Lemma ofZ_mul a b : ofZ (a * b)%Z = @ofZ K a * ofZ b.
  Proof. apply (morph_mul ofZ_morph). Qed.
  Lemma ofZ_sub a b : ofZ (a - b)%Z = @ofZ K a - ofZ b.
  Proof. apply (morph_sub ofZ_morph). Qed.
  Lemma ofZ_0 : @ofZ K 0 = 0. Proof. reflexivity. Qed.
  Lemma ofZ_1 : @ofZ K 1 = 1. Proof. reflexivity. Qed.
  Lemma ofZ_2 : @ofZ K 2 = 1 + 1. Proof. reflexivity. Qed.

  Fixpoint powK (h : K) (e : nat) : K := match e with O => 1 | S e' => h * powK h e' end.
  (** (n, e) stands for n / 2^e *)
  Definition dy_add (a b : Z * nat) : Z * nat :=
    (fst a * 2 ^ Z.of_nat (snd b) + fst b * 2 ^ Z.of_nat (snd a), (snd a + snd b)%nat)%Z.
  Definition dy_sub (a b : Z * nat) : Z * nat :=
    (fst a * 2 ^ Z.of_nat (snd b) - fst b * 2 ^ Z.of_nat (snd a), (snd a + snd b)%nat)%Z.
  Fixpoint dy_eval (node : list nat) (p : pexp) : Z * nat :=
    match p with
    | PZ z => (z, 0%nat)
    | PX i => (Z.of_nat (nth i node 0%nat), 1%nat)
    | PAdd p q => dy_add (dy_eval node p) (dy_eval node q)
    | PSub p q => dy_sub (dy_eval node p) (dy_eval node q)
    | PMul p q => (fst (dy_eval node p) * fst (dy_eval node q), (snd (dy_eval node p) + snd (dy_eval node q))%nat)%Z
    end.
  Definition dyK (h : K) (a : Z * nat) : K := ofZ (fst a) * powK h (snd a).
  Lemma powK_add h a b : powK h (a + b) = powK h a * powK h b.
  Proof. induction a as [|a IH]; cbn [powK Nat.add]; [ring|rewrite IH; ring]. Qed.
  Lemma pow2_half h e : h + h = 1 -> ofZ (2 ^ Z.of_nat e) * powK h e = 1.
  Proof.
    intros H. induction e as [|e IH]; [change (1 * 1 = @one K); ring|].
    rewrite Nat2Z.inj_succ, Z.pow_succ_r by lia. rewrite ofZ_mul, ofZ_2. cbn [powK].
    transitivity ((h + h) * (ofZ (2 ^ Z.of_nat e) * powK h e)); [ring|]. rewrite H, IH. ring.
  Qed.
  Lemma dy_eval_ok h (node : list nat) p : h + h = 1 ->
    peval (pt (map (fun n => ofZ (Z.of_nat n) * h) node)) p = dyK h (dy_eval node p).
  Proof.
    intros H. induction p as [z|i|p IHp q IHq|p IHp q IHq|p IHp q IHq]; cbn [peval dy_eval]; unfold dyK; cbn [fst snd].
    - cbn [powK]. ring.
    - unfold pt. cbn [powK]. destruct (Nat.lt_ge_cases i (List.length node)) as [L|L].
      + rewrite (nth_map_in _ _ _ 0%nat) by auto. ring.
      + rewrite !nth_overflow by (rewrite ?map_length; auto). cbn [Z.of_nat]. rewrite ofZ_0. ring.
    - rewrite IHp, IHq. unfold dyK, dy_add. cbn [fst snd]. rewrite ofZ_add, !ofZ_mul, powK_add.
      set (a := dy_eval node p) in *. set (b := dy_eval node q) in *.
      transitivity (ofZ (fst a) * powK h (snd a) * (ofZ (2 ^ Z.of_nat (snd b)) * powK h (snd b)) +
                    ofZ (fst b) * powK h (snd b) * (ofZ (2 ^ Z.of_nat (snd a)) * powK h (snd a))); [|ring].
      rewrite !pow2_half by auto. ring.
    - rewrite IHp, IHq. unfold dyK, dy_sub. cbn [fst snd]. rewrite ofZ_sub, !ofZ_mul, powK_add.
      set (a := dy_eval node p) in *. set (b := dy_eval node q) in *.
      transitivity (ofZ (fst a) * powK h (snd a) * (ofZ (2 ^ Z.of_nat (snd b)) * powK h (snd b)) -
                    ofZ (fst b) * powK h (snd b) * (ofZ (2 ^ Z.of_nat (snd a)) * powK h (snd a))); [|ring].
      rewrite !pow2_half by auto. ring.
    - rewrite IHp, IHq. unfold dyK. cbn [fst snd]. rewrite ofZ_mul, powK_add. ring.
  Qed.
  Definition kron_check (s : string) (i : element_info) : bool :=
    forallb (fun a => forallb (fun m =>
      let d := dy_eval (nth m (mesh_nodes2 s) []) (nth (nth a (re_order i) 0%nat) (element_fns i) (PZ 0)) in
      Z.eqb (fst d) (if (a =? m)%nat then 2 ^ Z.of_nat (snd d) else 0)%Z)
     (seq 0 (node_count s))) (seq 0 (node_count s)).
  Lemma kronecker s i (half : K) a m : half + half = 1 ->
    In s lagrange_names -> get_elements s = Ok i -> (a < node_count s)%nat -> (m < node_count s)%nat ->
    shape_value i (ref_point half s m) a = if (a =? m)%nat then 1 else 0.
  Proof.
    intros Hh I H Ha Hm.
    assert (C : kron_check s i = true) by (names I; injection H as <-; vm_compute; reflexivity).
    unfold kron_check in C. rewrite forallb_forall in C.
    specialize (C a (proj2 (in_seq _ _ _) (conj (Nat.le_0_l a) Ha))). rewrite forallb_forall in C.
    specialize (C m (proj2 (in_seq _ _ _) (conj (Nat.le_0_l m) Hm))). cbv zeta in C. apply Z.eqb_eq in C.
    unfold shape_value, ref_point. rewrite dy_eval_ok by auto. unfold dyK. rewrite C.
    destruct (a =? m)%nat; [now apply pow2_half|]. rewrite ofZ_0. ring.
  Qed.
End Ring.

(** ** The tabulated gradients are the derivatives *)
Definition bump (x : list Rops) (j : nat) (t : R) : list Rops := upd_nth j (fun y => (y + t)%R) x.
Lemma nth_bump x j t k : j < List.length x -> pt (bump x j t) k = (pt x k + (if j =? k then t else 0))%R.
Proof.
  unfold bump, pt. revert j k; induction x as [|y x IH]; intros [|j] k H; cbn [List.length] in H; try lia.
  - destruct k; [reflexivity|]. symmetry. apply Rplus_0_r.
  - destruct k as [|k]; cbn [upd_nth nth]; [symmetry; apply Rplus_0_r|]. cbn [Nat.eqb]. apply IH. lia.
Qed.
Lemma dl_ext (f g : R -> R) x l : (forall t, f t = g t) -> derivable_pt_lim f x l -> derivable_pt_lim g x l.
Proof. intros E D eps He. destruct (D eps He) as [d Hd]. exists d. intros h H1 H2. rewrite <- !E. auto. Qed.
Lemma peval_bump0 x j p : j < List.length x -> peval (K := Rops) (pt (bump x j 0%R)) p = peval (pt x) p.
Proof.
  intros Hj. induction p as [z|i|p IHp q IHq|p IHp q IHq|p IHp q IHq]; cbn [peval]; try congruence.
  rewrite nth_bump by auto. destruct (j =? i); apply Rplus_0_r.
Qed.
Lemma pderiv_correct x j p : j < List.length x ->
  derivable_pt_lim (fun t => peval (K := Rops) (pt (bump x j t)) p) 0 (peval (pt x) (pderiv j p)).
Proof.
  intros Hj. induction p as [z|i|p IHp q IHq|p IHp q IHq|p IHp q IHq]; cbn [peval pderiv].
  - change (derivable_pt_lim (fun _ => ofZ z : R) 0 0%R). apply (derivable_pt_lim_const (ofZ z : R)).
  - apply (dl_ext (fun t => (pt x i + (if j =? i then t else 0))%R)); [intros t; symmetry; now apply nth_bump|].
    destruct (j =? i).
    + change (@ofZ Rops 1) with 1%R. replace 1%R with (0 + 1)%R by ring.
      apply (derivable_pt_lim_plus (fun _ => pt x i : R) (fun t => t)); [apply derivable_pt_lim_const|apply derivable_pt_lim_id].
    + change (@ofZ Rops 0) with 0%R. replace 0%R with (0 + 0)%R at 2 by ring.
      apply (derivable_pt_lim_plus (fun _ => pt x i : R) (fun t => 0%R)); apply derivable_pt_lim_const.
  - exact (derivable_pt_lim_plus _ _ _ _ _ IHp IHq).
  - exact (derivable_pt_lim_minus _ _ _ _ _ IHp IHq).
  - pose proof (derivable_pt_lim_mult _ _ _ _ _ IHp IHq) as D. cbn beta in D.
    rewrite !peval_bump0 in D by auto. exact D.
Qed.
Lemma shape_grad_derivative i (x : list Rops) a j : j < List.length x ->
  derivable_pt_lim (fun t => shape_value i (bump x j t) a) 0 (shape_grad i x a j).
Proof. intros Hj. unfold shape_value, shape_grad. now apply pderiv_correct. Qed.
