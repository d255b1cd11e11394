(** Proofs about the elements of second order. *)
From Coq Require Import String List Arith Lia Bool ZArith InitialRing Reals Lra.
From Coquelicot Require Import Hierarchy Continuity Derive AutoDerive RInt RInt_analysis.
From Verif Require Import Num Arr ArrFacts Fe Basis SpecBasis SpecFe BasisFacts ElasticFacts SpecSecond.
Import ListNotations.
Local Open Scope R_scope.

(** ** polynomials along an edge, as lists of coefficients *)
Fixpoint ladd (a b : list Z) : list Z := match a, b with [], _ => b | _, [] => a | x :: a', y :: b' => (x + y)%Z :: ladd a' b' end.
Definition lopp (a : list Z) : list Z := map Z.opp a.
Fixpoint lmul (a b : list Z) : list Z := match a with [] => [] | x :: a' => ladd (map (Z.mul x) b) (0%Z :: lmul a' b) end.
Fixpoint leval (t : R) (a : list Z) : R := match a with [] => 0 | x :: a' => IZR x + t * leval t a' end.
Lemma leval_add t a b : leval t (ladd a b) = leval t a + leval t b.
Proof. revert b. induction a as [|x a IH]; intros [|y b]; cbn [ladd leval]; rewrite ?plus_IZR, ?IH; ring. Qed.
Lemma leval_opp t a : leval t (lopp a) = - leval t a.
Proof. unfold lopp. induction a as [|x a IH]; cbn [map leval]; rewrite ?opp_IZR, ?IH; ring. Qed.
Lemma leval_scale t x b : leval t (map (Z.mul x) b) = IZR x * leval t b.
Proof. induction b as [|y b IH]; cbn [map leval]; rewrite ?mult_IZR, ?IH; ring. Qed.
Lemma leval_mul t a b : leval t (lmul a b) = leval t a * leval t b.
Proof. induction a as [|x a IH]; cbn [lmul leval]; [ring|]. rewrite leval_add, leval_scale. cbn [leval]. rewrite IH. ring. Qed.

Lemma ofZ_IZR z : @ofZ Rops z = IZR z.
Proof.
  assert (P : forall p, @ofZ Rops (Zpos p) = IZR (Zpos p)).
  { induction p using Pos.peano_ind; [reflexivity|]. rewrite Pos2Z.inj_succ, <- Z.add_1_r, (ofZ_add Rops_ring), plus_IZR, IHp. reflexivity. }
  destruct z as [|p|p]; [reflexivity|apply P|]. rewrite <- Pos2Z.opp_pos. replace (- Z.pos p)%Z with (0 - Z.pos p)%Z by lia. rewrite (ofZ_sub Rops_ring), P, minus_IZR. reflexivity.
Qed.

(** p along the edge with the midpoint [node] (doubled coordinates), in the axis e *)
Fixpoint along (e : nat) (node : list nat) (p : pexp) : list Z :=
  match p with
  | PZ z => [z]
  | PX i => if (i =? e)%nat then [0; 1]%Z else [Z.of_nat (nth i node 0 / 2)%nat]
  | PAdd p q => ladd (along e node p) (along e node q)
  | PSub p q => ladd (along e node p) (lopp (along e node q))
  | PMul p q => lmul (along e node p) (along e node q)
  end.
Lemma along_ok e node X t p : X e = t -> (forall i, i <> e -> X i = IZR (Z.of_nat (nth i node 0 / 2)%nat)) -> peval (K := Rops) X p = leval t (along e node p).
Proof.
  intros He Hi. induction p; cbn [peval along].
  - rewrite ofZ_IZR. cbn. ring.
  - destruct (Nat.eqb_spec i e) as [->|N]; [rewrite He; cbn; ring|]. rewrite Hi by exact N. cbn. ring.
  - rewrite leval_add, IHp1, IHp2. reflexivity.
  - rewrite leval_add, leval_opp, IHp1, IHp2. reflexivity.
  - rewrite leval_mul, IHp1, IHp2. reflexivity.
Qed.
(** sixty times the integral, for degree at most five *)
Definition int60 (a : list Z) : Z := (60 * nth 0 a 0 + 30 * nth 1 a 0 + 20 * nth 2 a 0 + 15 * nth 3 a 0 + 12 * nth 4 a 0 + 10 * nth 5 a 0)%Z.
Lemma leval_nth t a : (List.length a <= 6)%nat -> leval t a =
  IZR (nth 0 a 0%Z) + IZR (nth 1 a 0%Z) * t + IZR (nth 2 a 0%Z) * t ^ 2 + IZR (nth 3 a 0%Z) * t ^ 3 + IZR (nth 4 a 0%Z) * t ^ 4 + IZR (nth 5 a 0%Z) * t ^ 5.
Proof. intros L. do 6 (destruct a as [|? a]; [cbn; ring|]). destruct a; [cbn; ring|cbn in L; lia]. Qed.
Lemma leval_int a : (List.length a <= 6)%nat -> is_RInt (fun t => leval t a) 0 1 (IZR (int60 a) / 60).
Proof.
  intros L. set (c i := IZR (nth i a 0%Z)).
  set (G := fun t => c 0%nat * t + c 1%nat * t ^ 2 / 2 + c 2%nat * t ^ 3 / 3 + c 3%nat * t ^ 4 / 4 + c 4%nat * t ^ 5 / 5 + c 5%nat * t ^ 6 / 6).
  replace (IZR (int60 a) / 60) with (minus (G 1) (G 0)).
  - apply (is_RInt_derive G).
    + intros t _. unfold G. auto_derive; [exact I|]. rewrite (leval_nth t a L). fold (c 0%nat) (c 1%nat) (c 2%nat) (c 3%nat) (c 4%nat) (c 5%nat). field.
    + intros t _. apply (continuous_ext (fun t => c 0%nat + c 1%nat * t + c 2%nat * t ^ 2 + c 3%nat * t ^ 3 + c 4%nat * t ^ 4 + c 5%nat * t ^ 5)).
      { intros u. symmetry. exact (leval_nth u a L). }
      apply (ex_derive_continuous (fun t => c 0%nat + c 1%nat * t + c 2%nat * t ^ 2 + c 3%nat * t ^ 3 + c 4%nat * t ^ 4 + c 5%nat * t ^ 5)). auto_derive. exact I.
  - unfold minus, plus, opp; cbn -[IZR G int60]. unfold G, int60. rewrite !plus_IZR, !mult_IZR. fold (c 0%nat) (c 1%nat) (c 2%nat) (c 3%nat) (c 4%nat) (c 5%nat). field.
Qed.

(** ** the serendipity elements *)
Definition fn (i : element_info) (a : nat) : pexp := nth (nth a (re_order i) 0%nat) (element_fns i) (PZ 0).
Definition dual_check (s : string) (i : element_info) : bool :=
  forallb (fun a => forallb (fun m =>
    let node := nth m (mesh_nodes2 s) [] in
    if is_vertex s m then Z.eqb (fst (dy_eval node (fn i a))) (if (a =? m)%nat then 2 ^ Z.of_nat (snd (dy_eval node (fn i a))) else 0)%Z
    else let c := along (edge_axis s m) node (fn i a) in
      forallb (Z.eqb 0) (skipn 6 c) && Z.eqb (int60 c) (if (a =? m)%nat then 60 else 0))
   (seq 0 (node_count s))) (seq 0 (node_count s)).
Lemma trim_eval t a : forallb (Z.eqb 0) (skipn 6 a) = true -> leval t a = leval t (firstn 6 a).
Proof.
  intros H. rewrite <- (firstn_skipn 6 a) at 1. generalize (firstn 6 a) as l. intros l.
  assert (Z0 : leval t (skipn 6 a) = 0). { induction (skipn 6 a) as [|z b IH]; [reflexivity|]. cbn [forallb] in H; cbn [leval]. apply andb_true_iff in H as [E H]. apply Z.eqb_eq in E. subst z. rewrite IH by exact H. ring. }
  induction l as [|z l IH]; cbn [app leval]; [exact Z0|]. now rewrite IH.
Qed.
Lemma trim_int60 a : int60 (firstn 6 a) = int60 a.
Proof. unfold int60. do 6 (destruct a as [|? a]; [reflexivity|]). reflexivity. Qed.
Lemma trim_int a : forallb (Z.eqb 0) (skipn 6 a) = true -> is_RInt (fun t => leval t a) 0 1 (IZR (int60 a) / 60).
Proof.
  intros H. apply (is_RInt_ext (fun t => leval t (firstn 6 a))); [intros t _; symmetry; now apply trim_eval|]. rewrite <- trim_int60. apply leval_int. rewrite firstn_length. lia.
Qed.
Lemma rc_half s a k : rc s a k = IZR (Z.of_nat (nth k (nth a (mesh_nodes2 s) []) 0%nat)) * / 2.
Proof. unfold rc. now rewrite INR_IZR_INZ. Qed.
Lemma ser_dim s a : In s serendipity_names -> (a < node_count s)%nat -> List.length (nth a (mesh_nodes2 s) []) = element_dim s.
Proof.
  intros I. assert (C : forallb (fun a => List.length (nth a (mesh_nodes2 s) []) =? element_dim s)%nat (seq 0 (node_count s)) = true) by (cbn in I; destruct I as [<-|[<-|[]]]; reflexivity).
  intros Ha. rewrite forallb_forall in C. apply Nat.eqb_eq, C, in_seq. lia.
Qed.
Lemma ser_node s a : In s serendipity_names -> (a < node_count s)%nat -> ref_node s a = ref_point (K := Rops) (/ 2) s a.
Proof.
  intros I Ha. unfold ref_node, ref_point. rewrite <- (ser_dim s a I Ha). apply (nth_ext _ _ 0 0); [now rewrite !map_length, seq_length|]. intros k Hk. rewrite map_length, seq_length in Hk.
  rewrite (nth_map_in _ _ _ 0%nat) by (rewrite seq_length; exact Hk). rewrite (nth_map_in _ _ _ 0%nat) by exact Hk. rewrite seq_nth by exact Hk. cbn [Nat.add]. rewrite rc_half, ofZ_IZR. reflexivity.
Qed.
(** coordinates of a mid-edge node other than the one along the edge are 0 or 2 *)
Definition edge_check (s : string) : bool :=
  forallb (fun m => if is_vertex s m then true else
    (edge_axis s m <? element_dim s)%nat && forallb (fun k => if (k =? edge_axis s m)%nat then true else Nat.even (nth k (nth m (mesh_nodes2 s) []) 0%nat)) (seq 0 (element_dim s))) (seq 0 (node_count s)).
Lemma edge_facts s m : In s serendipity_names -> (m < node_count s)%nat -> is_vertex s m = false ->
  (edge_axis s m < element_dim s)%nat /\ forall k, (k < element_dim s)%nat -> k <> edge_axis s m -> rc s m k = IZR (Z.of_nat (nth k (nth m (mesh_nodes2 s) []) 0 / 2)%nat).
Proof.
  intros I Hm V. assert (C : edge_check s = true) by (cbn in I; destruct I as [<-|[<-|[]]]; reflexivity).
  unfold edge_check in C. rewrite forallb_forall in C. specialize (C m (proj2 (in_seq _ _ _) (conj (Nat.le_0_l m) Hm))). rewrite V in C. apply andb_true_iff in C as [C1 C2]. apply Nat.ltb_lt in C1. split; [exact C1|].
  intros k Hk N. rewrite forallb_forall in C2. specialize (C2 k (proj2 (in_seq _ _ _) (conj (Nat.le_0_l k) Hk))). rewrite (proj2 (Nat.eqb_neq _ _) N) in C2. apply Nat.even_spec in C2 as (h & E). rewrite rc_half, E.
  replace (2 * h / 2)%nat with h by (rewrite Nat.mul_comm, Nat.div_mul; lia). rewrite Nat2Z.inj_mul, mult_IZR. change (IZR (Z.of_nat 2)) with 2. field.
Qed.
Lemma edge_pt s m t k : (k < element_dim s)%nat -> nth k (edge_point s m t) 0 = if (k =? edge_axis s m)%nat then t else rc s m k.
Proof. intros Hk. unfold edge_point. rewrite (nth_map_in _ _ _ 0%nat) by (rewrite seq_length; exact Hk). now rewrite seq_nth by exact Hk. Qed.
Lemma rc_beyond s m k : In s serendipity_names -> (m < node_count s)%nat -> (element_dim s <= k)%nat -> nth k (nth m (mesh_nodes2 s) []) 0%nat = 0%nat.
Proof. intros I Hm Hk. apply nth_overflow. now rewrite (ser_dim s m I Hm). Qed.

Lemma dual s i a m : In s serendipity_names -> get_elements s = Ok i -> (a < node_count s)%nat -> (m < node_count s)%nat ->
  entry_of s m (fun x => shape_value (K := Rops) i x a) (if (a =? m)%nat then 1 else 0).
Proof.
  intros I H Ha Hm. assert (C : dual_check s i = true) by (cbn in I; destruct I as [<-|[<-|[]]]; injection H as <-; vm_compute; reflexivity).
  unfold dual_check in C. rewrite forallb_forall in C. specialize (C a (proj2 (in_seq _ _ _) (conj (Nat.le_0_l a) Ha))). cbv beta in C. rewrite forallb_forall in C.
  specialize (C m (proj2 (in_seq _ _ _) (conj (Nat.le_0_l m) Hm))). cbv beta zeta in C. unfold entry_of. destruct (is_vertex s m) eqn:V.
  - rewrite (ser_node s m I Hm). unfold shape_value, ref_point. fold (fn i a).
    etransitivity; [exact (dy_eval_ok Rops_ring (/ 2) (nth m (mesh_nodes2 s) []) (fn i a) ltac:(req; cbn; lra))|]. apply Z.eqb_eq in C. unfold dyK. rewrite C.
    destruct (a =? m)%nat; [exact (pow2_half Rops_ring (/ 2) _ ltac:(req; cbn; lra))|]. rewrite ofZ_IZR. apply Rmult_0_l.
  - apply andb_true_iff in C as [C1 C2]. apply Z.eqb_eq in C2. destruct (edge_facts s m I Hm V) as (E1 & E2).
    apply (is_RInt_ext (fun t => leval t (along (edge_axis s m) (nth m (mesh_nodes2 s) []) (fn i a)))).
    { intros t _. unfold shape_value. fold (fn i a). symmetry. apply along_ok.
      - unfold pt. etransitivity; [apply (edge_pt s m t (edge_axis s m) E1)|]. now rewrite Nat.eqb_refl.
      - intros k N. unfold pt. destruct (Nat.lt_ge_cases k (element_dim s)) as [L|L].
        + etransitivity; [apply (edge_pt s m t k L)|]. rewrite (proj2 (Nat.eqb_neq _ _) N). now apply E2.
        + rewrite (rc_beyond s m k I Hm L). apply nth_overflow. unfold edge_point. now rewrite map_length, seq_length. }
    replace (if (a =? m)%nat then 1 else 0) with (IZR (int60 (along (edge_axis s m) (nth m (mesh_nodes2 s) []) (fn i a))) / 60) by (rewrite C2; destruct (a =? m)%nat; field).
    now apply trim_int.
Qed.

Lemma entry_zero s m : entry_of s m (fun _ => 0) 0.
Proof. unfold entry_of. destruct (is_vertex s m); [reflexivity|]. assert (A := is_RInt_const 0 1 0). assert (E : forall z : R, z = 0 -> is_RInt (fun _ : R => 0) 0 1 z -> is_RInt (fun _ : R => 0) 0 1 0) by (intros z -> B; exact B). apply (E _ (Rmult_0_r _) A). Qed.
Lemma entry_plus s m u v x y : entry_of s m u x -> entry_of s m v y -> entry_of s m (fun p => u p + v p) (x + y).
Proof. unfold entry_of. destruct (is_vertex s m); [intros -> ->; reflexivity|]. intros A B. exact (is_RInt_plus _ _ 0 1 x y A B). Qed.
Lemma entry_scal s m u x c : entry_of s m u x -> entry_of s m (fun p => c * u p) (c * x).
Proof. unfold entry_of. destruct (is_vertex s m); [intros ->; reflexivity|]. intros A. exact (is_RInt_scal _ 0 1 c x A). Qed.
Lemma entry_ext s m u v x : (forall p, u p = v p) -> entry_of s m u x -> entry_of s m v x.
Proof. intros E. unfold entry_of. destruct (is_vertex s m); [rewrite E; auto|]. intros A. apply (is_RInt_ext (fun t => u (edge_point s m t))); [intros; apply E|exact A]. Qed.
Lemma entry_unique s m u x y : entry_of s m u x -> entry_of s m u y -> x = y.
Proof. unfold entry_of. destruct (is_vertex s m); [congruence|]. intros A B. now rewrite <- (is_RInt_unique _ _ _ _ A), <- (is_RInt_unique _ _ _ _ B). Qed.
Lemma entry_sum s m n (u : nat -> list R -> R) (x : nat -> R) : (forall a, (a < n)%nat -> entry_of s m (u a) (x a)) ->
  entry_of s m (fun p => sum_n (K := Rops) n (fun a => u a p)) (sum_n (K := Rops) n x).
Proof.
  induction n as [|n IH]; intros H; [apply entry_zero|]. rewrite (sum_n_S Rops_ring).
  apply (entry_ext s m (fun p => sum_n (K := Rops) n (fun a => u a p) + u n p)); [intros p; now rewrite (sum_n_S Rops_ring)|]. apply entry_plus; [apply IH; intros; apply H; lia|apply H; lia].
Qed.
Lemma field_entry s i U m : In s serendipity_names -> get_elements s = Ok i -> (m < node_count s)%nat -> entry_of s m (field_at i (node_count s) U) (U m).
Proof.
  intros I H Hm. replace (U m) with (sum_n (K := Rops) (node_count s) (fun a => U a * (if (a =? m)%nat then 1 else 0))).
  - unfold field_at. apply (entry_sum s m (node_count s) (fun a x => U a * shape_value (K := Rops) i x a)). intros a Ha. apply entry_scal. now apply dual.
  - rewrite (sum_n_single Rops_ring _ m); [rewrite Nat.eqb_refl; apply Rmult_1_r|exact Hm|]. intros a _ N. rewrite (proj2 (Nat.eqb_neq _ _) N). apply Rmult_0_r.
Qed.

(** ** polynomials of degree two *)
(** twelve times the entry of x_k x_l *)
Definition mom12 (s : string) (a k l : nat) : Z :=
  let c := fun j => Z.of_nat (nth j (nth a (mesh_nodes2 s) []) 0%nat) in
  (3 * (c k * c l) + if existsb (String.eqb s) serendipity_names && negb (is_vertex s a) && (k =? edge_axis s a)%nat && (l =? k)%nat then 1 else 0)%Z.
Section Generic.
  Context {K : ops} (KR : ring_laws K).
  Let Kth : ring_theory (@zero K) one add mul sub opp eq := KR.
  Add Ring KringSe : Kth.
  Ltac expand X := cbv -[add sub mul opp zero one X car].
  Lemma quad_sum s i (x : list K) k l : In s (serendipity_names ++ quadratic_names) -> get_elements s = Ok i ->
    (k < element_dim s)%nat -> (l < element_dim s)%nat ->
    sum_n (node_count s) (fun a => mul (ofZ (mom12 s a k l)) (shape_value i x a)) = mul (ofZ 12) (mul (pt x k) (pt x l)).
  Proof.
    intros I H Hk Hl. unfold shape_value. set (X := pt x). cbn in I.
    repeat (destruct I as [<-|I]); [..|destruct I]; injection H as <-; cbn in Hk, Hl;
      (destruct k as [|[|[|k]]]; [| | |lia]); try lia; (destruct l as [|[|[|l]]]; [| | |lia]); try lia; clear Hk Hl; expand X; ring.
  Qed.
End Generic.

Lemma ser_axis s m : In s serendipity_names -> (m < node_count s)%nat -> is_vertex s m = false -> nth (edge_axis s m) (nth m (mesh_nodes2 s) []) 0%nat = 1%nat.
Proof.
  intros I Hm V. assert (C : forallb (fun m => is_vertex s m || (nth (edge_axis s m) (nth m (mesh_nodes2 s) []) 0 =? 1)%nat) (seq 0 (node_count s)) = true) by (cbn in I; destruct I as [<-|[<-|[]]]; reflexivity).
  rewrite forallb_forall in C. specialize (C m (proj2 (in_seq _ _ _) (conj (Nat.le_0_l m) Hm))). cbv beta in C. rewrite V in C. now apply Nat.eqb_eq.
Qed.
Lemma int_quad al be ga : is_RInt (fun t => al + be * t + ga * t ^ 2) 0 1 (al + be / 2 + ga / 3).
Proof.
  set (G := fun t => al * t + be * t ^ 2 / 2 + ga * t ^ 3 / 3).
  replace (al + be / 2 + ga / 3) with (minus (G 1) (G 0)) by (unfold minus, plus, opp, G; cbn; field).
  apply (is_RInt_derive G).
  - intros t _. unfold G. auto_derive; [exact I|]. field.
  - intros t _. apply (ex_derive_continuous (fun t => al + be * t + ga * t ^ 2)). auto_derive. exact I.
Qed.
Lemma int_quad_at (u : R -> R) al be ga v : (forall t, u t = al + be * t + ga * t ^ 2) -> v = al + be / 2 + ga / 3 -> is_RInt u 0 1 v.
Proof. intros E ->. apply (is_RInt_ext (fun t => al + be * t + ga * t ^ 2)); [intros; now rewrite E|apply int_quad]. Qed.
Lemma node_coord s a k : (k < element_dim s)%nat -> nth k (ref_node s a) 0 = rc s a k.
Proof. intros Hk. unfold ref_node. rewrite (nth_map_in _ _ _ 0%nat) by (rewrite seq_length; exact Hk). now rewrite seq_nth by exact Hk. Qed.
Lemma entry_const s m c : entry_of s m (fun _ => c) c.
Proof. unfold entry_of. destruct (is_vertex s m); [reflexivity|]. apply (int_quad_at _ c 0 0); [intros; ring|field]. Qed.
Lemma entry_coord s m k : In s serendipity_names -> (m < node_count s)%nat -> (k < element_dim s)%nat -> entry_of s m (fun x => nth k x 0) (rc s m k).
Proof.
  intros I Hm Hk. unfold entry_of. destruct (is_vertex s m) eqn:V; [now apply node_coord|].
  destruct (Nat.eqb_spec k (edge_axis s m)) as [E|N].
  - apply (int_quad_at _ 0 1 0); [intros t; rewrite edge_pt, E, Nat.eqb_refl by exact Hk; ring|]. rewrite E. unfold rc. rewrite (ser_axis s m I Hm V). cbn. field.
  - apply (int_quad_at _ (rc s m k) 0 0); [intros t; rewrite edge_pt, (proj2 (Nat.eqb_neq _ _) N) by exact Hk; ring|field].
Qed.
Lemma mom_product s m k l : (is_vertex s m = true \/ k <> edge_axis s m \/ l <> k) -> IZR (mom12 s m k l) / 12 = rc s m k * rc s m l.
Proof.
  intros H. unfold mom12. rewrite !rc_half.
  replace (_ && _ && _ && _) with false; [rewrite Z.add_0_r, !mult_IZR; field|].
  symmetry. destruct H as [-> | [N|N]]; [now rewrite andb_false_r|now rewrite (proj2 (Nat.eqb_neq _ _) N), andb_false_r|now rewrite (proj2 (Nat.eqb_neq _ _) N), andb_false_r].
Qed.
Lemma ser_existsb s : In s serendipity_names -> existsb (String.eqb s) serendipity_names = true.
Proof. intros I. apply existsb_exists. exists s. split; [exact I|apply String.eqb_refl]. Qed.
Lemma entry_product s m k l : In s serendipity_names -> (m < node_count s)%nat -> (k < element_dim s)%nat -> (l < element_dim s)%nat ->
  entry_of s m (fun x => nth k x 0 * nth l x 0) (IZR (mom12 s m k l) / 12).
Proof.
  intros I Hm Hk Hl. destruct (is_vertex s m) eqn:V.
  - rewrite mom_product by auto. unfold entry_of. rewrite V. now rewrite !node_coord.
  - destruct (Nat.eqb_spec k (edge_axis s m)) as [E|N].
    + destruct (Nat.eqb_spec l k) as [E'|N'].
      * subst l. unfold entry_of. rewrite V. apply (int_quad_at _ 0 0 1); [intros t; rewrite edge_pt by exact Hk; rewrite E, Nat.eqb_refl; ring|].
        unfold mom12. rewrite (ser_existsb s I), V, E, !Nat.eqb_refl, (ser_axis s m I Hm V). cbn. field.
      * rewrite mom_product by auto. unfold entry_of. rewrite V. apply (int_quad_at _ 0 (rc s m l) 0).
        -- intros t. rewrite !edge_pt by assumption. rewrite E, Nat.eqb_refl. rewrite E in N'. rewrite (proj2 (Nat.eqb_neq _ _) N'). ring.
        -- rewrite E. unfold rc at 1. rewrite (ser_axis s m I Hm V). cbn. field.
    + rewrite mom_product by auto. unfold entry_of. rewrite V. destruct (Nat.eqb_spec l (edge_axis s m)) as [E'|N'].
      * apply (int_quad_at _ 0 (rc s m k) 0).
        -- intros t. rewrite !edge_pt by assumption. rewrite E', Nat.eqb_refl, (proj2 (Nat.eqb_neq _ _) N). ring.
        -- rewrite E'. unfold rc at 2. rewrite (ser_axis s m I Hm V). cbn. field.
      * apply (int_quad_at _ (rc s m k * rc s m l) 0 0); [|field].
        intros t. rewrite !edge_pt by assumption. rewrite (proj2 (Nat.eqb_neq _ _) N), (proj2 (Nat.eqb_neq _ _) N'). ring.
Qed.
(** the entries of a polynomial of degree two *)
Definition quad_entries (s : string) (c : R) (b : nat -> R) (A : nat -> nat -> R) (a : nat) : R :=
  c + sum_n (K := Rops) (element_dim s) (fun k => b k * rc s a k) + sum_n (K := Rops) (element_dim s) (fun k => sum_n (K := Rops) (element_dim s) (fun l => A k l * (IZR (mom12 s a k l) / 12))).
Lemma quad_entry s m c b A : In s serendipity_names -> (m < node_count s)%nat -> entry_of s m (quadratic (element_dim s) c b A) (quad_entries s c b A m).
Proof.
  intros I Hm. unfold quadratic, quad_entries. apply (entry_plus s m (fun x => c + sum_n (K := Rops) (element_dim s) (fun k => b k * nth k x 0)) (fun x => sum_n (K := Rops) (element_dim s) (fun k => sum_n (K := Rops) (element_dim s) (fun l => A k l * (nth k x 0 * nth l x 0))))).
  - apply (entry_plus s m (fun _ => c) (fun x => sum_n (K := Rops) (element_dim s) (fun k => b k * nth k x 0))); [apply entry_const|].
    apply (entry_sum s m (element_dim s) (fun k x => b k * nth k x 0)). intros k Hk. apply (entry_scal s m (fun x => nth k x 0)). now apply entry_coord.
  - apply (entry_sum s m (element_dim s) (fun k x => sum_n (K := Rops) (element_dim s) (fun l => A k l * (nth k x 0 * nth l x 0)))). intros k Hk.
    apply (entry_sum s m (element_dim s) (fun l x => A k l * (nth k x 0 * nth l x 0))). intros l Hl. apply (entry_scal s m (fun x => nth k x 0 * nth l x 0)). now apply entry_product.
Qed.
Lemma quad_nodes s a c b A : ~ In s serendipity_names -> quadratic (element_dim s) c b A (ref_node s a) = quad_entries s c b A a.
Proof.
  intros N. unfold quadratic, quad_entries. f_equal; [f_equal; apply Rsum_ext; intros k Hk; now rewrite node_coord|].
  apply Rsum_ext. intros k Hk. apply Rsum_ext. intros l Hl. rewrite !node_coord by assumption. f_equal. unfold mom12.
  replace (existsb (String.eqb s) serendipity_names) with false; [cbn [andb]; rewrite !rc_half, Z.add_0_r, !mult_IZR; field|].
  symmetry. destruct (existsb _ _) eqn:E; [|reflexivity]. apply existsb_exists in E as (s' & I & E). apply String.eqb_eq in E. subst s'. contradiction.
Qed.
Lemma second_dim s i : In s (serendipity_names ++ quadratic_names) -> get_elements s = Ok i -> cell_dim (basix_ele i) = element_dim s /\ In s nine_names.
Proof. intros I H. cbn in I. repeat (destruct I as [<-|I]); [..|destruct I]; injection H as <-; (split; [reflexivity|cbn; tauto]). Qed.
Lemma quad_reproduced s i c b A x : In s (serendipity_names ++ quadratic_names) -> get_elements s = Ok i ->
  field_at i (node_count s) (quad_entries s c b A) x = quadratic (element_dim s) c b A x.
Proof.
  intros I H. destruct (second_dim s i I H) as (D & I9). set (d := element_dim s) in *. set (n := node_count s).
  assert (S0 : sum_n (K := Rops) n (fun a => shape_value (K := Rops) i x a) = 1) by exact (shape_sum Rops_ring s i x I9 H).
  assert (S1 : forall k, (k < d)%nat -> sum_n (K := Rops) n (fun a => rc s a k * shape_value (K := Rops) i x a) = nth k x 0).
  { intros k Hk. rewrite <- D in Hk. rewrite <- (shape_linear Rops_ring s i (/ 2) x k ltac:(cbn; lra) I9 H Hk : _ = nth k x 0). apply Rsum_ext. intros a _. unfold ref_coord. rewrite ofZ_IZR, rc_half. reflexivity. }
  assert (S2 : forall k l, (k < d)%nat -> (l < d)%nat -> sum_n (K := Rops) n (fun a => IZR (mom12 s a k l) / 12 * shape_value (K := Rops) i x a) = nth k x 0 * nth l x 0).
  { intros k l Hk Hl. assert (Q := quad_sum Rops_ring s i x k l I H Hk Hl). rewrite ofZ_IZR in Q.
    apply Rmult_eq_reg_l with 12; [|lra]. etransitivity; [|exact Q]. rewrite <- Rsum_mul. apply Rsum_ext. intros a _. rewrite ofZ_IZR. change (mul ?p ?q) with (Rmult p q). field. }
  unfold field_at, quad_entries, quadratic.
  transitivity (sum_n (K := Rops) n (fun a => c * shape_value (K := Rops) i x a + sum_n (K := Rops) d (fun k => b k * (rc s a k * shape_value (K := Rops) i x a)) + sum_n (K := Rops) d (fun k => sum_n (K := Rops) d (fun l => A k l * (IZR (mom12 s a k l) / 12 * shape_value (K := Rops) i x a))))).
  { apply Rsum_ext. intros a _. rewrite !Rmult_plus_distr_r. f_equal; [f_equal|].
    - rewrite Rmult_comm, <- Rsum_mul. apply Rsum_ext. intros. ring.
    - rewrite Rmult_comm, <- Rsum_mul. apply Rsum_ext. intros. rewrite <- Rsum_mul. apply Rsum_ext. intros. ring. }
  rewrite !Rsum_plus. f_equal; [f_equal|].
  - rewrite Rsum_mul. etransitivity; [exact (f_equal (Rmult c) S0)|apply Rmult_1_r].
  - rewrite Rsum_swap. apply Rsum_ext. intros k Hk. rewrite Rsum_mul. exact (f_equal (Rmult (b k)) (S1 k Hk)).
  - rewrite Rsum_swap. apply Rsum_ext. intros k Hk. rewrite Rsum_swap. apply Rsum_ext. intros l Hl. rewrite Rsum_mul. exact (f_equal (Rmult (A k l)) (S2 k l Hk Hl)).
Qed.
Lemma serendipity_exact s i c b A U x : In s serendipity_names -> get_elements s = Ok i ->
  (forall a, (a < node_count s)%nat -> entry_of s a (quadratic (element_dim s) c b A) (U a)) -> field_at i (node_count s) U x = quadratic (element_dim s) c b A x.
Proof.
  intros I H HU. rewrite <- (quad_reproduced s i c b A x (in_or_app _ _ _ (or_introl I)) H). apply Rsum_ext. intros a Ha. f_equal.
  apply (entry_unique s a (quadratic (element_dim s) c b A)); [now apply HU|now apply quad_entry].
Qed.
Lemma lagrange_exact s i c b A x : In s quadratic_names -> get_elements s = Ok i ->
  field_at i (node_count s) (fun a => quadratic (element_dim s) c b A (ref_node s a)) x = quadratic (element_dim s) c b A x.
Proof.
  intros I H. rewrite <- (quad_reproduced s i c b A x (in_or_app _ _ _ (or_intror I)) H). apply Rsum_ext. intros a _. f_equal. apply quad_nodes.
  intros J. cbn in I, J. repeat (destruct I as [<-|I]); [..|destruct I]; repeat (destruct J as [J|J]); try discriminate; destruct J.
Qed.

(** ** the value at a mid-edge node *)
Definition ends_b (s : string) (m v : nat) (e : nat) : bool :=
  forallb (fun k => (nth k (nth v (mesh_nodes2 s) []) 0 =? (if (k =? edge_axis s m)%nat then e else nth k (nth m (mesh_nodes2 s) []) 0))%nat) (seq 0 (element_dim s)).
Definition mid_check (s : string) (i : element_info) : bool :=
  forallb (fun m => if is_vertex s m then true else forallb (fun v => if ends_b s m v 0 then forallb (fun w => if ends_b s m w 2 then
    (negb (v =? w)%nat && negb (v =? m)%nat && negb (w =? m)%nat && forallb (fun a => let p := dy_eval (nth m (mesh_nodes2 s) []) (fn i a) in
      Z.eqb (4 * fst p) ((if (a =? m)%nat then 6 else if (a =? v)%nat then -1 else if (a =? w)%nat then -1 else 0) * 2 ^ Z.of_nat (snd p))) (seq 0 (node_count s))) else true)
    (seq 0 (node_count s)) else true) (seq 0 (node_count s))) (seq 0 (node_count s)).
Lemma ends_ok s m v e : (forall k, (k < element_dim s)%nat -> rc s v k = if (k =? edge_axis s m)%nat then INR e / 2 else rc s m k) -> ends_b s m v e = true.
Proof.
  intros H. apply forallb_forall. intros k Hk. apply in_seq in Hk. specialize (H k ltac:(lia)). apply Nat.eqb_eq, INR_eq. unfold rc in H. destruct (k =? edge_axis s m)%nat; lra.
Qed.
Lemma mid_value s i U m v w : In s serendipity_names -> get_elements s = Ok i -> (m < node_count s)%nat -> (v < node_count s)%nat -> (w < node_count s)%nat ->
  is_vertex s m = false -> ref_node s v = edge_point s m 0 -> ref_node s w = edge_point s m 1 ->
  field_at i (node_count s) U (ref_node s m) = 3 / 2 * U m - (U v + U w) / 4.
Proof.
  intros I H Hm Hv Hw V E0 E1. assert (C : mid_check s i = true) by (cbn in I; destruct I as [<-|[<-|[]]]; injection H as <-; vm_compute; reflexivity).
  assert (B0 : ends_b s m v 0 = true). { apply ends_ok. intros k Hk. rewrite <- (node_coord s v k Hk), E0, edge_pt by exact Hk. destruct (k =? _)%nat; [cbn; field|reflexivity]. }
  assert (B1 : ends_b s m w 2 = true). { apply ends_ok. intros k Hk. rewrite <- (node_coord s w k Hk), E1, edge_pt by exact Hk. destruct (k =? _)%nat; [cbn; field|reflexivity]. }
  unfold mid_check in C. rewrite forallb_forall in C. specialize (C m (proj2 (in_seq _ _ _) (conj (Nat.le_0_l m) Hm))). cbv beta in C. rewrite V in C.
  rewrite forallb_forall in C. specialize (C v (proj2 (in_seq _ _ _) (conj (Nat.le_0_l v) Hv))). cbv beta in C. rewrite B0 in C.
  rewrite forallb_forall in C. specialize (C w (proj2 (in_seq _ _ _) (conj (Nat.le_0_l w) Hw))). cbv beta in C. rewrite B1 in C.
  apply andb_true_iff in C as [C C3]. apply andb_true_iff in C as [C C2]. apply andb_true_iff in C as [C0 C1].
  apply negb_true_iff, Nat.eqb_neq in C0, C1, C2.
  assert (N : forall a, (a < node_count s)%nat -> shape_value (K := Rops) i (ref_node s m) a = (if (a =? m)%nat then 3 / 2 else 0) + ((if (a =? v)%nat then - / 4 else 0) + (if (a =? w)%nat then - / 4 else 0))).
  { intros a Ha. rewrite forallb_forall in C3. specialize (C3 a (proj2 (in_seq _ _ _) (conj (Nat.le_0_l a) Ha))). cbv beta zeta in C3. apply Z.eqb_eq in C3.
    rewrite (ser_node s m I Hm). unfold shape_value, ref_point. fold (fn i a).
    etransitivity; [exact (dy_eval_ok Rops_ring (/ 2) (nth m (mesh_nodes2 s) []) (fn i a) ltac:(req; cbn; lra))|]. unfold dyK.
    set (p := dy_eval (nth m (mesh_nodes2 s) []) (fn i a)) in *.
    assert (P : IZR (2 ^ Z.of_nat (snd p)) * powK (K := Rops) (/ 2) (snd p) = 1). { rewrite <- ofZ_IZR. exact (pow2_half Rops_ring (/ 2) _ ltac:(req; cbn; lra)). }
    rewrite ofZ_IZR. change (IZR (fst p) * powK (K := Rops) (/ 2) (snd p) = (if (a =? m)%nat then 3 / 2 else 0) + ((if (a =? v)%nat then - / 4 else 0) + (if (a =? w)%nat then - / 4 else 0))).
    apply (f_equal IZR) in C3. rewrite !mult_IZR in C3. set (q := powK (K := Rops) (/ 2) (snd p)) in *. set (z := IZR (2 ^ Z.of_nat (snd p))) in *.
    assert (F : IZR (fst p) * q = IZR (if (a =? m)%nat then 6 else if (a =? v)%nat then -1 else if (a =? w)%nat then -1 else 0) / 4).
    { apply Rmult_eq_reg_l with 4; [|lra]. rewrite <- Rmult_assoc, C3, Rmult_assoc, P. field. }
    etransitivity; [exact F|]. destruct (Nat.eqb_spec a m), (Nat.eqb_spec a v), (Nat.eqb_spec a w); subst; try contradiction; try congruence; field. }
  unfold field_at. rewrite (Rsum_ext _ _ (fun a => (if (m =? a)%nat then 1 else 0) * (3 / 2 * U a) + ((if (v =? a)%nat then 1 else 0) * (- / 4 * U a) + (if (w =? a)%nat then 1 else 0) * (- / 4 * U a)))).
  - rewrite !Rsum_plus, !Rsum_delta by assumption. field.
  - intros a Ha. rewrite (N a Ha), (Nat.eqb_sym m), (Nat.eqb_sym v), (Nat.eqb_sym w). destruct (a =? m)%nat, (a =? v)%nat, (a =? w)%nat; field.
Qed.
(** every mid-edge node lies between two vertices *)
Lemma mid_ends s m : In s serendipity_names -> (m < node_count s)%nat -> is_vertex s m = false ->
  exists v w, (v < node_count s)%nat /\ (w < node_count s)%nat /\ is_vertex s v = true /\ is_vertex s w = true /\ ref_node s v = edge_point s m 0 /\ ref_node s w = edge_point s m 1.
Proof.
  intros I Hm V.
  assert (C : forallb (fun m => is_vertex s m || (existsb (fun v => is_vertex s v && ends_b s m v 0) (seq 0 (node_count s)) && existsb (fun w => is_vertex s w && ends_b s m w 2) (seq 0 (node_count s)))) (seq 0 (node_count s)) = true) by (cbn in I; destruct I as [<-|[<-|[]]]; vm_compute; reflexivity).
  rewrite forallb_forall in C. specialize (C m (proj2 (in_seq _ _ _) (conj (Nat.le_0_l m) Hm))). cbv beta in C. rewrite V in C. cbn [orb] in C. apply andb_true_iff in C as [C0 C1].
  apply existsb_exists in C0 as (v & Hv & Cv). apply existsb_exists in C1 as (w & Hw & Cw). apply in_seq in Hv, Hw. apply andb_true_iff in Cv as [Vv Cv], Cw as [Vw Cw].
  exists v, w. assert (E : forall u e, ends_b s m u e = true -> ref_node s u = edge_point s m (INR e / 2)).
  { intros u e B. unfold ref_node, edge_point. apply map_ext_in. intros k Hk. unfold ends_b in B. rewrite forallb_forall in B. specialize (B k Hk). apply Nat.eqb_eq in B. unfold rc. rewrite B. destruct (k =? _)%nat; reflexivity. }
  repeat split; try lia; try assumption; [replace 0 with (INR 0 / 2) by (cbn; field)|replace 1 with (INR 2 / 2) by (cbn; field)]; now apply E.
Qed.
Lemma mid_exists s : In s serendipity_names -> exists m, (m < node_count s)%nat /\ is_vertex s m = false /\ edge_axis s m = 0%nat.
Proof. intros I. cbn in I. destruct I as [<-|[<-|[]]]; [exists 4%nat|exists 8%nat]; (split; [cbn; lia|split; reflexivity]). Qed.
Lemma ser_nine s : In s serendipity_names -> In s nine_names.
Proof. intros I. cbn in I. destruct I as [<-|[<-|[]]]; cbn; tauto. Qed.
Lemma nodal_refuted s : In s serendipity_names ->
  ~ (forall i U a, get_elements s = Ok i -> (a < node_count s)%nat -> field_at i (node_count s) U (ref_node s a) = U a).
Proof.
  intros I F. destruct (get_elements_ok s (ser_nine s I)) as (i & H). destruct (mid_exists s I) as (m & Hm & V & _). destruct (mid_ends s m I Hm V) as (v & w & Hv & Hw & Vv & Vw & E0 & E1).
  set (U := fun a => if (a =? m)%nat then 1 else 0). assert (G := F i U m H Hm). rewrite (mid_value s i U m v w I H Hm Hv Hw V E0 E1) in G. unfold U in G. rewrite Nat.eqb_refl in G.
  destruct (Nat.eqb_spec v m) as [->|_]; [congruence|]. destruct (Nat.eqb_spec w m) as [->|_]; [congruence|]. lra.
Qed.
Lemma square_of s x : In s serendipity_names -> quadratic (element_dim s) 0 (fun _ => 0) (fun k l => if (k =? 0)%nat && (l =? 0)%nat then 1 else 0) x = nth 0 x 0 * nth 0 x 0.
Proof. intros I. cbn in I. destruct I as [<-|[<-|[]]]; destruct x as [|x0 [|x1 [|x2 x]]]; cbv -[Rplus Rmult IZR R]; ring. Qed.
Lemma sampling_refuted s : In s serendipity_names ->
  ~ (forall i c b A x, get_elements s = Ok i ->
       field_at i (node_count s) (fun a => quadratic (element_dim s) c b A (ref_node s a)) x = quadratic (element_dim s) c b A x).
Proof.
  intros I F. destruct (get_elements_ok s (ser_nine s I)) as (i & H). destruct (mid_exists s I) as (m & Hm & V & X). destruct (mid_ends s m I Hm V) as (v & w & Hv & Hw & Vv & Vw & E0 & E1).
  assert (D : (0 < element_dim s)%nat) by (cbn in I; destruct I as [<-|[<-|[]]]; cbn; lia).
  assert (G := F i 0 (fun _ => 0) (fun k l => if (k =? 0)%nat && (l =? 0)%nat then 1 else 0) (ref_node s m) H).
  rewrite (mid_value s i _ m v w I H Hm Hv Hw V E0 E1) in G. rewrite !(square_of s _ I), E0, E1, !edge_pt, X, node_coord in G by exact D. cbn [Nat.eqb] in G.
  assert (R0 : rc s m 0 = 1 / 2). { assert (A := ser_axis s m I Hm V). rewrite X in A. unfold rc. rewrite A. reflexivity. }
  rewrite R0 in G. lra.
Qed.
Lemma affine_exact s i c b x : In s nine_names -> get_elements s = Ok i ->
  field_at i (node_count s) (fun a => quadratic (element_dim s) c b (fun _ _ => 0) (ref_node s a)) x = quadratic (element_dim s) c b (fun _ _ => 0) x.
Proof.
  intros I9 H. assert (D : cell_dim (basix_ele i) = element_dim s) by (names I9; injection H as <-; reflexivity). set (d := element_dim s) in *. set (n := node_count s).
  assert (S0 : sum_n (K := Rops) n (fun a => shape_value (K := Rops) i x a) = 1) by exact (shape_sum Rops_ring s i x I9 H).
  assert (S1 : forall k, (k < d)%nat -> sum_n (K := Rops) n (fun a => rc s a k * shape_value (K := Rops) i x a) = nth k x 0).
  { intros k Hk. rewrite <- D in Hk. rewrite <- (shape_linear Rops_ring s i (/ 2) x k ltac:(cbn; lra) I9 H Hk : _ = nth k x 0). apply Rsum_ext. intros a _. unfold ref_coord. rewrite ofZ_IZR, rc_half. reflexivity. }
  assert (Q : forall y, quadratic d c b (fun _ _ => 0) y = c + sum_n (K := Rops) d (fun k => b k * nth k y 0)).
  { intros y. unfold quadratic. rewrite (Rsum_ext d (fun k => sum_n (K := Rops) d (fun l => 0 * (nth k y 0 * nth l y 0))) (fun _ => 0 * 0)); [rewrite Rsum_mul; ring|]. intros k _. rewrite Rsum_mul. ring. }
  rewrite Q. unfold field_at.
  transitivity (sum_n (K := Rops) n (fun a => c * shape_value (K := Rops) i x a + sum_n (K := Rops) d (fun k => b k * (rc s a k * shape_value (K := Rops) i x a)))).
  { apply Rsum_ext. intros a _. rewrite Q. rewrite Rmult_plus_distr_r. f_equal. rewrite Rmult_comm, <- Rsum_mul. apply Rsum_ext. intros k Hk. rewrite node_coord by exact Hk. ring. }
  rewrite !Rsum_plus. f_equal.
  - rewrite Rsum_mul. etransitivity; [exact (f_equal (Rmult c) S0)|apply Rmult_1_r].
  - rewrite Rsum_swap. apply Rsum_ext. intros k Hk. rewrite Rsum_mul. exact (f_equal (Rmult (b k)) (S1 k Hk)).
Qed.
