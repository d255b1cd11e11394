(** Proofs about quadrature rules: exactness for polynomials, the default rules. *)
From Coq Require Import String List Arith Lia Bool ZArith InitialRing Reals Lra Factorial.
From Coquelicot Require Import Hierarchy Continuity Derive AutoDerive RInt RInt_analysis.
From Verif Require Import Num Arr ArrFacts Fe Basis Problem SpecBasis SpecFe BasisFacts FeFacts GeomFacts ElasticFacts Quadrature SpecQuad SpecSecond SecondFacts.
Import ListNotations.
Local Open Scope R_scope.

(** ** integrals are linear *)
Lemma rint_ext (f g : R -> R) a b v : (forall x, f x = g x) -> is_RInt (V := R_NormedModule) f a b v -> is_RInt (V := R_NormedModule) g a b v.
Proof. intros E. apply is_RInt_ext. intros; apply E. Qed.
Lemma rint_zero a b : is_RInt (V := R_NormedModule) (fun _ => 0) a b 0.
Proof. assert (A := is_RInt_const a b 0). assert (E : forall z : R, z = 0 -> is_RInt (V := R_NormedModule) (fun _ : R => 0) a b z -> is_RInt (V := R_NormedModule) (fun _ : R => 0) a b 0) by (intros z -> B; exact B). apply (E _ (Rmult_0_r _) A). Qed.
Lemma rint_lin f g a b c u v : is_RInt (V := R_NormedModule) f a b u -> is_RInt (V := R_NormedModule) g a b v -> is_RInt (V := R_NormedModule) (fun x => c * f x + g x) a b (c * u + v).
Proof. intros A B. exact (is_RInt_plus _ _ a b _ _ (is_RInt_scal _ a b c u A) B). Qed.
Lemma int_zero c : ref_int c (fun _ => 0) 0.
Proof.
  unfold ref_int. destruct c; cbn [cell_dim]; first [exists (fun _ => 0); split; [intros x _; exists (fun _ => 0); split; [intros; apply rint_zero|apply rint_zero]|apply rint_zero] | exists (fun _ => 0); split; [intros; apply rint_zero|apply rint_zero]].
Qed.
Lemma int2_lin s k f g u v : int2 s f u -> int2 s g v -> int2 s (fun x => k * f x + g x) (k * u + v).
Proof.
  intros (h & A & B) (h' & A' & B'). exists (fun x => k * h x + h' x). split; [|now apply rint_lin].
  intros x Hx. exact (rint_lin (fun y => f [x; y]) (fun y => g [x; y]) _ _ k _ _ (A x Hx) (A' x Hx)).
Qed.
Lemma int3_lin s k f g u v : int3 s f u -> int3 s g v -> int3 s (fun x => k * f x + g x) (k * u + v).
Proof.
  intros (h & A & B) (h' & A' & B'). exists (fun x => k * h x + h' x). split; [|now apply rint_lin].
  intros x Hx. destruct (A x Hx) as (m & C & D), (A' x Hx) as (m' & C' & D'). exists (fun y => k * m y + m' y). split; [|now apply rint_lin].
  intros y Hy. exact (rint_lin (fun z => f [x; y; z]) (fun z => g [x; y; z]) _ _ k _ _ (C y Hy) (C' y Hy)).
Qed.
Lemma int_lin c k f g u v : ref_int c f u -> ref_int c g v -> ref_int c (fun x => k * f x + g x) (k * u + v).
Proof. unfold ref_int. destruct (cell_dim c) as [|[|[|n]]]; first [apply int2_lin|apply int3_lin]. Qed.
Lemma int_ext c f g v : (forall x, f x = g x) -> ref_int c f v -> ref_int c g v.
Proof.
  intros E. assert (T2 : forall s, int2 s f v -> int2 s g v).
  { intros s (h & A & B). exists h. split; [|exact B]. intros x Hx. apply (rint_ext (fun y => f [x; y])); [intros; apply E|now apply A]. }
  assert (T3 : forall s, int3 s f v -> int3 s g v).
  { intros s (h & A & B). exists h. split; [|exact B]. intros x Hx. destruct (A x Hx) as (m & C & D). exists m. split; [|exact D]. intros y Hy. apply (rint_ext (fun z => f [x; y; z])); [intros; apply E|now apply C]. }
  unfold ref_int. destruct (cell_dim c) as [|[|[|n]]]; auto.
Qed.
Lemma int_scal c k f u : ref_int c f u -> ref_int c (fun x => k * f x) (k * u).
Proof. intros A. assert (B := int_lin c k f (fun _ => 0) u 0 A (int_zero c)). rewrite Rplus_0_r in B. apply (int_ext c (fun x => k * f x + 0)); [intros; ring|exact B]. Qed.
Lemma int_sum c n (f : nat -> list R -> R) (v : nat -> R) : (forall a, (a < n)%nat -> ref_int c (f a) (v a)) ->
  ref_int c (fun x => sum_n (K := Rops) n (fun a => f a x)) (sum_n (K := Rops) n v).
Proof.
  induction n as [|n IH]; intros H; [apply int_zero|]. rewrite (sum_n_S Rops_ring).
  apply (int_ext c (fun x => 1 * sum_n (K := Rops) n (fun a => f a x) + f n x)); [intros x; rewrite (sum_n_S Rops_ring), Rmult_1_l; reflexivity|].
  assert (L := int_lin c 1 _ _ _ _ (IH (fun a Ha => H a (Nat.lt_lt_succ_r _ _ Ha))) (H n (Nat.lt_succ_diag_r n))). rewrite Rmult_1_l in L. exact L.
Qed.

(** ** polynomials as combinations of monomials *)
Inductive span (P : nat * nat * nat -> Prop) : (list R -> R) -> Prop :=
| sp_zero f : (forall x, f x = 0) -> span P f
| sp_cons e c f g : P e -> span P f -> (forall x, g x = c * mono e x + f x) -> span P g.
Lemma span_ext P f g : (forall x, f x = g x) -> span P f -> span P g.
Proof. intros E S. destruct S as [f H|e c h f He Hs H]; [apply sp_zero; intros; rewrite <- E; apply H|apply (sp_cons P e c h); auto; intros; rewrite <- E; apply H]. Qed.
Lemma span_mono (P Q : nat * nat * nat -> Prop) f : (forall e, P e -> Q e) -> span P f -> span Q f.
Proof. intros I S. induction S as [f H|e c h f He Hs IH H]; [now apply sp_zero|now apply (sp_cons Q e c h); auto]. Qed.
Lemma span_lin P k f g : span P f -> span P g -> span P (fun x => k * f x + g x).
Proof.
  intros S T. induction S as [f H|e c h f He Hs IH H].
  - apply (span_ext P g); [intros; rewrite H; ring|exact T].
  - apply (sp_cons P e (k * c) (fun x => k * h x + g x)); [exact He|exact IH|]. intros; rewrite H; ring.
Qed.
Lemma mono_mul e e' x : mono e x * mono e' x = mono (fst (fst e) + fst (fst e'), snd (fst e) + snd (fst e'), snd e + snd e')%nat x.
Proof. destruct e as [[a b] c], e' as [[a' b'] c']. cbn [mono fst snd]. rewrite !pow_add. ring. Qed.
Lemma span_mul (P Q T : nat * nat * nat -> Prop) f g : (forall e e', P e -> Q e' -> T (fst (fst e) + fst (fst e'), snd (fst e) + snd (fst e'), snd e + snd e')%nat) ->
  span P f -> span Q g -> span T (fun x => f x * g x).
Proof.
  intros I S G. induction S as [f H|e c h f He Hs IH H]; [apply sp_zero; intros; rewrite H; ring|].
  apply (span_ext T (fun x => c * (mono e x * g x) + h x * g x)); [intros; rewrite H; ring|]. apply span_lin; [|exact IH].
  clear IH H. induction G as [g H|e' c' h' g He' Hs' IH H]; [apply sp_zero; intros; rewrite H; ring|].
  apply (sp_cons T _ c' (fun x => mono e x * h' x) _ (I e e' He He')); [exact IH|]. intros x. rewrite H, <- mono_mul. ring.
Qed.
Lemma rule_lin quad k f g : by_rule quad (fun x => k * f x + g x) = k * by_rule quad f + by_rule quad g.
Proof. unfold by_rule. rewrite <- Rsum_mul, <- Rsum_plus. apply Rsum_ext. intros. ring. Qed.
Lemma rule_ext quad f g : (forall x, f x = g x) -> by_rule quad f = by_rule quad g.
Proof. intros E. apply Rsum_ext. intros. now rewrite E. Qed.
Lemma rule_span c order quad f : exact_rule c order quad -> span (fun e => covered c order e = true) f -> ref_int c f (by_rule quad f).
Proof.
  intros (_ & X) S. induction S as [f H|e k h f He Hs IH H].
  - replace (by_rule quad f) with 0; [apply (int_ext c (fun _ => 0)); [intros; now rewrite H|apply int_zero]|].
    unfold by_rule. symmetry. rewrite (Rsum_ext _ _ (fun _ => 0 * 0)) by (intros; rewrite H; ring). rewrite Rsum_mul. ring.
  - rewrite (rule_ext quad f (fun x => k * mono e x + h x) H), rule_lin. apply (int_ext c (fun x => k * mono e x + h x)); [intros; now rewrite H|]. apply int_lin; [now apply X|exact IH].
Qed.

(** the exponents that may occur in an expression *)
Definition e_add (a b : nat * nat * nat) : nat * nat * nat := (fst (fst a) + fst (fst b), snd (fst a) + snd (fst b), snd a + snd b)%nat.
Definition e_eq (a b : nat * nat * nat) : {a = b} + {a <> b}.
Proof. repeat decide equality. Defined.
Definition e_union (a b : list (nat * nat * nat)) := nodup e_eq (a ++ b).
Fixpoint mons (p : pexp) : list (nat * nat * nat) :=
  match p with
  | PZ z => if Z.eqb z 0 then [] else [(0, 0, 0)%nat]
  | PX 0 => [(1, 0, 0)%nat] | PX 1 => [(0, 1, 0)%nat] | PX 2 => [(0, 0, 1)%nat] | PX _ => [(1000, 1000, 1000)%nat]
  | PAdd p q | PSub p q => e_union (mons p) (mons q)
  | PMul p q => nodup e_eq (flat_map (fun a => map (e_add a) (mons q)) (mons p))
  end.
Fixpoint vars_ok (p : pexp) : bool :=
  match p with PZ _ => true | PX i => (i <? 3)%nat | PAdd p q | PSub p q | PMul p q => vars_ok p && vars_ok q end.
Lemma mons_span p : vars_ok p = true -> span (fun e => In e (mons p)) (fun x => peval (K := Rops) (pt (K := Rops) x) p).
Proof.
  induction p as [z|i|p IHp q IHq|p IHp q IHq|p IHp q IHq]; cbn [vars_ok mons peval]; intros V.
  - destruct (Z.eqb_spec z 0) as [->|N]; [apply sp_zero; reflexivity|].
    apply (sp_cons _ (0, 0, 0)%nat (IZR z) (fun _ => 0)); [now left|apply sp_zero; reflexivity|]. intros x. rewrite ofZ_IZR. cbn. ring.
  - apply Nat.ltb_lt in V. destruct i as [|[|[|i]]]; [| | |lia].
    + apply (sp_cons _ (1, 0, 0)%nat 1 (fun _ => 0)); [now left|apply sp_zero; reflexivity|]. intros x. change (nth 0 x 0 = 1 * mono (1, 0, 0)%nat x + 0). cbn [mono pow]. ring.
    + apply (sp_cons _ (0, 1, 0)%nat 1 (fun _ => 0)); [now left|apply sp_zero; reflexivity|]. intros x. change (nth 1 x 0 = 1 * mono (0, 1, 0)%nat x + 0). cbn [mono pow]. ring.
    + apply (sp_cons _ (0, 0, 1)%nat 1 (fun _ => 0)); [now left|apply sp_zero; reflexivity|]. intros x. change (nth 2 x 0 = 1 * mono (0, 0, 1)%nat x + 0). cbn [mono pow]. ring.
  - apply andb_true_iff in V as [V1 V2].
    apply (span_ext _ (fun x => 1 * peval (K := Rops) (pt (K := Rops) x) p + peval (K := Rops) (pt (K := Rops) x) q)); [intros x; rewrite Rmult_1_l; reflexivity|].
    apply span_lin; [apply (span_mono (fun e => In e (mons p))); [|now apply IHp]|apply (span_mono (fun e => In e (mons q))); [|now apply IHq]]; intros e He; apply nodup_In, in_or_app; auto.
  - apply andb_true_iff in V as [V1 V2].
    apply (span_ext _ (fun x => -1 * peval (K := Rops) (pt (K := Rops) x) q + peval (K := Rops) (pt (K := Rops) x) p)).
    { intros x. set (u := peval (K := Rops) (pt (K := Rops) x) p). set (v := peval (K := Rops) (pt (K := Rops) x) q). change (-1 * v + u = u - v). clearbody u v. cbn in u, v. ring. }
    apply span_lin; [apply (span_mono (fun e => In e (mons q))); [|now apply IHq]|apply (span_mono (fun e => In e (mons p))); [|now apply IHp]]; intros e He; apply nodup_In, in_or_app; auto.
  - apply andb_true_iff in V as [V1 V2].
    apply (span_mul (fun e => In e (mons p)) (fun e => In e (mons q))); [|now apply IHp|now apply IHq].
    intros e e' He He'. apply nodup_In, in_flat_map. exists e. split; [exact He|]. apply in_map_iff. exists e'. now split.
Qed.
Lemma covered_span c order p : vars_ok p = true -> forallb (covered c order) (mons p) = true -> span (fun e => covered c order e = true) (fun x => peval (K := Rops) (pt (K := Rops) x) p).
Proof. intros V C. apply (span_mono (fun e => In e (mons p))); [|now apply mons_span]. intros e He. rewrite forallb_forall in C. now apply C. Qed.

(** ** shape functions *)
Definition cls (c : cell_type) (m : nat) (e : nat * nat * nat) : bool :=
  let '(e0, e1, e2) := e in
  ((cell_dim c =? 3)%nat || (e2 =? 0)%nat) && if is_simplex c then (e0 + e1 + e2 <=? m)%nat else (e0 <=? m)%nat && (e1 <=? m)%nat && (e2 <=? m)%nat.
Lemma cls_mul c m m' e e' : cls c m e = true -> cls c m' e' = true -> cls c (m + m') (fst (fst e) + fst (fst e'), snd (fst e) + snd (fst e'), snd e + snd e')%nat = true.
Proof.
  destruct e as [[a b] z], e' as [[a' b'] z']. unfold cls. cbn [fst snd]. intros H H'. apply andb_true_iff in H as [H0 H], H' as [H0' H']. apply andb_true_iff. split.
  - apply orb_true_iff in H0, H0'. apply orb_true_iff. destruct H0 as [H0|H0]; [now left|]. destruct H0' as [H0'|H0']; [now left|]. right. apply Nat.eqb_eq in H0, H0'. apply Nat.eqb_eq. lia.
  - destruct (is_simplex c); [apply Nat.leb_le in H, H'; apply Nat.leb_le; lia|].
    apply andb_true_iff in H as [H H3], H' as [H' H3']. apply andb_true_iff in H as [H1 H2], H' as [H1' H2']. apply Nat.leb_le in H1, H2, H3, H1', H2', H3'.
    apply andb_true_iff. split; [apply andb_true_iff; split|]; apply Nat.leb_le; lia.
Qed.
Lemma cls_covered c m order e : (m <= reach c order)%nat -> cls c m e = true -> covered c order e = true.
Proof.
  destruct e as [[a b] z]. unfold cls, covered. intros L H. apply andb_true_iff in H as [H0 H]. apply andb_true_iff. split; [exact H0|].
  destruct (is_simplex c); [apply Nat.leb_le in H; apply Nat.leb_le; lia|]. apply andb_true_iff in H as [H H3]. apply andb_true_iff in H as [H1 H2]. apply Nat.leb_le in H1, H2, H3.
  apply andb_true_iff. split; [apply andb_true_iff; split|]; apply Nat.leb_le; lia.
Qed.
Definition degree_check (s : string) (i : element_info) : bool :=
  forallb (fun a => vars_ok (fn i a) && forallb (cls (basix_ele i) (value_degree s)) (mons (fn i a)) &&
    forallb (fun j => vars_ok (pderiv j (fn i a)) && forallb (cls (basix_ele i) (gradient_degree s)) (mons (pderiv j (fn i a)))) (seq 0 (cell_dim (basix_ele i)))) (seq 0 (node_count s)).
Lemma degree_ok s i : In s nine_names -> get_elements s = Ok i -> degree_check s i = true.
Proof. intros I H. names I; injection H as <-; vm_compute; reflexivity. Qed.
Lemma value_span s i a : In s nine_names -> get_elements s = Ok i -> (a < node_count s)%nat ->
  span (fun e => cls (basix_ele i) (value_degree s) e = true) (fun x => shape_value (K := Rops) i x a).
Proof.
  intros I H Ha. assert (C := degree_ok s i I H). unfold degree_check in C. rewrite forallb_forall in C. specialize (C a (proj2 (in_seq _ _ _) (conj (Nat.le_0_l a) Ha))). cbv beta in C.
  apply andb_true_iff in C as [C _]. apply andb_true_iff in C as [V C]. unfold shape_value. fold (fn i a). apply (span_mono (fun e => In e (mons (fn i a)))); [|now apply mons_span].
  intros e He. rewrite forallb_forall in C. now apply C.
Qed.
Lemma grad_span s i a j : In s nine_names -> get_elements s = Ok i -> (a < node_count s)%nat -> (j < cell_dim (basix_ele i))%nat ->
  span (fun e => cls (basix_ele i) (gradient_degree s) e = true) (fun x => shape_grad (K := Rops) i x a j).
Proof.
  intros I H Ha Hj. assert (C := degree_ok s i I H). unfold degree_check in C. rewrite forallb_forall in C. specialize (C a (proj2 (in_seq _ _ _) (conj (Nat.le_0_l a) Ha))). cbv beta in C.
  apply andb_true_iff in C as [_ C]. rewrite forallb_forall in C. specialize (C j (proj2 (in_seq _ _ _) (conj (Nat.le_0_l j) Hj))). cbv beta in C.
  apply andb_true_iff in C as [V C]. unfold shape_grad. fold (fn i a). apply (span_mono (fun e => In e (mons (pderiv j (fn i a))))); [|now apply mons_span].
  intros e He. rewrite forallb_forall in C. now apply C.
Qed.
Lemma span_scal P k f : span P f -> span P (fun x => k * f x).
Proof. intros S. apply (span_ext P (fun x => k * f x + 0)); [intros; ring|]. apply span_lin; [exact S|now apply sp_zero]. Qed.
Lemma span_sum P n (f : nat -> list R -> R) : (forall a, (a < n)%nat -> span P (f a)) -> span P (fun x => sum_n (K := Rops) n (fun a => f a x)).
Proof.
  induction n as [|n IH]; intros H; [apply sp_zero; reflexivity|].
  apply (span_ext P (fun x => 1 * sum_n (K := Rops) n (fun a => f a x) + f n x)); [intros x; rewrite (sum_n_S Rops_ring), Rmult_1_l; reflexivity|]. apply span_lin; [apply IH; intros; apply H; lia|apply H; lia].
Qed.

(** ** displacements that the default rules of the serendipity elements do not see *)
Definition hg (s : string) (a m : nat) : Z :=
  let c := fun j => (Z.of_nat (nth j (nth a (mesh_nodes2 s) []) 0%nat) - 1)%Z in
  match m with 0%nat => (2 * c 0%nat * c 1%nat * c 1%nat)%Z | 1%nat => (- 2 * c 1%nat * c 0%nat * c 0%nat)%Z | _ => 0%Z end.
Section Generic.
  Context {K : ops} (KR : ring_laws K).
  Let Kth : ring_theory (@zero K) one add mul sub opp eq := KR.
  Add Ring KringHg : Kth.
  Ltac expand X := cbv -[add sub mul opp zero one X car].
  Definition hg_grad (X : nat -> K) (m j : nat) : K :=
    let u := sub (add (X 0%nat) (X 0%nat)) one in let w := sub (add (X 1%nat) (X 1%nat)) one in
    match m, j with
    | 0%nat, 0%nat => mul (ofZ 2) (sub (mul (ofZ 3) (mul w w)) one)
    | 0%nat, 1%nat => mul (ofZ 12) (mul u w)
    | 1%nat, 0%nat => opp (mul (ofZ 12) (mul u w))
    | 1%nat, 1%nat => opp (mul (ofZ 2) (sub (mul (ofZ 3) (mul u u)) one))
    | _, _ => zero
    end.
  Lemma hg_sum s i (x : list K) m j : In s serendipity_names -> get_elements s = Ok i -> (m < 3)%nat -> (j < element_dim s)%nat ->
    sum_n (node_count s) (fun a => mul (ofZ (hg s a m)) (shape_grad i x a j)) = hg_grad (pt x) m j.
  Proof.
    intros I H Hm Hj. unfold shape_grad. set (X := pt x). cbn in I.
    destruct I as [<-|[<-|[]]]; injection H as <-; cbn in Hj;
      (destruct m as [|[|[|m]]]; [| | |lia]); (destruct j as [|[|[|j]]]; [| | |lia]); try lia; clear Hm Hj; expand X; ring.
  Qed.
End Generic.

Definition HG (s : string) (a m : nat) : R := IZR (hg s a m).
Lemma ser_nine s : In s serendipity_names -> In s nine_names.
Proof. intros [<-|[<-|[]]]; cbn; intuition. Qed.
Lemma hg_sumR s i (x : list R) m j : In s serendipity_names -> get_elements s = Ok i -> (m < 3)%nat -> (j < element_dim s)%nat ->
  sum_n (K := Rops) (node_count s) (fun a => HG s a m * shape_grad (K := Rops) i x a j) = hg_grad (K := Rops) (pt (K := Rops) x) m j.
Proof. intros I H Hm Hj. rewrite <- (hg_sum Rops_ring s i x m j I H Hm Hj). apply Rsum_ext. intros a Ha. unfold HG. now rewrite <- ofZ_IZR. Qed.
Lemma gauss_pt x : In x gauss2 -> 3 * ((x + x - 1) * (x + x - 1)) - 1 = 0.
Proof.
  assert (Q : sqrt 3 * sqrt 3 = 3) by (apply sqrt_sqrt; lra). unfold gauss2. set (t := sqrt 3) in *. intros [<-|[<-|[]]].
  - transitivity ((t * t) / 3 - 1); [field|rewrite Q; field].
  - transitivity ((t * t) / 3 - 1); [field|rewrite Q; field].
Qed.
(** the symmetric part of the gradient vanishes at the points of the rule *)
Lemma hg_sym (X : nat -> R) m j : In (X 0%nat) gauss2 -> In (X 1%nat) gauss2 -> hg_grad (K := Rops) X m j + hg_grad (K := Rops) X j m = 0.
Proof.
  intros H0 H1. apply gauss_pt in H0, H1.
  destruct m as [|[|[|m]]]; destruct j as [|[|[|j]]]; unfold hg_grad; rewrite ?ofZ_IZR; change (@zero Rops) with 0; change (@one Rops) with 1; cbn [add sub mul opp Rops]; match goal with |- ?a = ?b => change (@eq R a b) end; try ring; [rewrite H1|rewrite H0]; ring.
Qed.
Lemma default_pts s i quad q : In s serendipity_names -> get_elements s = Ok i -> default_rule (basix_ele i) (quadrature_order_default i) = Some quad -> (q < length (fst quad))%nat ->
  In (pt (K := Rops) (nth q (fst quad) []) 0%nat) gauss2 /\ In (pt (K := Rops) (nth q (fst quad) []) 1%nat) gauss2.
Proof.
  intros I H D Hq. destruct I as [<-|[<-|[]]]; injection H as <-; cbn [basix_ele quadrature_order_default default_rule] in D; injection D as <-; cbn in Hq |- *.
  - do 4 (destruct q as [|q]; [cbn; intuition|]). lia.
  - do 8 (destruct q as [|q]; [cbn; intuition|]). lia.
Qed.

(** ** affine cells *)
Lemma info_dim s i : In s nine_names -> get_elements s = Ok i -> cell_dim (basix_ele i) = element_dim s.
Proof. intros I H. names I; injection H as <-; reflexivity. Qed.
Lemma dims_23 s : In s nine_names -> element_dim s = 2%nat \/ element_dim s = 3%nat.
Proof. intros I. names I; cbn; auto. Qed.
Section Cell.
  Variables (sqrtK : R -> R) (s : string) (quad fquad : list (list R) * list R) (normals : nat -> nat -> R) (pts0 : list (list R)) (cls_ : list (list nat)) (v d : nat)
    (dir : option (list (location_fn Rops) * list nat * list (list R -> R))) (f : fe Rops) (i : element_info).
  Hypothesis BUILT : fe_init (K := Rops) sqrtK s quad fquad normals pts0 cls_ v d dir = Ok f.
  Hypothesis LAG : In s nine_names.
  Hypothesis MESH : mesh_ok f.
  Hypothesis DIM : d = element_dim s.
  Hypothesis INFO : get_elements s = Ok i.
  Variable pts : list (list R).
  Hypothesis PTS : List.length pts = List.length (points f).
  Variables (M : nat -> nat -> R) (b : nat -> R) (c : nat).
  Hypothesis CELL : (c < List.length (cells f))%nat.
  Hypothesis AFF : affine_cell (K := Rops) (/ 2) s pts f d c M b.
  Lemma half_ok : @add Rops (/ 2) (/ 2) = @one Rops.
  Proof. change (/ 2 + / 2 = 1). lra. Qed.
  Lemma cell_dim_d : cell_dim (basix_ele i) = d.
  Proof. rewrite DIM. now apply info_dim. Qed.
  Lemma cell_jac q a j : (a < d)%nat -> (j < d)%nat -> jacobian_dx_deta pts f c q a j = M a j.
  Proof. exact (jac_aff Rops_ring _ _ _ _ _ _ _ _ _ _ _ BUILT LAG MESH DIM pts PTS (/ 2) M b c half_ok CELL AFF q a j). Qed.
  Lemma cell_jxw q : get_JxW pts f c q = det_dim (K := Rops) d M * nth q (snd quad) 0.
  Proof. rewrite (jxw_aff Rops_ring _ _ _ _ _ _ _ _ _ _ _ BUILT LAG MESH DIM pts PTS (/ 2) M b c half_ok CELL AFF q). now rewrite (built_weights _ _ _ _ _ _ _ _ _ _ _ BUILT). Qed.
  Lemma cell_vals q a : shape_vals f q a = shape_value (K := Rops) i (nth q (fst quad) []) a.
  Proof. destruct (built_inv _ _ _ _ _ _ _ _ _ _ _ BUILT) as (i' & fi & [[ns vs] ws] & Hi & _ & _ & Hf). rewrite INFO in Hi. injection Hi as <-. rewrite Hf. reflexivity. Qed.
  Lemma cell_refs q a j : shape_grads_ref f q a j = shape_grad (K := Rops) i (nth q (fst quad) []) a j.
  Proof. destruct (built_inv _ _ _ _ _ _ _ _ _ _ _ BUILT) as (i' & fi & [[ns vs] ws] & Hi & _ & _ & Hf). rewrite INFO in Hi. injection Hi as <-. rewrite Hf. reflexivity. Qed.
  Lemma dim_23 : d = 2%nat \/ d = 3%nat.
  Proof. rewrite DIM. now apply dims_23. Qed.
  Lemma cell_grads q a k : (k < d)%nat -> det_dim (K := Rops) d M <> 0 ->
    get_shape_grads pts f c q a k = sum_n (K := Rops) d (fun j => shape_grad (K := Rops) i (nth q (fst quad) []) a j * inv_mat (K := Rops) d M j k).
  Proof.
    intros Hk Hd. unfold get_shape_grads. rewrite (built_dim _ _ _ _ _ _ _ _ _ _ _ BUILT). apply sum_n_ext. intros j Hj. rewrite cell_refs.
    rewrite (inv_mat_ext d _ M j k) by (try apply dim_23; auto; intros; now apply cell_jac). reflexivity.
  Qed.
  Lemma gradient_inv a g x k : (k < d)%nat -> det_dim (K := Rops) d M <> 0 -> gradient_on d i M a g ->
    g x k = sum_n (K := Rops) d (fun j => shape_grad (K := Rops) i x a j * inv_mat (K := Rops) d M j k).
  Proof.
    intros Hk Hd G.
    transitivity (sum_n (K := Rops) d (fun j => sum_n (K := Rops) d (fun m => g x m * (M m j * inv_mat (K := Rops) d M j k)))).
    - rewrite Rsum_swap. transitivity (sum_n (K := Rops) d (fun m => (if (k =? m)%nat then 1 else 0) * g x m)); [now rewrite Rsum_delta|].
      apply Rsum_ext. intros m Hm. rewrite Rsum_mul. rewrite Rmult_comm. f_equal.
      rewrite Nat.eqb_sym. symmetry. apply (inv_mat_right Rops_field); try apply dim_23; auto. rewrite (det_dim_ok Rops_ring) by apply dim_23. exact Hd.
    - apply Rsum_ext. intros j Hj. rewrite <- (G x j Hj). rewrite Rmult_comm. rewrite <- Rsum_mul. apply Rsum_ext. intros m Hm. cbv beta. ring.
  Qed.
  (** Σ_q over the cell is the rule applied to the function, times the determinant *)
  Lemma stiffness_rule a a' g h k l : (k < d)%nat -> (l < d)%nat -> det_dim (K := Rops) d M <> 0 -> gradient_on d i M a g -> gradient_on d i M a' h ->
    sum_n (K := Rops) (num_quads f) (fun q => get_shape_grads pts f c q a k * get_shape_grads pts f c q a' l * get_JxW pts f c q) = by_rule quad (fun x => g x k * h x l * det_dim (K := Rops) d M).
  Proof.
    intros Hk Hl Hd G H. unfold by_rule. rewrite (built_quads _ _ _ _ _ _ _ _ _ _ _ BUILT). apply Rsum_ext. intros q Hq.
    rewrite cell_jxw, (cell_grads q a k Hk Hd), (cell_grads q a' l Hl Hd), <- (gradient_inv a g _ k Hk Hd G), <- (gradient_inv a' h _ l Hl Hd H). change (car Rops) with R. ring.
  Qed.
  Lemma mass_rule a a' : sum_n (K := Rops) (num_quads f) (fun q => shape_vals f q a * shape_vals f q a' * get_JxW pts f c q)
    = by_rule quad (fun x => shape_value (K := Rops) i x a * shape_value (K := Rops) i x a' * det_dim (K := Rops) d M).
  Proof. unfold by_rule. rewrite (built_quads _ _ _ _ _ _ _ _ _ _ _ BUILT). apply Rsum_ext. intros q Hq. rewrite cell_jxw, !cell_vals. change (car Rops) with R. ring. Qed.
  Lemma load_rule a : sum_n (K := Rops) (num_quads f) (fun q => shape_vals f q a * get_JxW pts f c q) = by_rule quad (fun x => shape_value (K := Rops) i x a * det_dim (K := Rops) d M).
  Proof. unfold by_rule. rewrite (built_quads _ _ _ _ _ _ _ _ _ _ _ BUILT). apply Rsum_ext. intros q Hq. rewrite cell_jxw, !cell_vals. change (car Rops) with R. ring. Qed.

  Lemma g_span a g k : (a < node_count s)%nat -> (k < d)%nat -> det_dim (K := Rops) d M <> 0 -> gradient_on d i M a g ->
    span (fun e => cls (basix_ele i) (gradient_degree s) e = true) (fun x => g x k).
  Proof.
    intros Ha Hk Hd G. apply (span_ext _ (fun x => sum_n (K := Rops) d (fun j => inv_mat (K := Rops) d M j k * shape_grad (K := Rops) i x a j))).
    - intros x. rewrite (gradient_inv a g x k Hk Hd G). apply Rsum_ext. intros. apply Rmult_comm.
    - apply span_sum. intros j Hj. apply span_scal. apply grad_span; auto. now rewrite cell_dim_d.
  Qed.
  Lemma prod_span m m' p r u order : (m + m' <= reach (basix_ele i) order)%nat ->
    span (fun e => cls (basix_ele i) m e = true) p -> span (fun e => cls (basix_ele i) m' e = true) r ->
    span (fun e => covered (basix_ele i) order e = true) (fun x => p x * r x * u).
  Proof.
    intros L P Q. apply (span_ext _ (fun x => u * (p x * r x))); [intros; ring|]. apply span_scal. 
    apply (span_mul (fun e => cls (basix_ele i) m e = true) (fun e => cls (basix_ele i) m' e = true)); auto.
    intros e e' He He'. apply (cls_covered _ (m + m')); [exact L|]. now apply cls_mul.
  Qed.
  Lemma stiffness_exact order a a' g h k l : exact_rule (basix_ele i) order quad -> (2 * gradient_degree s <= reach (basix_ele i) order)%nat ->
    (a < node_count s)%nat -> (a' < node_count s)%nat -> (k < d)%nat -> (l < d)%nat -> det_dim (K := Rops) d M <> 0 -> gradient_on d i M a g -> gradient_on d i M a' h ->
    ref_int (basix_ele i) (fun x => g x k * h x l * det_dim (K := Rops) d M)
      (sum_n (K := Rops) (num_quads f) (fun q => get_shape_grads pts f c q a k * get_shape_grads pts f c q a' l * get_JxW pts f c q)).
  Proof.
    intros E L Ha Ha' Hk Hl Hd G H. rewrite (stiffness_rule a a' g h k l Hk Hl Hd G H). apply (rule_span _ order); [exact E|].
    apply (prod_span (gradient_degree s) (gradient_degree s)); [lia|now apply (g_span a)|now apply (g_span a')].
  Qed.
  Lemma mass_exact order a a' : exact_rule (basix_ele i) order quad -> (2 * value_degree s <= reach (basix_ele i) order)%nat ->
    (a < node_count s)%nat -> (a' < node_count s)%nat ->
    ref_int (basix_ele i) (fun x => shape_value (K := Rops) i x a * shape_value (K := Rops) i x a' * det_dim (K := Rops) d M)
      (sum_n (K := Rops) (num_quads f) (fun q => shape_vals f q a * shape_vals f q a' * get_JxW pts f c q)).
  Proof.
    intros E L Ha Ha'. rewrite mass_rule. apply (rule_span _ order); [exact E|]. apply (prod_span (value_degree s) (value_degree s)); [lia|now apply value_span|now apply value_span].
  Qed.
  Lemma load_exact order a : exact_rule (basix_ele i) order quad -> (value_degree s <= reach (basix_ele i) order)%nat -> (a < node_count s)%nat ->
    ref_int (basix_ele i) (fun x => shape_value (K := Rops) i x a * det_dim (K := Rops) d M) (sum_n (K := Rops) (num_quads f) (fun q => shape_vals f q a * get_JxW pts f c q)).
  Proof.
    intros E L Ha. rewrite load_rule. apply (rule_span _ order); [exact E|]. apply (span_ext _ (fun x => det_dim (K := Rops) d M * shape_value (K := Rops) i x a)); [intros; apply Rmult_comm|].
    apply span_scal. apply (span_mono (fun e => cls (basix_ele i) (value_degree s) e = true)); [intros e He; now apply (cls_covered _ (value_degree s))|now apply value_span].
  Qed.

  (** ** displacements without strain *)
  Definition hg_u (a k : nat) : R := sum_n (K := Rops) d (fun m => HG s a m * inv_mat (K := Rops) d M m k).
  Lemma hg_field q k l : In s serendipity_names -> (k < d)%nat -> (l < d)%nat -> det_dim (K := Rops) d M <> 0 ->
    sum_n (K := Rops) (node_count s) (fun a => hg_u a k * get_shape_grads pts f c q a l)
    = sum_n (K := Rops) d (fun m => sum_n (K := Rops) d (fun j => inv_mat (K := Rops) d M m k * inv_mat (K := Rops) d M j l * hg_grad (K := Rops) (pt (K := Rops) (nth q (fst quad) [])) m j)).
  Proof.
    intros I Hk Hl Hd.
    transitivity (sum_n (K := Rops) (node_count s) (fun a => sum_n (K := Rops) d (fun m => sum_n (K := Rops) d (fun j =>
      inv_mat (K := Rops) d M m k * inv_mat (K := Rops) d M j l * (HG s a m * shape_grad (K := Rops) i (nth q (fst quad) []) a j))))).
    - apply Rsum_ext. intros a Ha. rewrite (cell_grads q a l Hl Hd). unfold hg_u. rewrite Rmult_comm, <- Rsum_mul. apply Rsum_ext. intros m Hm. rewrite Rmult_comm, <- Rsum_mul. apply Rsum_ext. intros j Hj. change (car Rops) with R. ring.
    - rewrite Rsum_swap. apply Rsum_ext. intros m Hm. rewrite Rsum_swap. apply Rsum_ext. intros j Hj. rewrite Rsum_mul. f_equal. apply (hg_sumR s i); auto.
      + destruct dim_23; lia.
      + now rewrite <- DIM.
  Qed.
  Lemma hg_strain q k l : In s serendipity_names -> default_rule (basix_ele i) (quadrature_order_default i) = Some quad -> (q < num_quads f)%nat -> (k < d)%nat -> (l < d)%nat -> det_dim (K := Rops) d M <> 0 ->
    sum_n (K := Rops) (node_count s) (fun a => hg_u a k * get_shape_grads pts f c q a l + hg_u a l * get_shape_grads pts f c q a k) = 0.
  Proof.
    intros I D Hq Hk Hl Hd. rewrite (built_quads _ _ _ _ _ _ _ _ _ _ _ BUILT) in Hq. destruct (default_pts s i quad q I INFO D Hq) as [H0 H1].
    rewrite Rsum_plus, (hg_field q k l), (hg_field q l k) by auto. rewrite (Rsum_swap d d (fun m j => inv_mat (K := Rops) d M m l * _ * _)). rewrite <- Rsum_plus.
    transitivity (sum_n (K := Rops) d (fun _ => 0 * 0)); [|rewrite Rsum_mul; apply Rmult_0_l]. apply Rsum_ext. intros m Hm. rewrite <- Rsum_plus.
    transitivity (sum_n (K := Rops) d (fun _ => 0 * 0)); [|rewrite Rsum_mul, !Rmult_0_l; reflexivity]. apply Rsum_ext. intros j Hj.
    assert (Z := hg_sym _ m j H0 H1). revert Z. generalize (hg_grad (K := Rops) (pt (K := Rops) (nth q (fst quad) [])) m j) (hg_grad (K := Rops) (pt (K := Rops) (nth q (fst quad) [])) j m). change (car Rops) with R. intros u w Z.
    replace w with (- u) by lra. match goal with |- ?a = ?b => change (@eq R a b) end. ring.
  Qed.
  Lemma hg_moves : In s serendipity_names -> det_dim (K := Rops) d M <> 0 ->
    sum_n (K := Rops) d (fun k => (hg_u 0 k - hg_u 1 k) * (nth k (nth (nth 0 (nth c (cells f) []) 0%nat) pts []) 0 - nth k (nth (nth 1 (nth c (cells f) []) 0%nat) pts []) 0)) = 4.
  Proof.
    intros I Hd. assert (Hn : (1 < node_count s)%nat) by (clear - I; cbn in I; destruct I as [E|[E|[]]]; rewrite <- E; cbn; lia).
    transitivity (sum_n (K := Rops) d (fun k => sum_n (K := Rops) d (fun m => sum_n (K := Rops) d (fun j => (HG s 0 m - HG s 1 m) * (ref_coord (K := Rops) (/ 2) s 0 j - ref_coord (K := Rops) (/ 2) s 1 j) * (inv_mat (K := Rops) d M m k * M k j))))).
    - apply Rsum_ext. intros k Hk. assert (E0 : forall a, (a < node_count s)%nat -> nth k (nth (nth a (nth c (cells f) []) 0%nat) pts []) 0 = affine (K := Rops) d M b (fun k => ref_coord (K := Rops) (/ 2) s a k) k) by (intros; now apply AFF).
      rewrite (E0 0%nat) by lia. rewrite (E0 1%nat) by lia.
      transitivity (sum_n (K := Rops) d (fun m => (HG s 0 m - HG s 1 m) * inv_mat (K := Rops) d M m k) * sum_n (K := Rops) d (fun j => (ref_coord (K := Rops) (/ 2) s 0 j - ref_coord (K := Rops) (/ 2) s 1 j) * M k j)).
      + f_equal.
        * unfold hg_u. rewrite (Rsum_ext d (fun m => (HG s 0 m - HG s 1 m) * _) (fun m => HG s 0 m * inv_mat (K := Rops) d M m k + (-1) * (HG s 1 m * inv_mat (K := Rops) d M m k))) by (intros; change (car Rops) with R; ring).
          rewrite Rsum_plus, Rsum_mul. change (car Rops) with R. ring.
        * unfold affine. rewrite (Rsum_ext d (fun j => (_ - _) * _) (fun j => M k j * ref_coord (K := Rops) (/ 2) s 0 j + (-1) * (M k j * ref_coord (K := Rops) (/ 2) s 1 j))) by (intros; change (car Rops) with R; ring).
          rewrite Rsum_plus, Rsum_mul. match goal with |- ?a - ?b = _ => change (a - b) with (Rminus a b) end.
          change (@add Rops) with Rplus. change (@mul Rops) with Rmult. change (car Rops) with R. ring.
      + rewrite Rmult_comm, <- Rsum_mul. apply Rsum_ext. intros m Hm. rewrite Rmult_comm, <- Rsum_mul. apply Rsum_ext. intros j Hj. change (car Rops) with R. ring.
    - rewrite Rsum_swap. transitivity (sum_n (K := Rops) d (fun m => (HG s 0 m - HG s 1 m) * (ref_coord (K := Rops) (/ 2) s 0 m - ref_coord (K := Rops) (/ 2) s 1 m))).
      + apply Rsum_ext. intros m Hm. rewrite Rsum_swap. transitivity (sum_n (K := Rops) d (fun j => (if (m =? j)%nat then 1 else 0) * ((HG s 0 m - HG s 1 m) * (ref_coord (K := Rops) (/ 2) s 0 j - ref_coord (K := Rops) (/ 2) s 1 j)))); [|now rewrite Rsum_delta].
        apply Rsum_ext. intros j Hj. rewrite Rsum_mul. rewrite Rmult_comm. f_equal. apply (inv_mat_left Rops_field); try apply dim_23; auto. rewrite (det_dim_ok Rops_ring) by apply dim_23. exact Hd.
      + rewrite DIM. clear - I. cbn in I. destruct I as [E|[E|[]]]; rewrite <- E; unfold HG; cbn; field.
  Qed.
End Cell.

(** ** integrals of monomials over the reference cells *)
Fixpoint beta (e k : nat) : R := match k with O => / INR (S e) | S k' => INR (S k') / INR (e + k' + 2) * beta e k' end.
Lemma INR_pos n : 0 < INR (S n).
Proof. apply lt_0_INR. lia. Qed.
Lemma pow_int e (s : R) : is_RInt (V := R_NormedModule) (fun y => y ^ e) 0 s (s ^ (S e) * / INR (S e)).
Proof.
  assert (P := INR_pos e).
  replace (s ^ S e * / INR (S e)) with (minus (G := R_AbelianGroup) (s ^ S e * / INR (S e)) (0 ^ S e * / INR (S e))) by (unfold minus, plus, Hierarchy.opp; cbn -[INR]; ring).
  apply (is_RInt_derive (V := R_CompleteNormedModule) (fun y => y ^ S e * / INR (S e)) (fun y => y ^ e)).
  - intros x _. auto_derive; [exact I|]. change (pred (S e)) with e. replace (match e with 0%nat => 1 | S _ => INR e + 1 end) with (INR (S e)) by reflexivity. field. lra.
  - intros x _. apply (ex_derive_continuous (fun y : R => y ^ e)). auto_derive. exact I.
Qed.
Lemma rint_scal (f : R -> R) a b k v : is_RInt (V := R_NormedModule) f a b v -> is_RInt (V := R_NormedModule) (fun x => k * f x) a b (k * v).
Proof. intros H. exact (is_RInt_scal f a b k v H). Qed.
Lemma beta_int e k (s : R) : is_RInt (V := R_NormedModule) (fun y => y ^ e * (s - y) ^ k) 0 s (s ^ (e + k + 1) * beta e k).
Proof.
  induction k as [|k IH].
  - replace (s ^ (e + 0 + 1) * beta e 0) with (s ^ S e * / INR (S e)) by (replace (e + 0 + 1)%nat with (S e) by lia; reflexivity).
    apply (rint_ext (fun y => y ^ e)); [intros; cbn [pow]; now rewrite Rmult_1_r|apply pow_int].
  - assert (P := INR_pos (e + k + 1)). replace (S (e + k + 1)) with (e + k + 2)%nat in P by lia.
    assert (D : is_RInt (V := R_NormedModule) (fun y => INR (e + k + 2) * (y ^ e * (s - y) ^ S k) - INR (S k) * s * (y ^ e * (s - y) ^ k)) 0 s 0).
    { replace 0 with (minus (G := R_AbelianGroup) (s ^ S e * (s - s) ^ S k) (0 ^ S e * (s - 0) ^ S k)) at 2 by (unfold minus, plus, Hierarchy.opp; cbn; ring).
      apply (is_RInt_derive (V := R_CompleteNormedModule) (fun y => y ^ S e * (s - y) ^ S k) (fun y => INR (e + k + 2) * (y ^ e * (s - y) ^ S k) - INR (S k) * s * (y ^ e * (s - y) ^ k))).
      - intros x _. auto_derive; [exact I|]. change (pred (S e)) with e. change (pred (S k)) with k.
        replace (match e with 0%nat => 1 | S _ => INR e + 1 end) with (INR (S e)) by reflexivity. replace (match k with 0%nat => 1 | S _ => INR k + 1 end) with (INR (S k)) by reflexivity.
        replace (e + k + 2)%nat with (S e + S k)%nat by lia. rewrite plus_INR. cbn [pow]. change (s + - x) with (s - x). match goal with |- ?a = ?b => change (@eq R a b) end. ring.
      - intros x _. apply (ex_derive_continuous (fun y : R => INR (e + k + 2) * (y ^ e * (s - y) ^ S k) - INR (S k) * s * (y ^ e * (s - y) ^ k))). auto_derive. exact I. }
    assert (A := rint_lin _ _ 0 s (INR (S k) * s) _ _ IH D).
    assert (B := rint_scal _ 0 s (/ INR (e + k + 2)) _ A).
    assert (E : / INR (e + k + 2) * (INR (S k) * s * (s ^ (e + k + 1) * beta e k) + 0) = s ^ (e + S k + 1) * beta e (S k)).
    { replace (e + S k + 1)%nat with (S (e + k + 1)) by lia. cbn [beta pow]. field. lra. }
    rewrite E in B. revert B. apply rint_ext. intros y. cbv beta. field. lra.
Qed.

Lemma cube2 a b : int2 false (mono (a, b, 0%nat)) (/ INR (S a) * / INR (S b)).
Proof.
  exists (fun x => / INR (S b) * x ^ a). split.
  - intros x _. assert (A := rint_scal _ 0 1 (x ^ a) _ (pow_int b 1)). rewrite pow1, Rmult_1_l in A. rewrite Rmult_comm. revert A. apply rint_ext. intros y. unfold mono. cbn [nth pow]. ring.
  - assert (A := rint_scal _ 0 1 (/ INR (S b)) _ (pow_int a 1)). rewrite pow1, Rmult_1_l in A. rewrite Rmult_comm. exact A.
Qed.
Lemma cube3 a b c : int3 false (mono (a, b, c)) (/ INR (S a) * / INR (S b) * / INR (S c)).
Proof.
  exists (fun x => / INR (S b) * / INR (S c) * x ^ a). split.
  - intros x _. exists (fun y => / INR (S c) * x ^ a * y ^ b). split.
    + intros y _. assert (A := rint_scal _ 0 1 (x ^ a * y ^ b) _ (pow_int c 1)). rewrite pow1, Rmult_1_l in A. replace (/ INR (S c) * x ^ a * y ^ b) with (x ^ a * y ^ b * / INR (S c)) by ring.
      revert A. apply rint_ext. intros z. reflexivity.
    + assert (A := rint_scal _ 0 1 (/ INR (S c) * x ^ a) _ (pow_int b 1)). rewrite pow1, Rmult_1_l in A. replace (/ INR (S b) * / INR (S c) * x ^ a) with (/ INR (S c) * x ^ a * / INR (S b)) by ring. exact A.
  - assert (A := rint_scal _ 0 1 (/ INR (S b) * / INR (S c)) _ (pow_int a 1)). rewrite pow1, Rmult_1_l in A. replace (/ INR (S a) * / INR (S b) * / INR (S c)) with (/ INR (S b) * / INR (S c) * / INR (S a)) by ring. exact A.
Qed.
Lemma simplex2 a b : int2 true (mono (a, b, 0%nat)) (/ INR (S b) * beta a (S b)).
Proof.
  exists (fun x => / INR (S b) * (x ^ a * (1 - x) ^ S b)). split.
  - intros x _. assert (A := rint_scal _ 0 (1 - x) (x ^ a) _ (pow_int b (1 - x))). replace (/ INR (S b) * (x ^ a * (1 - x) ^ S b)) with (x ^ a * ((1 - x) ^ S b * / INR (S b))) by ring.
    revert A. apply rint_ext. intros y. unfold mono. cbn [nth pow]. ring.
  - assert (A := rint_scal _ 0 1 (/ INR (S b)) _ (beta_int a (S b) 1)). rewrite pow1, Rmult_1_l in A. exact A.
Qed.
Lemma simplex3 a b c : int3 true (mono (a, b, c)) (/ INR (S c) * beta b (S c) * beta a (b + S c + 1)).
Proof.
  exists (fun x => / INR (S c) * beta b (S c) * (x ^ a * (1 - x) ^ (b + S c + 1))). split.
  - intros x _. exists (fun y => / INR (S c) * x ^ a * (y ^ b * (1 - x - y) ^ S c)). split.
    + intros y _. assert (A := rint_scal _ 0 (1 - x - y) (x ^ a * y ^ b) _ (pow_int c (1 - x - y))).
      replace (/ INR (S c) * x ^ a * (y ^ b * (1 - x - y) ^ S c)) with (x ^ a * y ^ b * ((1 - x - y) ^ S c * / INR (S c))) by ring. revert A. apply rint_ext. intros z. reflexivity.
    + assert (A := rint_scal _ 0 (1 - x) (/ INR (S c) * x ^ a) _ (beta_int b (S c) (1 - x))).
      replace (/ INR (S c) * beta b (S c) * (x ^ a * (1 - x) ^ (b + S c + 1))) with (/ INR (S c) * x ^ a * ((1 - x) ^ (b + S c + 1) * beta b (S c))) by ring. exact A.
  - assert (A := rint_scal _ 0 1 (/ INR (S c) * beta b (S c)) _ (beta_int a (b + S c + 1) 1)). rewrite pow1, Rmult_1_l in A. exact A.
Qed.

(** ** the default rules *)
Lemma le_cases n k : (k <= n)%nat -> In k (seq 0 (S n)).
Proof. intros. apply in_seq. lia. Qed.
Definition mean (e : nat) : R := (nth 0 gauss2 0 ^ e + nth 1 gauss2 0 ^ e) / 2.
Lemma sqrt3_sq : sqrt 3 * sqrt 3 = 3. Proof. apply sqrt_sqrt. lra. Qed.
Lemma sqrt5_sq : sqrt 5 * sqrt 5 = 5. Proof. apply sqrt_sqrt. lra. Qed.
Lemma mean_ok e : (e <= 3)%nat -> mean e = / INR (S e).
Proof.
  intros H. unfold mean, gauss2. cbn [nth]. assert (Q := sqrt3_sq). set (t := sqrt 3) in *.
  apply le_cases in H. cbn [seq In] in H. destruct H as [<-|[<-|[<-|[<-|[]]]]]; cbn [pow INR].
  - field.
  - field.
  - transitivity ((1 / 4 + (t * t) / 36)); [field|rewrite Q; field].
  - transitivity ((1 / 8 + (t * t) / 24)); [field|rewrite Q; field].
Qed.
Lemma default_exact c order quad : default_rule c order = Some quad -> exact_rule c order quad.
Proof.
  intros D. unfold default_rule in D. destruct c; try discriminate.
  - destruct order as [|[|[|?]]]; try discriminate; injection D as <-; (split; [cbn [fst length]; intros q Hq; do 4 (destruct q as [|q]; [try reflexivity; lia|try lia]); lia|]).
    + intros [[a b] e] H. unfold covered in H. cbn [cell_dim is_simplex reach Nat.eqb orb] in H. apply andb_true_iff in H as [H0 H]. apply Nat.eqb_eq in H0. subst e. apply Nat.leb_le in H. change (Nat.max 1 0) with 1%nat in H.
      unfold ref_int. cbn [cell_dim is_simplex].
      assert (E : by_rule ([[1 / 3; 1 / 3]], [1 / 2]) (mono (a, b, 0%nat)) = / INR (S b) * beta a (S b)); [|rewrite E; apply simplex2].
      destruct a as [|[|a]]; [| |lia]; (destruct b as [|[|b]]; [| |lia]); try lia; unfold by_rule, mono; cbn; field.
    + intros [[a b] e] H. unfold covered in H. cbn [cell_dim is_simplex reach Nat.eqb orb] in H. apply andb_true_iff in H as [H0 H]. apply Nat.eqb_eq in H0. subst e. apply Nat.leb_le in H. change (Nat.max 1 2) with 2%nat in H.
      unfold ref_int. cbn [cell_dim is_simplex].
      match goal with |- int2 _ _ ?v => assert (E : v = / INR (S b) * beta a (S b)); [|rewrite E; apply simplex2] end.
      destruct a as [|[|[|a]]]; [| | |lia]; (destruct b as [|[|[|b]]]; [| | |lia]); try lia; unfold by_rule, mono; cbn; field.
  - destruct order as [|[|[|?]]]; try discriminate. injection D as <-. split; [cbn; intros q Hq; do 4 (destruct q as [|q]; [reflexivity|]); lia|].
    intros [[a b] e] H. unfold covered in H. cbn [cell_dim Nat.eqb orb] in H. apply andb_true_iff in H as [H0 H]. apply Nat.eqb_eq in H0. subst e. unfold reach in H. cbn [is_simplex] in H. change (2 * ((2 + 2) / 2) - 1)%nat with 3%nat in H.
    apply andb_true_iff in H as [H _]. apply andb_true_iff in H as [Ha Hb]. apply Nat.leb_le in Ha, Hb.
    unfold ref_int. cbn [cell_dim is_simplex].
    match goal with |- int2 _ _ ?v => assert (E : v = mean a * mean b) end.
    { unfold by_rule, mono, mean. cbn [gauss2 nth]. set (u := 1 / 2 - sqrt 3 / 6). set (w := 1 / 2 + sqrt 3 / 6). cbn [flat_map map app fst snd length sum_n sum_over seq nth repeat]. cbn [pow]. cbn. generalize (u ^ a) (u ^ b) (w ^ a) (w ^ b). intros. field. }
    rewrite E, !mean_ok by assumption. apply cube2.
  - destruct order as [|[|[|?]]]; try discriminate; injection D as <-; (split; [cbn [fst length]; intros q Hq; do 4 (destruct q as [|q]; [try reflexivity; lia|try lia]); lia|]).
    + intros [[a b] e] H. unfold covered in H. cbn [cell_dim is_simplex reach Nat.eqb orb] in H. apply andb_true_iff in H as [_ H]. apply Nat.leb_le in H. change (Nat.max 1 0) with 1%nat in H.
      unfold ref_int. cbn [cell_dim is_simplex].
      match goal with |- int3 _ _ ?v => assert (E : v = / INR (S e) * beta b (S e) * beta a (b + S e + 1)); [|rewrite E; apply simplex3] end.
      destruct a as [|[|a]]; [| |lia]; (destruct b as [|[|b]]; [| |lia]); (destruct e as [|[|e]]; [| |lia]); try lia; unfold by_rule, mono; cbn; field.
    + intros [[a b] e] H. unfold covered in H. cbn [cell_dim is_simplex reach Nat.eqb orb] in H. apply andb_true_iff in H as [_ H]. apply Nat.leb_le in H. change (Nat.max 1 2) with 2%nat in H.
      unfold ref_int. cbn [cell_dim is_simplex].
      match goal with |- int3 _ _ ?v => assert (E : v = / INR (S e) * beta b (S e) * beta a (b + S e + 1)); [|rewrite E; apply simplex3] end.
      assert (Q := sqrt5_sq).
      destruct a as [|[|[|a]]]; [| | |lia]; (destruct b as [|[|[|b]]]; [| | |lia]); (destruct e as [|[|[|e]]]; [| | |lia]); try lia; unfold by_rule, mono; cbn -[sqrt]; unfold tet_a, tet_b; set (t := sqrt 5) in *;
        field_simplify; try (replace (t ^ 2) with 5 by (cbn [pow]; rewrite Rmult_1_r; now symmetry)); field.
  - destruct order as [|[|[|?]]]; try discriminate. injection D as <-. split; [cbn; intros q Hq; do 8 (destruct q as [|q]; [reflexivity|]); lia|].
    intros [[a b] e] H. unfold covered in H. cbn [cell_dim Nat.eqb orb] in H. apply andb_true_iff in H as [_ H]. unfold reach in H. cbn [is_simplex] in H. change (2 * ((2 + 2) / 2) - 1)%nat with 3%nat in H.
    apply andb_true_iff in H as [H He]. apply andb_true_iff in H as [Ha Hb]. apply Nat.leb_le in Ha, Hb, He.
    unfold ref_int. cbn [cell_dim is_simplex].
    match goal with |- int3 _ _ ?v => assert (E : v = mean a * mean b * mean e) end.
    { unfold by_rule, mono, mean. cbn [gauss2 nth]. set (u := 1 / 2 - sqrt 3 / 6). set (w := 1 / 2 + sqrt 3 / 6). cbn. generalize (u ^ a) (u ^ b) (u ^ e) (w ^ a) (w ^ b) (w ^ e). intros. field. }
    rewrite E, !mean_ok by assumption. apply cube3.
Qed.

(** ** the choice of the rule *)
Lemma orders s i : In s nine_names -> get_elements s = Ok i -> quadrature_order_default i = default_order s.
Proof. intros I H. names I; injection H as <-; reflexivity. Qed.
Section Choice.
  Context {K : ops} (Q : Type) (default : Q) (string_to_type : string -> result Q) (make_quadrature : cell_type -> nat -> Q -> result (list (list K) * list K)).
  Lemma normalized rule r : stands_for default string_to_type rule r <-> normalize_quadrature_rule Q default string_to_type rule = Ok r.
  Proof.
    split.
    - intros [|q|t q H]; cbn; auto.
    - destruct rule; cbn; intros H; try discriminate; [injection H as <-; constructor|injection H as <-; constructor|now constructor].
  Qed.
  Lemma choice s i rule order r : In s nine_names -> get_elements s = Ok i -> stands_for default string_to_type rule r ->
    let o := match order with Some o => o | None => default_order s end in
    cell_rule Q default string_to_type make_quadrature s rule order = make_quadrature (basix_ele i) o r /\
    face_rule Q default string_to_type make_quadrature s rule order = make_quadrature (basix_face_ele i) o r.
  Proof.
    intros I H S o. apply normalized in S. unfold cell_rule, face_rule. rewrite H. cbn [bind]. rewrite S. cbn [bind].
    unfold order_or_default, o. now rewrite (orders s i I H).
  Qed.
  Lemma rejected s rule order :
    (forall e, get_elements s = Err e -> cell_rule Q default string_to_type make_quadrature s rule order = Err e) /\
    (forall i, get_elements s = Ok i -> cell_rule Q default string_to_type make_quadrature s RuleOther order = Err TypeErr) /\
    (forall i t e, get_elements s = Ok i -> string_to_type t = Err e -> cell_rule Q default string_to_type make_quadrature s (RuleString t) order = Err e).
  Proof. unfold cell_rule. split; [|split]; intros; rewrite H; cbn; auto. rewrite H0. reflexivity. Qed.
  Lemma finite_inv sqrtK s rule order normals pts cls_ v d dir f :
    In s nine_names -> finite_element Q default string_to_type make_quadrature sqrtK s rule order normals pts cls_ v d dir = Ok f ->
    exists i r quad fquad, get_elements s = Ok i /\ stands_for default string_to_type rule r /\
      make_quadrature (basix_ele i) (match order with Some o => o | None => default_order s end) r = Ok quad /\
      make_quadrature (basix_face_ele i) (match order with Some o => o | None => default_order s end) r = Ok fquad /\
      fe_init sqrtK s quad fquad normals pts cls_ v d dir = Ok f.
  Proof.
    intros I H. destruct (get_elements_ok s I) as [i Hi]. unfold finite_element in H.
    destruct (normalize_quadrature_rule Q default string_to_type rule) as [r|e] eqn:N.
    - apply normalized in N. destruct (choice s i rule order r I Hi N) as [C F]. rewrite C, F in H.
      destruct (make_quadrature (basix_ele i) _ r) as [quad|] eqn:E; [|discriminate]. cbn [bind] in H. destruct (make_quadrature (basix_face_ele i) _ r) as [fquad|] eqn:E'; [|discriminate]. cbn [bind] in H.
      exists i, r, quad, fquad. auto.
    - unfold cell_rule in H. rewrite Hi in H. cbn [bind] in H. rewrite N in H. discriminate.
  Qed.
End Choice.
Lemma not_interval s i : In s nine_names -> get_elements s = Ok i -> basix_ele i <> Interval.
Proof. intros I H. names I; injection H as <-; discriminate. Qed.
Lemma full_degree s i : In s full_names -> get_elements s = Ok i -> In s nine_names /\ (2 * gradient_degree s <= reach (basix_ele i) (default_order s))%nat.
Proof. intros I H. cbn in I. decompose [or] I; subst; try contradiction; injection H as <-; (split; [cbn; tauto|apply Nat.leb_le; vm_compute; reflexivity]). Qed.

(** ** mass matrices with one point *)
Lemma tri_tet s : In s ["TRI3"; "TET4"]%string -> In s nine_names.
Proof. cbn. intuition. Qed.
Definition two (a : nat) : R := match a with 0%nat => 1 | 1%nat => -1 | _ => 0 end.
Lemma two_sum s i x : In s ["TRI3"; "TET4"]%string -> get_elements s = Ok i ->
  sum_n (K := Rops) (node_count s) (fun b => shape_value (K := Rops) i x b * two b) = shape_value (K := Rops) i x 0 - shape_value (K := Rops) i x 1.
Proof. intros I H. cbn in I. destruct I as [<-|[<-|[]]]; cbn [node_count]; unfold sum_n, sum_over, two; cbn [length mesh_nodes2 String.eqb Ascii.eqb Bool.eqb seq fold_right]; cbn [add mul zero one Rops]; cbn -[shape_value]; ring. Qed.
Lemma two_point s i quad q : In s ["TRI3"; "TET4"]%string -> get_elements s = Ok i -> default_rule (basix_ele i) (default_order s) = Some quad -> (q < length (fst quad))%nat ->
  shape_value (K := Rops) i (nth q (fst quad) []) 0 = shape_value (K := Rops) i (nth q (fst quad) []) 1.
Proof.
  intros I H D Hq. cbn in I. destruct I as [<-|[<-|[]]]; injection H as <-; cbn [basix_ele] in D.
  - change (default_order "TRI3") with 0%nat in D. cbn [default_rule] in D. injection D as <-. cbn in Hq. destruct q; [|lia]. cbn. field.
  - change (default_order "TET4") with 0%nat in D. cbn [default_rule] in D. injection D as <-. cbn in Hq. destruct q; [|lia]. cbn. field.
Qed.
Lemma two_span s i : In s ["TRI3"; "TET4"]%string -> get_elements s = Ok i ->
  span (fun e => covered (basix_ele i) 2 e = true) (fun x => (shape_value (K := Rops) i x 0 - shape_value (K := Rops) i x 1) ^ 2).
Proof.
  intros I H. apply (span_ext _ (fun x => (shape_value (K := Rops) i x 0 - shape_value (K := Rops) i x 1) * (shape_value (K := Rops) i x 0 - shape_value (K := Rops) i x 1) * 1)); [intros; cbn [pow]; match goal with |- ?a = ?b => change (@eq R a b) end; ring|].
  assert (S1 : span (fun e => cls (basix_ele i) 1 e = true) (fun x => shape_value (K := Rops) i x 0 - shape_value (K := Rops) i x 1)).
  { assert (V : forall a, (a < 2)%nat -> span (fun e => cls (basix_ele i) 1 e = true) (fun x => shape_value (K := Rops) i x a)).
    { intros a Ha. replace 1%nat with (value_degree s) by (cbn in I; destruct I as [<-|[<-|[]]]; reflexivity). apply value_span; [now apply tri_tet|exact H|]. cbn in I. destruct I as [<-|[<-|[]]]; cbn; lia. }
    apply (span_ext _ (fun x => (-1) * shape_value (K := Rops) i x 1 + shape_value (K := Rops) i x 0)); [intros; match goal with |- ?a = ?b => change (@eq R a b) end; ring|]. apply span_lin; apply V; lia. }
  apply (prod_span i 1 1); auto. cbn in I. destruct I as [<-|[<-|[]]]; injection H as <-; cbn; lia.
Qed.
Lemma two_integral s i : In s ["TRI3"; "TET4"]%string -> get_elements s = Ok i ->
  exists m, 0 < m /\ ref_int (basix_ele i) (fun x => (shape_value (K := Rops) i x 0 - shape_value (K := Rops) i x 1) ^ 2) m.
Proof.
  intros I H. assert (S := two_span s i I H). destruct (default_rule (basix_ele i) 2) as [quad|] eqn:D.
  - exists (by_rule quad (fun x => (shape_value (K := Rops) i x 0 - shape_value (K := Rops) i x 1) ^ 2)). split; [|now apply (rule_span _ 2); [apply default_exact|]].
    cbn in I. destruct I as [<-|[<-|[]]]; injection H as <-; cbn [basix_ele default_rule] in D; injection D as <-.
    + unfold by_rule. cbn. lra.
    + unfold by_rule. cbn. unfold tet_a, tet_b. assert (Q := sqrt5_sq). set (t := sqrt 5) in *.
      match goal with |- _ < ?v => replace v with (/ 60); [lra|] end. field_simplify. replace (t ^ 2) with 5 by (cbn [pow]; rewrite Rmult_1_r; now symmetry). field.
  - exfalso. cbn in I. destruct I as [<-|[<-|[]]]; injection H as <-; discriminate.
Qed.

(** ** one cell *)
Lemma one_cell_ok sqrtK s quad fquad normals M b : In s nine_names -> exists f,
  fe_init (K := Rops) sqrtK s quad fquad normals (one_cell_points s M b) [seq 0 (node_count s)] (element_dim s) (element_dim s) None = Ok f /\
  mesh_ok f /\ points f = one_cell_points s M b /\ cells f = [seq 0 (node_count s)] /\ affine_cell (K := Rops) (/ 2) s (one_cell_points s M b) f (element_dim s) 0 M b.
Proof.
  intros I. assert (X : exists f, fe_init (K := Rops) sqrtK s quad fquad normals (one_cell_points s M b) [seq 0 (node_count s)] (element_dim s) (element_dim s) None = Ok f).
  { generalize (one_cell_points s M b) [seq 0 (node_count s)] (element_dim s). intros. names I; eexists; reflexivity. }
  destruct X as [f B]. exists f.
  assert (P := built_points _ _ _ _ _ _ _ _ _ _ _ B). assert (C := built_cells _ _ _ _ _ _ _ _ _ _ _ B). assert (N := built_nodes _ _ _ _ _ _ _ _ _ _ _ B).
  assert (L : length (one_cell_points s M b) = node_count s) by (unfold one_cell_points; now rewrite map_length, seq_length).
  split; [exact B|]. split; [|split; [exact P|split; [exact C|]]].
  - intros c Hc. rewrite C in *. cbn in Hc. replace c with 0%nat by lia. cbn [nth]. rewrite N, seq_length. split; [reflexivity|]. intros n Hn. apply in_seq in Hn. rewrite P. unfold one_cell_points in *. rewrite map_length, seq_length. lia.
  - intros a k Ha Hk. rewrite C. cbn [nth]. rewrite seq_nth by exact Ha. cbn [plus]. unfold one_cell_points.
    rewrite (nth_map_in _ _ _ 0%nat) by (now rewrite seq_length). rewrite seq_nth by exact Ha. cbn [plus].
    rewrite (nth_map_in _ _ _ 0%nat) by (now rewrite seq_length). now rewrite seq_nth by exact Hk.
Qed.
Lemma massless sqrtK s quad fquad normals pts0 cls_ v dir f i : In s ["TRI3"; "TET4"]%string -> get_elements s = Ok i ->
  default_rule (basix_ele i) (default_order s) = Some quad -> fe_init (K := Rops) sqrtK s quad fquad normals pts0 cls_ v (element_dim s) dir = Ok f ->
  exists U : nat -> R,
    (forall pts c a, sum_n (K := Rops) (num_quads f) (fun q => shape_vals f q a * sum_n (K := Rops) (node_count s) (fun b => shape_vals f q b * U b) * get_JxW pts f c q) = 0) /\
    exists m, 0 < m /\ ref_int (basix_ele i) (fun x => sum_n (K := Rops) (node_count s) (fun b => shape_value (K := Rops) i x b * U b) ^ 2) m.
Proof.
  intros I H D B. exists two. split.
  - intros pts c a. transitivity (sum_n (K := Rops) (num_quads f) (fun _ => 0 * 0)); [|rewrite Rsum_mul; apply Rmult_0_l]. apply Rsum_ext. intros q Hq.
    rewrite (built_quads _ _ _ _ _ _ _ _ _ _ _ B) in Hq.
    rewrite (Rsum_ext _ _ (fun b => shape_value (K := Rops) i (nth q (fst quad) []) b * two b)) by (intros b _; rewrite (cell_vals _ _ _ _ _ _ _ _ _ _ _ _ B H); reflexivity).
    rewrite (two_sum s i _ I H), (two_point s i quad q I H D Hq). match goal with |- ?a = ?b => change (@eq R a b) end. ring.
  - destruct (two_integral s i I H) as (m & P & X). exists m. split; [exact P|]. revert X. apply int_ext. intros x. now rewrite (two_sum s i x I H).
Qed.
Lemma strainless sqrtK s quad fquad normals pts0 cls_ v dir f i pts M b c : In s serendipity_names -> get_elements s = Ok i ->
  default_rule (basix_ele i) (default_order s) = Some quad -> fe_init (K := Rops) sqrtK s quad fquad normals pts0 cls_ v (element_dim s) dir = Ok f ->
  mesh_ok f -> List.length pts = List.length (points f) -> (c < List.length (cells f))%nat ->
  affine_cell (K := Rops) (/ 2) s pts f (element_dim s) c M b -> det_dim (K := Rops) (element_dim s) M <> 0 ->
  exists u : nat -> nat -> R,
    (forall q k l, (q < num_quads f)%nat -> (k < element_dim s)%nat -> (l < element_dim s)%nat ->
       sum_n (K := Rops) (node_count s) (fun a => u a k * get_shape_grads pts f c q a l + u a l * get_shape_grads pts f c q a k) = 0) /\
    exists a a', (a < node_count s)%nat /\ (a' < node_count s)%nat /\
      let x := fun a k => nth k (nth (nth a (nth c (cells f) []) 0%nat) pts []) 0 in
      sum_n (K := Rops) (element_dim s) (fun k => (u a k - u a' k) * (x a k - x a' k)) <> 0.
Proof.
  intros I H D B HM HL Hc HA Hd. assert (I9 := ser_nine s I). exists (hg_u s (element_dim s) M). split.
  - intros q k l Hq Hk Hl. rewrite <- (orders s i I9 H) in D. apply (hg_strain _ _ _ _ _ _ _ _ _ _ _ _ B I9 HM eq_refl H pts HL M b c Hc HA q k l I D Hq Hk Hl Hd).
  - exists 0%nat, 1%nat. split; [|split]; try (cbn in I; destruct I as [<-|[<-|[]]]; cbn; lia). cbv zeta.
    intros Z. assert (X := hg_moves s (element_dim s) f I9 eq_refl pts HL M b c Hc HA I Hd). assert (Y : 4 = 0) by (rewrite <- X; exact Z). lra.
Qed.
Lemma gradients s i M a : In s nine_names -> get_elements s = Ok i -> det_dim (K := Rops) (element_dim s) M <> 0 -> exists g, gradient_on (element_dim s) i M a g.
Proof.
  intros I H Hd. assert (D := dims_23 s I). set (d := element_dim s) in *.
  exists (fun x k => sum_n (K := Rops) d (fun j => shape_grad (K := Rops) i x a j * inv_mat (K := Rops) d M j k)). intros x j Hj.
  transitivity (sum_n (K := Rops) d (fun k => sum_n (K := Rops) d (fun m => shape_grad (K := Rops) i x a m * (inv_mat (K := Rops) d M m k * M k j)))).
  - apply Rsum_ext. intros k Hk. rewrite Rmult_comm, <- Rsum_mul. apply Rsum_ext. intros m Hm. change (car Rops) with R. ring.
  - rewrite Rsum_swap. transitivity (sum_n (K := Rops) d (fun m => (if (j =? m)%nat then 1 else 0) * shape_grad (K := Rops) i x a m)); [|now rewrite Rsum_delta].
    apply Rsum_ext. intros m Hm. rewrite Rsum_mul, Rmult_comm. f_equal. rewrite Nat.eqb_sym. apply (inv_mat_left Rops_field); auto. rewrite (det_dim_ok Rops_ring) by exact D. exact Hd.
Qed.
Lemma quad_example sqrtK normals s M b : In s nine_names -> s <> "HEX27"%string ->
  let make_quadrature := fun c order (_ : unit) => match default_rule c order with Some quad => Ok quad | None => if (cell_dim c =? 1)%nat then Ok ([[1 / 2]], [1]) else Err ValueErr end in
  keeps_promise make_quadrature tt /\
  exists f, finite_element (K := Rops) unit tt (fun _ => Err ValueErr) make_quadrature sqrtK s RuleNone None normals (one_cell_points s M b) [seq 0 (node_count s)] (element_dim s) (element_dim s) None = Ok f /\
    mesh_ok f /\ points f = one_cell_points s M b /\ cells f = [seq 0 (node_count s)] /\ affine_cell (K := Rops) (/ 2) s (one_cell_points s M b) f (element_dim s) 0 M b.
Proof.
  intros I N mq. split.
  - intros c o quad Hc E. unfold mq in E. destruct (default_rule c o) as [q|] eqn:D; [injection E as <-; now apply default_exact|]. destruct c; try discriminate. now destruct Hc.
  - destruct (get_elements_ok s I) as [i Hi]. destruct (choice (K := Rops) unit tt (fun _ => Err ValueErr) mq s i RuleNone None tt I Hi (stands_none _ _)) as [C F].
    assert (X : exists quad fquad, mq (basix_ele i) (default_order s) tt = Ok quad /\ mq (basix_face_ele i) (default_order s) tt = Ok fquad).
    { clear C F. revert Hi. revert N. names I; intros N Hi; try (now destruct N); injection Hi as <-; do 2 eexists; split; reflexivity. }
    destruct X as (quad & fquad & E & E'). unfold finite_element. rewrite C, F, E, E'. cbn [bind]. now apply one_cell_ok.
Qed.
