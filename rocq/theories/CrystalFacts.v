(** Orientations, elastic constants and the quantities of a point, for C91, C92 and C93. *)
From Coq Require Import Reals List Arith Lia Lra Bool FunctionalExtensionality.
From Verif Require Import Num Arr ArrFacts Fe FeFacts SpecFe Problem SpecAssembly SpecWeak SpecEnergy Elastic ElasticFacts Plasticity SpecPlasticity PlasticityFacts
  Lagrangian SpecLagrangian LagrangianFacts LagrangianMain FinPlast SpecFinPlast FinPlastFacts FinPlastMain CrystalPlast SpecCrystal.
Import ListNotations.
Local Open Scope R_scope.

Lemma three_cases (Q : nat -> Prop) : Q 0%nat -> Q 1%nat -> Q 2%nat -> forall i, (i < 3)%nat -> Q i.
Proof. intros H0 H1 H2 [|[|[|i]]] Hi; auto; lia. Qed.

(** ** quaternions *)
Lemma rot_sandwich q v : forall i, (i < 3)%nat -> qmul (qmul q (pure v)) (qconj q) (S i) = at_vec (get_rot_mat q) v i.
Proof. apply three_cases; unfold at_vec, get_rot_mat; rewrite sum3; cbn; req; ring. Qed.
Lemma rot_sandwich0 q v : qmul (qmul q (pure v)) (qconj q) 0%nat = 0.
Proof. cbn. ring. Qed.
Lemma rot_neg q : get_rot_mat (fun k => - q k) == get_rot_mat q.
Proof. intros i j Hi Hj. revert i Hi. apply three_cases; revert j Hj; apply three_cases; cbn; ring. Qed.
Lemma rot_mul p q : get_rot_mat (qmul p q) == get_rot_mat p ** get_rot_mat q.
Proof. intros i j Hi Hj. revert i Hi. apply three_cases; revert j Hj; apply three_cases; unfold mul3; rewrite sum3; cbn; req; ring. Qed.
Lemma rot_orth q : get_rot_mat q ** (get_rot_mat q)^T == (fun i j => qsize2 q ^ 2 * eye3 i j).
Proof. intros i j Hi Hj. revert i Hi. apply three_cases; revert j Hj; apply three_cases; unfold mul3, trans3, qsize2; rewrite sum3; cbn; req; ring. Qed.
Lemma rot_det q : vol (get_rot_mat q) = qsize2 q ^ 3.
Proof. rewrite vol_formula. unfold qsize2. cbn. ring. Qed.
Lemma rot_unit q : qsize2 q = 1 -> rotation (get_rot_mat q).
Proof.
  intros H. split; [change (vol (get_rot_mat q) = 1); rewrite rot_det, H; ring|]. intros i j Hi Hj.
  transitivity ((get_rot_mat q ** (get_rot_mat q)^T) i j); [reflexivity|]. rewrite (rot_orth q i j Hi Hj), H. unfold eye3. destruct (i =? j)%nat; req; ring.
Qed.

(** ** rotated tensors *)
Lemma rot2_conj M T : rotate_tensor_rank_2 M T == conj3 M T.
Proof. intros i j _ _. unfold rotate_tensor_rank_2, conj3. rewrite !sum3. req; ring. Qed.
Lemma rot4_nest M T i j k l : rotate_tensor_rank_4 M T i j k l = conj3 M (fun a b => conj3 M (fun c d => T a b c d) k l) i j.
Proof.
  unfold rotate_tensor_rank_4, conj3. apply sum_n_ext. intros a _. apply sum_n_ext. intros b _. rewrite !sum3. req; ring.
Qed.
Lemma conj_linear M (X : nat -> nat -> nat -> nat -> R) (E : tensor) i j :
  sum_n (K := Rops) 3 (fun k => sum_n (K := Rops) 3 (fun l => conj3 M (fun a b => X a b k l) i j * E k l))
  = conj3 M (fun a b => sum_n (K := Rops) 3 (fun k => sum_n (K := Rops) 3 (fun l => X a b k l * E k l))) i j.
Proof. unfold conj3. rewrite !sum3. req; ring. Qed.
Lemma conj_adjoint M Y E : sum_n (K := Rops) 3 (fun k => sum_n (K := Rops) 3 (fun l => conj3 M Y k l * E k l))
  = sum_n (K := Rops) 3 (fun c => sum_n (K := Rops) 3 (fun d => Y c d * conj3 (transp M) E c d)).
Proof. unfold conj3, transp. rewrite !sum3. req; ring. Qed.
Lemma conj_ext_r M B B' : (forall a b, (a < 3)%nat -> (b < 3)%nat -> B a b = B' a b) -> forall i j, conj3 M B i j = conj3 M B' i j.
Proof.
  intros H i j. unfold conj3. apply sum_n_ext. intros k Hk. apply sum_n_ext. intros l Hl. now rewrite (H k l Hk Hl).
Qed.
Lemma rot4_contract M C E i j : contract (rotate_tensor_rank_4 M C) E i j = conj3 M (contract C (conj3 (transp M) E)) i j.
Proof.
  unfold contract at 1. transitivity (sum_n (K := Rops) 3 (fun k => sum_n (K := Rops) 3 (fun l => conj3 M (fun a b => conj3 M (fun c d => C a b c d) k l) i j * E k l))).
  - apply sum_n_ext. intros k _. apply sum_n_ext. intros l _. now rewrite rot4_nest.
  - rewrite (conj_linear M (fun a b k l => conj3 M (fun c d => C a b c d) k l) E i j). apply conj_ext_r. intros a b _ _. apply conj_adjoint.
Qed.
Lemma conj_as_sum A X k l : conj3 A X k l = sum_n (K := Rops) 3 (fun c => sum_n (K := Rops) 3 (fun d => X c d * (A k c * A l d))).
Proof. unfold conj3. rewrite !sum3. req; ring. Qed.
Lemma conj_commute A B (Z : nat -> nat -> nat -> nat -> R) a b k l :
  conj3 A (fun c d => conj3 B (fun e f => Z e f c d) a b) k l = conj3 B (fun e f => conj3 A (fun c d => Z e f c d) k l) a b.
Proof.
  rewrite conj_as_sum. rewrite (conj_linear B Z (fun c d => A k c * A l d) a b). apply conj_ext_r. intros e f _ _. symmetry. apply conj_as_sum.
Qed.
Lemma conj_conj_at A B C i j : conj3 A (conj3 B C) i j = conj3 (A ** B) C i j.
Proof. unfold conj3, mul3. rewrite !sum3. req; ring. Qed.
Lemma rot4_compose A B T i j k l : rotate_tensor_rank_4 A (rotate_tensor_rank_4 B T) i j k l = rotate_tensor_rank_4 (A ** B) T i j k l.
Proof.
  rewrite !rot4_nest.
  assert (SW : forall a b, conj3 A (fun c d => rotate_tensor_rank_4 B T a b c d) k l = conj3 B (fun e f => conj3 (A ** B) (fun g h => T e f g h) k l) a b).
  { intros a b. transitivity (conj3 A (fun c d => conj3 B (fun e f => conj3 B (fun g h => T e f g h) c d) a b) k l).
    - apply conj_ext_r. intros c d _ _. apply rot4_nest.
    - transitivity (conj3 B (fun e f => conj3 A (fun c d => conj3 B (fun g h => T e f g h) c d) k l) a b).
      + exact (conj_commute A B (fun e f c d => conj3 B (fun g h => T e f g h) c d) a b k l).
      + apply conj_ext_r. intros e f _ _. apply conj_conj_at. }
  transitivity (conj3 A (fun a b => conj3 B (fun e f => conj3 (A ** B) (fun g h => T e f g h) k l) a b) i j); [apply conj_ext_r; intros; apply SW|].
  apply conj_conj_at.
Qed.
Lemma conj_swap M T i j : conj3 M T j i = conj3 M (fun a b => T b a) i j.
Proof. unfold conj3. rewrite !sum3. req; ring. Qed.
Lemma rot4_minor1 M T : (forall a b c d, (a < 3)%nat -> (b < 3)%nat -> T a b c d = T b a c d) -> forall i j k l, rotate_tensor_rank_4 M T i j k l = rotate_tensor_rank_4 M T j i k l.
Proof.
  intros H i j k l. rewrite !rot4_nest, conj_swap. apply conj_ext_r. intros a b Ha Hb. apply conj_ext_r. intros c d _ _. now apply H.
Qed.
Lemma rot4_minor2 M T : (forall a b c d, (c < 3)%nat -> (d < 3)%nat -> T a b c d = T a b d c) -> forall i j k l, rotate_tensor_rank_4 M T i j k l = rotate_tensor_rank_4 M T i j l k.
Proof.
  intros H i j k l. rewrite !rot4_nest. apply conj_ext_r. intros a b _ _. rewrite conj_swap. apply conj_ext_r. intros c d Hc Hd. now apply H.
Qed.
Lemma rot4_major M T : (forall a b c d, (a < 3)%nat -> (b < 3)%nat -> (c < 3)%nat -> (d < 3)%nat -> T a b c d = T c d a b) ->
  forall i j k l, rotate_tensor_rank_4 M T i j k l = rotate_tensor_rank_4 M T k l i j.
Proof.
  intros H i j k l. rewrite !rot4_nest.
  transitivity (conj3 M (fun a b => conj3 M (fun c d => T c d a b) k l) i j).
  - apply conj_ext_r. intros a b Ha Hb. apply conj_ext_r. intros c d Hc Hd. now apply H.
  - exact (eq_sym (eq_sym (conj_commute M M (fun c d a b => T c d a b) k l i j))).
Qed.

(** ** elastic constants *)
Lemma stiffness_entries a b c d : (a < 3)%nat -> (b < 3)%nat -> (c < 3)%nat -> (d < 3)%nat ->
  stiffness a b c d = if (a =? b)%nat then (if (c =? d)%nat then (if (a =? c)%nat then cub_C11 else cub_C12) else 0)
                      else if ((a =? c) && (b =? d) || (a =? d) && (b =? c))%nat then cub_C44 else 0.
Proof.
  intros Ha Hb Hc Hd. revert a Ha. apply three_cases; revert b Hb; apply three_cases; revert c Hc; apply three_cases; revert d Hd; apply three_cases; reflexivity.
Qed.
Lemma stiffness_law E : contract stiffness E == cubic_law E.
Proof.
  intros i j Hi Hj. unfold contract. rewrite !sum3. rewrite !stiffness_entries by (assumption || lia). unfold cubic_law, trace, cub_C11, cub_C12, cub_C44. rewrite sum3.
  revert i Hi. apply three_cases; revert j Hj; apply three_cases; cbn [Nat.eqb andb orb]; req; ring.
Qed.
Lemma stiffness_major a b c d : (a < 3)%nat -> (b < 3)%nat -> (c < 3)%nat -> (d < 3)%nat -> stiffness a b c d = stiffness c d a b.
Proof.
  intros Ha Hb Hc Hd. rewrite !stiffness_entries by assumption. revert a Ha. apply three_cases; revert b Hb; apply three_cases; revert c Hc; apply three_cases; revert d Hd; apply three_cases; reflexivity.
Qed.
Lemma turned_code M E : contract (rotate_tensor_rank_4 M stiffness) E == turned_law M E.
Proof.
  intros i j _ _. rewrite rot4_contract. unfold turned_law. apply conj_ext_r. intros a b Ha Hb. now apply stiffness_law.
Qed.
Lemma cubic_symmetric E : symmetric 3 (cubic_law E).
Proof. intros i j _ _. unfold cubic_law. rewrite (Nat.eqb_sym j i). destruct (i =? j)%nat eqn:Q; [apply Nat.eqb_eq in Q; now subst|req; ring]. Qed.
Lemma turned_symmetric M E : symmetric 3 (turned_law M E).
Proof. apply conj_symmetric, cubic_symmetric. Qed.
Lemma ddot_conj_adjoint M A E : ddot 3 (conj3 M A) E = ddot 3 A (conj3 (transp M) E).
Proof. unfold ddot. exact (conj_adjoint M A E). Qed.
Lemma cubic_energy E : symmetric 3 E -> ddot 3 (cubic_law E) E =
  (168400 - 121400) * (E 0%nat 0%nat ^ 2 + E 1%nat 1%nat ^ 2 + E 2%nat 2%nat ^ 2) + 121400 * trace 3 E ^ 2
  + 4 * 75400 * (E 0%nat 1%nat ^ 2 + E 0%nat 2%nat ^ 2 + E 1%nat 2%nat ^ 2).
Proof.
  intros S. unfold ddot, cubic_law, trace. rewrite !sum3. cbn [Nat.eqb]. rewrite (S 1%nat 0%nat), (S 2%nat 0%nat), (S 2%nat 1%nat) by lia. req; ring.
Qed.
Lemma cubic_pos E : symmetric 3 E -> 75400 / 2 * ddot 3 E E <= ddot 3 (cubic_law E) E.
Proof.
  intros S. rewrite (cubic_energy E S). unfold ddot. rewrite !sum3. rewrite (S 1%nat 0%nat), (S 2%nat 0%nat), (S 2%nat 1%nat) by lia.
  set (t := trace 3 E). pose proof (pow2_ge_0 t).
  pose proof (pow2_ge_0 (E 0%nat 0%nat)). pose proof (pow2_ge_0 (E 1%nat 1%nat)). pose proof (pow2_ge_0 (E 2%nat 2%nat)).
  pose proof (pow2_ge_0 (E 0%nat 1%nat)). pose proof (pow2_ge_0 (E 0%nat 2%nat)). pose proof (pow2_ge_0 (E 1%nat 2%nat)).
  match goal with |- 75400 / 2 * ?x <= _ => replace x with (E 0%nat 0%nat ^ 2 + E 1%nat 1%nat ^ 2 + E 2%nat 2%nat ^ 2 + 2 * (E 0%nat 1%nat ^ 2 + E 0%nat 2%nat ^ 2 + E 1%nat 2%nat ^ 2)) by (req; ring) end.
  lra.
Qed.
Lemma transp_rot M : rotation M -> rotation (transp M).
Proof.
  intros H. split; [change (vol M^T = 1); rewrite vol_t; exact (rot_vol M H)|]. intros i j Hi Hj. exact (rot_l M H i j Hi Hj).
Qed.
Lemma ddot_rot M A : rotation M -> ddot 3 (conj3 M A) (conj3 M A) = ddot 3 A A.
Proof. exact (ddot_conj M A). Qed.
Lemma turned_pos M E : rotation M -> symmetric 3 E -> 75400 / 2 * ddot 3 E E <= ddot 3 (turned_law M E) E.
Proof.
  intros H S. unfold turned_law. rewrite ddot_conj_adjoint. rewrite <- (ddot_rot (transp M) E (transp_rot M H)). apply cubic_pos, conj_symmetric, S.
Qed.
Lemma axis_sum (p : nat) (s : R) (g : nat -> R) : (p < 3)%nat -> sum_n (K := Rops) 3 (fun a => (if (a =? p)%nat then s else 0) * g a) = s * g p.
Proof. revert p. apply three_cases; rewrite sum3; cbn [Nat.eqb]; req; ring. Qed.
Lemma axis_rot4 M (T : tensor4) p s : (forall i, (i < 3)%nat -> (p i < 3)%nat) -> (forall i j, (i < 3)%nat -> (j < 3)%nat -> M i j = if (j =? p i)%nat then s i else 0) ->
  forall i j k l, (i < 3)%nat -> (j < 3)%nat -> (k < 3)%nat -> (l < 3)%nat -> rotate_tensor_rank_4 M T i j k l = s i * s j * s k * s l * T (p i) (p j) (p k) (p l).
Proof.
  intros HP HM.
  assert (HC : forall (X : tensor) i j, (i < 3)%nat -> (j < 3)%nat -> conj3 M X i j = s i * (s j * X (p i) (p j))).
  { intros X i j Hi Hj. unfold conj3. rewrite <- (axis_sum (p i) (s i) (fun a => s j * X a (p j))) by auto. apply sum_n_ext. intros a Ha.
    rewrite <- (HM i a Hi Ha). rewrite <- (axis_sum (p j) (s j) (fun b => X a b)) by auto.
    transitivity (sum_n (K := Rops) 3 (fun b => M i a * (M j b * X a b))); [apply sum_n_ext; intros b _; req; ring|].
    transitivity (M i a * sum_n (K := Rops) 3 (fun b => M j b * X a b)); [rewrite !sum3; req; ring|]. f_equal. apply sum_n_ext. intros b Hb. now rewrite (HM j b Hj Hb). }
  intros i j k l Hi Hj Hk Hl. rewrite rot4_nest. rewrite HC by assumption. rewrite HC by assumption. ring.
Qed.
Lemma axis_stiffness M : axis_symmetry M -> forall i j k l, (i < 3)%nat -> (j < 3)%nat -> (k < 3)%nat -> (l < 3)%nat -> rotate_tensor_rank_4 M stiffness i j k l = stiffness i j k l.
Proof.
  intros (p & s & H1 & H2 & H3) i j k l Hi Hj Hk Hl. rewrite (axis_rot4 M stiffness p s (fun i Hi => proj1 (H1 i Hi)) H3 i j k l Hi Hj Hk Hl).
  rewrite !stiffness_entries by (try assumption; apply H1; assumption).
  assert (Q : forall a b, (a < 3)%nat -> (b < 3)%nat -> (p a =? p b)%nat = (a =? b)%nat).
  { intros a b Ha Hb. destruct (a =? b)%nat eqn:E; [apply Nat.eqb_eq in E; subst; apply Nat.eqb_refl|]. apply Nat.eqb_neq in E. apply Nat.eqb_neq. intros C. apply E. now apply H2. }
  rewrite !Q by assumption. assert (SS : forall a, (a < 3)%nat -> s a * s a = 1) by (intros a Ha; destruct (proj2 (H1 a Ha)) as [-> | ->]; ring).
  pose proof (SS i Hi) as Si. pose proof (SS j Hj) as Sj. pose proof (SS k Hk) as Sk.
  destruct (i =? j)%nat eqn:E1.
  - apply Nat.eqb_eq in E1. subst j. destruct (k =? l)%nat eqn:E2; [|ring]. apply Nat.eqb_eq in E2. subst l.
    replace (s i * s i * s k * s k) with ((s i * s i) * (s k * s k)) by ring. rewrite Si, Sk. ring.
  - destruct ((i =? k) && (j =? l))%nat eqn:E2.
    + apply andb_true_iff in E2 as [E2 E3]. apply Nat.eqb_eq in E2, E3. subst k l. cbn [orb]. replace (s i * s j * s i * s j) with ((s i * s i) * (s j * s j)) by ring. rewrite Si, Sj. ring.
    + cbn [orb]. destruct ((i =? l) && (j =? k))%nat eqn:E3; [|ring]. apply andb_true_iff in E3 as [E3 E4]. apply Nat.eqb_eq in E3, E4. subst k l.
      replace (s i * s j * s j * s i) with ((s i * s i) * (s j * s j)) by ring. rewrite Si, Sj. ring.
Qed.
