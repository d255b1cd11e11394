(** More on functions of symmetric matrices, for C84 and C85. *)
From Coq Require Import Reals List Arith Lia Lra Bool.
From Verif Require Import Num Arr Fe Problem ProblemFacts SpecAssembly SpecWeak SpecEnergy EnergyFacts DerivFacts Elastic ElasticFacts LinAlg Plasticity SpecPlasticity PlasticityFacts Eigen SpecEigen EigenFacts EigenMain.
Import ListNotations.
Local Open Scope R_scope.
Local Notation sum n g := (sum_n (K := Rops) n g).
Local Ltac rr := cbv beta; req; try change (car Rops) with R; ring.

(** ** The value does not depend on the decomposition *)
Lemma same_value d x w Q m U (f : R -> R) : decomposes d x w Q -> decomposes d x m U -> forall i j, (i < d)%nat -> (j < d)%nat ->
  spec d Q (fun b => f (w b)) i j = spec d U (fun b => f (m b)) i j.
Proof.
  intros D1 D2 i j Hi Hj. destruct (hermite f f (map w (seq 0 d) ++ map m (seq 0 d))) as (p & HP).
  assert (H1 : forall b, (b < d)%nat -> f (w b) = pval p (w b)).
  { intros b Hb. symmetry. apply HP. apply in_or_app. left. apply in_map, in_seq. lia. }
  assert (H2 : forall b, (b < d)%nat -> f (m b) = pval p (m b)).
  { intros b Hb. symmetry. apply HP. apply in_or_app. right. apply in_map, in_seq. lia. }
  rewrite (spec_ext d Q _ _ i j H1), (spec_ext d U _ _ i j H2), (spec_poly d x w Q p D1 i j Hi Hj), (spec_poly d x m U p D2 i j Hi Hj). reflexivity.
Qed.

(** ** Turning the axes *)
Lemma turned_in d T x i j : turned d T x i j = sum d (fun k => sum d (fun l => T i k * (x k l * T j l))).
Proof. unfold turned, mmul, mtrans. apply Rsum_ext. intros k Hk. now rewrite Rsum_mul. Qed.
Lemma turned_spec d T Q f i j : turned d T (spec d Q f) i j = spec d (mmul d T Q) f i j.
Proof.
  rewrite turned_in. unfold spec, proj, mmul.
  transitivity (sum d (fun k => sum d (fun l => sum d (fun b => T i k * Q k b * (T j l * Q l b) * f b)))).
  { apply Rsum_ext. intros k Hk. apply Rsum_ext. intros l Hl. rewrite <- Rsum_mulr, <- Rsum_mul. apply Rsum_ext. intros b Hb. rr. }
  transitivity (sum d (fun k => sum d (fun b => sum d (fun l => T i k * Q k b * (T j l * Q l b) * f b)))); [apply Rsum_ext; intros k Hk; apply Rsum_swap|].
  rewrite Rsum_swap. apply Rsum_ext. intros b Hb. rewrite <- !Rsum_mulr. apply Rsum_ext. intros k Hk. rewrite <- Rsum_mul, <- Rsum_mulr. apply Rsum_ext. intros l Hl. rr.
Qed.
Lemma mmul_assoc d A B C i j : mmul d (mmul d A B) C i j = mmul d A (mmul d B C) i j.
Proof.
  unfold mmul. transitivity (sum d (fun k => sum d (fun l => A i l * B l k * C k j))); [apply Rsum_ext; intros k Hk; now rewrite Rsum_mulr|].
  rewrite Rsum_swap. apply Rsum_ext. intros l Hl. rewrite <- Rsum_mul. apply Rsum_ext. intros k Hk. rr.
Qed.
Lemma mtrans_mul d A B i j : mtrans (mmul d A B) i j = mmul d (mtrans B) (mtrans A) i j.
Proof. unfold mtrans, mmul. apply Rsum_ext. intros k Hk. apply Rmult_comm. Qed.
Lemma mul_eye_l d A i j : (i < d)%nat -> mmul d eye A i j = A i j.
Proof. intros Hi. exact (Rsum_delta d i (fun k => A k j) Hi). Qed.
Lemma mul_eye_r d A i j : (j < d)%nat -> mmul d A eye i j = A i j.
Proof. intros Hj. exact (Rsum_delta2 d j (fun k => A i k) Hj). Qed.
Lemma orthonormal_mul d A B : orthonormal d A -> orthonormal d B -> orthonormal d (mmul d A B).
Proof.
  intros (A1 & A2) (B1 & B2). split; intros i j Hi Hj.
  - transitivity (mmul d (mmul d (mtrans B) (mtrans A)) (mmul d A B) i j); [apply mmul_ext; intros k Hk; [apply mtrans_mul|reflexivity]|].
    rewrite mmul_assoc. rewrite <- (B1 i j Hi Hj). apply mmul_ext; intros k Hk; [reflexivity|]. rewrite <- mmul_assoc.
    rewrite <- (mul_eye_l d B k j Hk). apply mmul_ext; intros l Hl; [exact (A1 k l Hk Hl)|reflexivity].
  - transitivity (mmul d (mmul d A B) (mmul d (mtrans B) (mtrans A)) i j); [apply mmul_ext; intros k Hk; [reflexivity|apply mtrans_mul]|].
    rewrite mmul_assoc. rewrite <- (A2 i j Hi Hj). apply mmul_ext; intros k Hk; [reflexivity|]. rewrite <- mmul_assoc.
    rewrite <- (mul_eye_l d (mtrans A) k j Hk). apply mmul_ext; intros l Hl; [exact (B2 k l Hk Hl)|reflexivity].
Qed.
Lemma turned_strain d T x i j : strain (turned d T x) i j = turned d T (strain x) i j.
Proof.
  transitivity (/ 2 * (turned d T x i j + turned d T x j i)); [reflexivity|]. rewrite !turned_in.
  rewrite (Rsum_swap d d (fun k l => T j k * (x k l * T i l))). rewrite <- Rsum_plus, <- Rsum_mul. apply Rsum_ext. intros k Hk. rewrite <- Rsum_plus, <- Rsum_mul. apply Rsum_ext. intros l Hl. unfold strain. rr.
Qed.
Lemma turned_dec d T x w Q : orthonormal d T -> decomposes d x w Q -> decomposes d (turned d T x) w (mmul d T Q).
Proof.
  intros HT D. split; [apply orthonormal_mul; [exact HT|exact (proj1 D)]|]. intros i j Hi Hj. rewrite turned_strain.
  transitivity (spec d (mmul d T Q) w i j); [apply Rsum_ext; intros b Hb; apply Rmult_comm|]. rewrite <- turned_spec, !turned_in. apply Rsum_ext. intros k Hk. apply Rsum_ext. intros l Hl.
  now rewrite (spec_w d x w Q D k l Hk Hl).
Qed.
Lemma isotropic d eigh f T x i j : eigh_ok d eigh -> orthonormal d T -> (i < d)%nat -> (j < d)%nat ->
  eigen_f eigh d f (turned d T x) i j = turned d T (eigen_f eigh d f x) i j.
Proof.
  intros EO HT Hi Hj. change (eigen_f eigh d f x) with (spec d (snd (eigh x)) (fun b => f (fst (eigh x) b))). rewrite turned_spec.
  exact (same_value d (turned d T x) _ _ _ _ f (EO _) (turned_dec d T x _ _ HT (EO x)) i j Hi Hj).
Qed.

(** ** Products of two functions of two matrices *)
Section Two.
  Variables (d : nat) (x y : tensor) (w m : nat -> R) (Q U : tensor).
  Hypothesis DX : decomposes d x w Q.
  Hypothesis DY : decomposes d y m U.
  Definition overlap (a b : nat) : R := sum d (fun i => Q i a * U i b).
  Lemma ov_rows b : (b < d)%nat -> sum d (fun a => overlap a b * overlap a b) = 1.
  Proof. exact (co_unit d x y w m Q U DX DY b). Qed.
End Two.
Lemma ov_cols d x y w m Q U : decomposes d x w Q -> decomposes d y m U -> forall a, (a < d)%nat -> sum d (fun b => overlap d Q U a b * overlap d Q U a b) = 1.
Proof.
  intros DX DY a Ha. rewrite <- (ov_rows d y x m w U Q DY DX a Ha). apply Rsum_ext. intros b Hb.
  assert (E : overlap d Q U a b = overlap d U Q b a) by (apply Rsum_ext; intros; apply Rmult_comm). now rewrite E.
Qed.
Lemma ddot_two d Q U f g : ddot d (spec d Q f) (spec d U g) = sum d (fun a => sum d (fun b => f a * g b * (overlap d Q U a b * overlap d Q U a b))).
Proof.
  unfold ddot. transitivity (sum d (fun i => sum d (fun j => sum d (fun a => sum d (fun b => f a * g b * ((Q i a * U i b) * (Q j a * U j b))))))).
  { apply Rsum_ext. intros i Hi. apply Rsum_ext. intros j Hj. unfold spec. rewrite <- Rsum_mulr. apply Rsum_ext. intros a Ha. rewrite <- Rsum_mul. apply Rsum_ext. intros b Hb. unfold proj. rr. }
  transitivity (sum d (fun i => sum d (fun a => sum d (fun b => sum d (fun j => f a * g b * ((Q i a * U i b) * (Q j a * U j b))))))).
  { apply Rsum_ext. intros i Hi. rewrite Rsum_swap. apply Rsum_ext. intros a Ha. apply Rsum_swap. }
  rewrite Rsum_swap. apply Rsum_ext. intros a Ha. rewrite Rsum_swap. apply Rsum_ext. intros b Hb. unfold overlap.
  rewrite <- Rsum_mulr, <- Rsum_mul. apply Rsum_ext. intros i Hi. rewrite <- !Rsum_mul. apply Rsum_ext. intros j Hj. rr.
Qed.
Lemma ddot_same d x w Q f g : decomposes d x w Q -> ddot d (spec d Q f) (spec d Q g) = sum d (fun a => f a * g a).
Proof.
  intros D. rewrite ddot_two. apply Rsum_ext. intros a Ha.
  transitivity (sum d (fun b => (f a * g b) * (if (b =? a)%nat then 1 else 0))).
  - apply Rsum_ext. intros b Hb. unfold overlap. rewrite (q_cols d x w Q D a b Ha Hb). unfold eye. rewrite (Nat.eqb_sym b a). destruct (a =? b)%nat; rr.
  - exact (Rsum_delta2 d a (fun b => f a * g b) Ha).
Qed.
Lemma ddot_plus d A B C : ddot d (fun i j => A i j + B i j) C = ddot d A C + ddot d B C.
Proof. unfold ddot. rewrite <- Rsum_plus. apply Rsum_ext. intros i Hi. rewrite <- Rsum_plus. apply Rsum_ext. intros j Hj. rr. Qed.
Lemma ddot_minus d A B C : ddot d (fun i j => A i j - B i j) C = ddot d A C - ddot d B C.
Proof. unfold ddot. rewrite <- Rsum_minus. apply Rsum_ext. intros i Hi. rewrite <- Rsum_minus. apply Rsum_ext. intros j Hj. rr. Qed.
Lemma ddot_scale d c A C : ddot d (fun i j => c * A i j) C = c * ddot d A C.
Proof. unfold ddot. rewrite <- Rsum_mul. apply Rsum_ext. intros i Hi. rewrite <- Rsum_mul. apply Rsum_ext. intros j Hj. rr. Qed.
Lemma ddot_comm d A B : ddot d A B = ddot d B A.
Proof. apply Rsum_ext. intros i Hi. apply Rsum_ext. intros j Hj. apply Rmult_comm. Qed.
Lemma ddot_cong d A A' B B' : same_on d A A' -> same_on d B B' -> ddot d A B = ddot d A' B'.
Proof. intros H1 H2. apply Rsum_ext. intros i Hi. apply Rsum_ext. intros j Hj. now rewrite H1, H2. Qed.
Lemma ddot_nn d A : 0 <= ddot d A A.
Proof. apply Rsum_nonneg. intros i Hi. apply Rsum_nonneg. intros j Hj. apply Rle_0_sqr. Qed.
Lemma ddot_strain d A B : symmetric d A -> ddot d A (strain B) = ddot d A B.
Proof.
  intros HA. unfold ddot. transitivity (/ 2 * (ddot d A B + ddot d A (mtrans B))).
  - unfold ddot. rewrite <- Rsum_plus, <- Rsum_mul. apply Rsum_ext. intros i Hi. rewrite <- Rsum_plus, <- Rsum_mul. apply Rsum_ext. intros j Hj. unfold strain, mtrans. rr.
  - assert (E : ddot d A (mtrans B) = ddot d A B).
    { unfold ddot. rewrite Rsum_swap. apply Rsum_ext. intros i Hi. apply Rsum_ext. intros j Hj. unfold mtrans. now rewrite (HA j i Hj Hi). }
    rewrite E. unfold ddot. req. field.
Qed.
Lemma ddot_diff d x y w m Q U f1 f2 g1 g2 : decomposes d x w Q -> decomposes d y m U ->
  ddot d (fun i j => spec d Q f1 i j - spec d U f2 i j) (fun i j => spec d Q g1 i j - spec d U g2 i j) =
  sum d (fun a => sum d (fun b => (f1 a - f2 b) * (g1 a - g2 b) * (overlap d Q U a b * overlap d Q U a b))).
Proof.
  intros DX DY. rewrite ddot_minus. rewrite (ddot_comm d (spec d Q f1)), (ddot_comm d (spec d U f2)), !ddot_minus.
  rewrite (ddot_same d x w Q g1 f1 DX), (ddot_same d y m U g2 f2 DY).
  rewrite (ddot_comm d (spec d U g2)), !ddot_two.
  assert (E1 : sum d (fun a => g1 a * f1 a) = sum d (fun a => sum d (fun b => (f1 a * g1 a) * (overlap d Q U a b * overlap d Q U a b)))).
  { apply Rsum_ext. intros a Ha. rewrite Rsum_mul, (ov_cols d x y w m Q U DX DY a Ha). rr. }
  assert (E2 : sum d (fun a => g2 a * f2 a) = sum d (fun a => sum d (fun b => (f2 b * g2 b) * (overlap d Q U a b * overlap d Q U a b)))).
  { rewrite Rsum_swap. apply Rsum_ext. intros b Hb. rewrite Rsum_mul, (ov_rows d x y w m Q U DX DY b Hb). rr. }
  rewrite E1, E2. match goal with |- (?a - ?b) - (?c - ?e) = _ => replace ((a - b) - (c - e)) with ((a - b) + (e - c)) by ring end.
  rewrite <- !Rsum_minus, <- Rsum_plus. apply Rsum_ext. intros a Ha. rewrite <- !Rsum_minus, <- Rsum_plus. apply Rsum_ext. intros b Hb. rr.
Qed.
Section Values.
  Variables (d : nat) (eigh : tensor -> (nat -> R) * tensor) (EO : eigh_ok d eigh).
  Let F f x := eigen_f eigh d f x.
  Lemma F_spec f x : F f x = spec d (snd (eigh x)) (fun b => f (fst (eigh x) b)).
  Proof. reflexivity. Qed.
  Lemma diff_form f g x y :
    ddot d (fun i j => F f x i j - F f y i j) (fun i j => F g x i j - F g y i j) =
    sum d (fun a => sum d (fun b => (f (fst (eigh x) a) - f (fst (eigh y) b)) * (g (fst (eigh x) a) - g (fst (eigh y) b)) * (overlap d (snd (eigh x)) (snd (eigh y)) a b * overlap d (snd (eigh x)) (snd (eigh y)) a b))).
  Proof. exact (ddot_diff d x y _ _ _ _ _ _ _ _ (EO x) (EO y)). Qed.
  Lemma id_value x : same_on d (F (fun s => s) x) (strain x).
  Proof. intros i j Hi Hj. exact (spec_w d x _ _ (EO x) i j Hi Hj). Qed.
  Lemma id_diff x y : same_on d (fun i j => F (fun s => s) x i j - F (fun s => s) y i j) (fun i j => strain x i j - strain y i j).
  Proof. intros i j Hi Hj. now rewrite !(id_value _ i j Hi Hj). Qed.
  Lemma growth f k x y : (forall s t, k * ((s - t) * (s - t)) <= (f s - f t) * (s - t)) ->
    k * ddot d (fun i j => strain x i j - strain y i j) (fun i j => strain x i j - strain y i j) <=
    ddot d (fun i j => F f x i j - F f y i j) (fun i j => strain x i j - strain y i j).
  Proof.
    intros H. rewrite <- (ddot_cong d _ _ _ _ (id_diff x y) (id_diff x y)), (diff_form (fun s => s) (fun s => s)).
    rewrite <- (ddot_cong d (fun i j => F f x i j - F f y i j) _ _ _ (fun i j _ _ => eq_refl) (id_diff x y)), (diff_form f (fun s => s)).
    rewrite <- Rsum_mul. apply Rsum_le. intros a Ha. rewrite <- Rsum_mul. apply Rsum_le. intros b Hb. rewrite <- Rmult_assoc. apply Rmult_le_compat_r; [apply Rle_0_sqr|apply H].
  Qed.
  Lemma lipschitz f k x y : (forall s t, Rabs (f s - f t) <= k * Rabs (s - t)) ->
    ddot d (fun i j => F f x i j - F f y i j) (fun i j => F f x i j - F f y i j) <=
    k * k * ddot d (fun i j => strain x i j - strain y i j) (fun i j => strain x i j - strain y i j).
  Proof.
    intros H. rewrite <- (ddot_cong d _ _ _ _ (id_diff x y) (id_diff x y)), !diff_form.
    rewrite <- Rsum_mul. apply Rsum_le. intros a Ha. rewrite <- Rsum_mul. apply Rsum_le. intros b Hb. rewrite <- (Rmult_assoc (k * k)). apply Rmult_le_compat_r; [apply Rle_0_sqr|].
    set (s := fst (eigh x) a). set (t := fst (eigh y) b). specialize (H s t).
    rewrite <- (Rabs_pos_eq ((f s - f t) * (f s - f t))) by apply Rle_0_sqr. rewrite Rabs_mult. rewrite <- (Rabs_pos_eq ((s - t) * (s - t))) by apply Rle_0_sqr. rewrite Rabs_mult.
    pose proof (Rabs_pos (f s - f t)). nra.
  Qed.
  Lemma F_sym f x : symmetric d (F f x).
  Proof. intros i j _ _. apply spec_sym. Qed.
  Lemma F_plus f g x i j : F (fun s => f s + g s) x i j = F f x i j + F g x i j.
  Proof. apply spec_plus. Qed.
  Lemma F_scale c f x i j : F (fun s => c * f s) x i j = c * F f x i j.
  Proof. apply spec_scale. Qed.
  Lemma F_mul f g x i j : F (fun s => f s * g s) x i j = mmul d (F f x) (F g x) i j.
  Proof. symmetry. exact (spec_mul d x _ _ (EO x) _ _ i j). Qed.
  Lemma F_trace f x : trace d (F f x) = sum d (fun b => f (fst (eigh x) b)).
  Proof.
    unfold trace. rewrite F_spec. unfold spec. rewrite Rsum_swap. apply Rsum_ext. intros b Hb. rewrite Rsum_mulr.
    transitivity (1 * f (fst (eigh x) b)); [|rr]. f_equal. etransitivity; [exact (q_cols d x _ _ (EO x) b b Hb Hb)|]. unfold eye. now rewrite Nat.eqb_refl.
  Qed.

  (** ** The tangent *)
  Section Tangent.
    Variables (f g : R -> R) (x : tensor).
    Let w := fst (eigh x).
    Let Q := snd (eigh x).
    Let th := theta w (fun b => f (w b)) (fun b => g (w b)).
    Lemma th_sym a b : th a b = th b a.
    Proof.
      unfold th, theta. destruct (Req_EM_T (w a - w b) 0) as [E|E], (Req_EM_T (w b - w a) 0) as [E2|E2]; try (exfalso; lra).
      - f_equal. lra.
      - field. split; lra.
    Qed.
    Lemma pairs_sym v i j : pairs d Q th (strain v) i j = pairs d Q th (strain v) j i.
    Proof.
      unfold pairs. rewrite Rsum_swap. apply Rsum_ext. intros b Hb. apply Rsum_ext. intros a Ha. rewrite (th_sym a b). f_equal.
      rewrite Rsum_swap. apply Rsum_ext. intros l Hl. apply Rsum_ext. intros k Hk. rewrite (proj_sym Q a i k), (proj_sym Q b l j). unfold strain. rr.
    Qed.
    Lemma jvp_sym v : symmetric d (snd (f_jvp eigh d f g x v)).
    Proof. intros i j _ _. rewrite !jvp_pairs. apply pairs_sym. Qed.
    Let comp (V : tensor) a b := sum d (fun k => sum d (fun l => Q k a * V k l * Q l b)).
    Lemma ddot_pairs V W : ddot d (pairs d Q th V) W = sum d (fun a => sum d (fun b => th a b * (comp V a b * comp W a b))).
    Proof.
      unfold ddot. transitivity (sum d (fun i => sum d (fun j => sum d (fun a => sum d (fun b => (th a b * comp V a b) * (Q i a * W i j * Q j b)))))).
      { apply Rsum_ext. intros i Hi. apply Rsum_ext. intros j Hj. unfold pairs. rewrite <- Rsum_mulr. apply Rsum_ext. intros a Ha. rewrite <- Rsum_mulr. apply Rsum_ext. intros b Hb.
        transitivity (th a b * (comp V a b * (Q i a * Q j b)) * W i j); [|rr]. f_equal. f_equal. unfold comp. rewrite <- Rsum_mulr. apply Rsum_ext. intros k Hk. rewrite <- Rsum_mulr. apply Rsum_ext. intros l Hl. unfold proj. rr. }
      transitivity (sum d (fun i => sum d (fun a => sum d (fun b => sum d (fun j => (th a b * comp V a b) * (Q i a * W i j * Q j b)))))).
      { apply Rsum_ext. intros i Hi. rewrite Rsum_swap. apply Rsum_ext. intros a Ha. apply Rsum_swap. }
      rewrite Rsum_swap. apply Rsum_ext. intros a Ha. rewrite Rsum_swap. apply Rsum_ext. intros b Hb.
      rewrite <- Rmult_assoc. unfold comp at 3. rewrite <- Rsum_mul. apply Rsum_ext. intros i Hi. now rewrite Rsum_mul.
    Qed.
    Lemma jvp_ddot v u : ddot d (snd (f_jvp eigh d f g x v)) u = ddot d (pairs d Q th (strain v)) (strain u).
    Proof. rewrite <- (ddot_strain d _ u (jvp_sym v)). apply ddot_cong; [|intros i j _ _; reflexivity]. intros i j _ _. apply jvp_pairs. Qed.
    Lemma jvp_major v u : ddot d (snd (f_jvp eigh d f g x v)) u = ddot d (snd (f_jvp eigh d f g x u)) v.
    Proof. rewrite !jvp_ddot, !ddot_pairs. apply Rsum_ext. intros a Ha. apply Rsum_ext. intros b Hb. f_equal. apply Rmult_comm. Qed.
    Lemma jvp_growth v k : (forall a, (a < d)%nat -> k <= g (w a)) -> (forall s t, k * ((s - t) * (s - t)) <= (f s - f t) * (s - t)) ->
      k * ddot d (strain v) (strain v) <= ddot d (snd (f_jvp eigh d f g x v)) v.
    Proof.
      intros Hg Hf. rewrite jvp_ddot, ddot_pairs.
      assert (I : ddot d (strain v) (strain v) = sum d (fun a => sum d (fun b => comp (strain v) a b * comp (strain v) a b))).
      { assert (E : forall i j, (i < d)%nat -> (j < d)%nat -> strain v i j = sum d (fun a => sum d (fun b => comp (strain v) a b * (Q i a * Q j b)))).
        { intros i j Hi Hj. transitivity (pairs d Q (fun _ _ => 1) (strain v) i j).
          - rewrite (pairs_right d x w Q (EO x) (fun _ => 1) (strain v) i j Hi). rewrite <- (mul_eye_r d (strain v) i j Hj) at 1. apply mmul_ext; intros k' Hk; [reflexivity|].
            rewrite (spec_const d x w Q (EO x) 1 k' j Hk Hj). symmetry. apply Rmult_1_l.
          - apply Rsum_ext. intros a Ha. apply Rsum_ext. intros b Hb. rewrite Rmult_1_l. unfold comp. rewrite <- Rsum_mulr. apply Rsum_ext. intros k' Hk. rewrite <- Rsum_mulr. apply Rsum_ext. intros l Hl. unfold proj. rr. }
        transitivity (ddot d (fun i j => sum d (fun a => sum d (fun b => comp (strain v) a b * (Q i a * Q j b)))) (strain v)); [apply ddot_cong; [intros i j Hi Hj; exact (E i j Hi Hj)|intros i j _ _; reflexivity]|].
        unfold ddot. transitivity (sum d (fun i => sum d (fun j => sum d (fun a => sum d (fun b => comp (strain v) a b * (Q i a * strain v i j * Q j b)))))).
        { apply Rsum_ext. intros i Hi. apply Rsum_ext. intros j Hj. rewrite <- Rsum_mulr. apply Rsum_ext. intros a Ha. rewrite <- Rsum_mulr. apply Rsum_ext. intros b Hb. rr. }
        transitivity (sum d (fun i => sum d (fun a => sum d (fun b => sum d (fun j => comp (strain v) a b * (Q i a * strain v i j * Q j b)))))).
        { apply Rsum_ext. intros i Hi. rewrite Rsum_swap. apply Rsum_ext. intros a Ha. apply Rsum_swap. }
        rewrite Rsum_swap. apply Rsum_ext. intros a Ha. rewrite Rsum_swap. apply Rsum_ext. intros b Hb. unfold comp at 3. rewrite <- Rsum_mul. apply Rsum_ext. intros i Hi. now rewrite Rsum_mul. }
      rewrite I, <- Rsum_mul. apply Rsum_le. intros a Ha. rewrite <- Rsum_mul. apply Rsum_le. intros b Hb. apply Rmult_le_compat_r; [apply Rle_0_sqr|].
      unfold th, theta. destruct (Req_EM_T (w a - w b) 0) as [E|E]; [now apply Hg|].
      specialize (Hf (w a) (w b)). set (s := w a - w b) in *. set (q := f (w a) - f (w b)) in *.
      assert (S2 : 0 < s * s) by (destruct (Rtotal_order s 0) as [|[|]]; [nra|contradiction|nra]).
      apply (Rmult_le_reg_r (s * s)); [exact S2|]. replace (q / s * (s * s)) with (q * s) by (field; exact E). exact Hf.
    Qed.
    Lemma jvp_trace v : trace d (snd (f_jvp eigh d f g x v)) = ddot d (F g x) v.
    Proof.
      rewrite <- (ddot_strain d _ v (F_sym g x)). rewrite F_spec. fold w Q.
      transitivity (trace d (pairs d Q th (strain v))); [apply Rsum_ext; intros i Hi; apply jvp_pairs|].
      transitivity (ddot d (pairs d Q th (strain v)) eye).
      { unfold trace, ddot. apply Rsum_ext. intros i Hi. transitivity (sum d (fun j => pairs d Q th (strain v) i j * (if (j =? i)%nat then 1 else 0))).
        - symmetry. exact (Rsum_delta2 d i (fun j => pairs d Q th (strain v) i j) Hi).
        - apply Rsum_ext. intros j Hj. unfold eye. now rewrite (Nat.eqb_sym j i). }
      rewrite ddot_pairs. unfold ddot.
      transitivity (sum d (fun a => g (w a) * comp (strain v) a a)).
      - apply Rsum_ext. intros a Ha. transitivity (sum d (fun b => (th a b * comp (strain v) a b) * (if (b =? a)%nat then 1 else 0))).
        + apply Rsum_ext. intros b Hb. rewrite <- Rmult_assoc. f_equal. unfold comp.
          transitivity (sum d (fun k => Q k a * Q k b)).
          * apply Rsum_ext. intros k Hk. transitivity (sum d (fun l => (if (k =? l)%nat then 1 else 0) * (Q k a * Q l b))).
            { apply Rsum_ext. intros l Hl. unfold eye. destruct (k =? l)%nat; rr. }
            exact (Rsum_delta d k (fun l => Q k a * Q l b) Hk).
          * etransitivity; [exact (q_cols d x w Q (EO x) a b Ha Hb)|]. unfold eye. now rewrite Nat.eqb_sym.
        + etransitivity; [exact (Rsum_delta2 d a (fun b => th a b * comp (strain v) a b) Ha)|]. f_equal. unfold th, theta. destruct (Req_EM_T (w a - w a) 0) as [|E]; [reflexivity|]. exfalso. apply E. ring.
      - transitivity (sum d (fun a => sum d (fun i => sum d (fun j => proj Q a i j * g (w a) * strain v i j)))).
        + apply Rsum_ext. intros a Ha. unfold comp. rewrite <- Rsum_mul. apply Rsum_ext. intros i Hi. rewrite <- Rsum_mul. apply Rsum_ext. intros j Hj. unfold proj. rr.
        + rewrite Rsum_swap. apply Rsum_ext. intros i Hi. rewrite Rsum_swap. apply Rsum_ext. intros j Hj. unfold spec. now rewrite Rsum_mulr.
    Qed.
  End Tangent.
  Lemma potential f g x v : (forall b, (b < d)%nat -> derivable_pt_lim f (fst (eigh x) b) (g (fst (eigh x) b))) ->
    derivable_pt_lim (fun t => sum d (fun b => f (fst (eigh (line x v t)) b))) 0 (ddot d (F g x) v).
  Proof.
    intros H. rewrite <- (jvp_trace f g x v). apply (dlim_ext (fun t => sum d (fun i => F f (line x v t) i i))); [intros t; exact (F_trace f (line x v t))|].
    unfold trace. apply (dlim_sum d (fun i t => F f (line x v t) i i) (fun i => snd (f_jvp eigh d f g x v) i i)). intros i Hi. exact (derivative d eigh EO f g x v H i i Hi Hi).
  Qed.
End Values.

(** ** Two by two matrices *)
Definition eigh2 (x : tensor) : (nat -> R) * tensor :=
  let a := x 0%nat 0%nat in let c := x 1%nat 1%nat in let b := strain x 0%nat 1%nat in
  if Req_EM_T b 0 then (fun k => if (k =? 0)%nat then a else c, eye)
  else let r := sqrt (((a - c) / 2) * ((a - c) / 2) + b * b) in
       let l1 := (a + c) / 2 + r in let l2 := (a + c) / 2 - r in
       let n := sqrt (b * b + (l1 - a) * (l1 - a)) in
       (fun k => if (k =? 0)%nat then l1 else l2,
        fun i j => match i, j with
                   | O, O => b / n | S _, O => (l1 - a) / n
                   | O, S _ => - (l1 - a) / n | S _, S _ => b / n end).
Lemma eigh2_ok : eigh_ok 2 eigh2.
Proof.
  intros x. unfold eigh2. set (a := x 0%nat 0%nat). set (c := x 1%nat 1%nat). set (b := strain x 0%nat 1%nat).
  assert (S00 : strain x 0%nat 0%nat = a) by (unfold strain, a; req; field). assert (S11 : strain x 1%nat 1%nat = c) by (unfold strain, c; req; field).
  assert (S10 : strain x 1%nat 0%nat = b) by (unfold strain, b; unfold strain; rr).
  assert (two : forall i, (i < 2)%nat -> i = 0%nat \/ i = 1%nat) by (intros; lia).
  destruct (Req_EM_T b 0) as [B|B].
  - split; [split|]; cbn [fst snd]; intros i j Hi Hj; destruct (two i Hi) as [-> | ->], (two j Hj) as [-> | ->]; unfold mmul, mtrans, eye; cbn [sum_n fold_left seq Nat.eqb]; cbn; try (rr).
    + fold a in S00. rewrite S00. rr.
    + fold b. rewrite B. rr.
    + rewrite S10, B. rr.
    + rewrite S11. rr.
  - set (r := sqrt (((a - c) / 2) * ((a - c) / 2) + b * b)). set (l1 := (a + c) / 2 + r). set (n := sqrt (b * b + (l1 - a) * (l1 - a))).
    assert (BB : 0 < b * b) by (destruct (Rtotal_order b 0) as [|[|]]; [nra|contradiction|nra]).
    assert (RR : r * r = ((a - c) / 2) * ((a - c) / 2) + b * b) by (apply sqrt_sqrt; pose proof (Rle_0_sqr ((a - c) / 2)) as X; unfold Rsqr in X; lra).
    assert (NN : n * n = b * b + (l1 - a) * (l1 - a)) by (apply sqrt_sqrt; pose proof (Rle_0_sqr (l1 - a)) as X; unfold Rsqr in X; lra).
    assert (N0 : n <> 0) by (intros E; rewrite E in NN; pose proof (Rle_0_sqr (l1 - a)) as X; unfold Rsqr in X; lra).
    set (e := l1 - a) in *. assert (EQ : e * e + e * (a - c) = b * b) by (unfold e, l1; nra).
    assert (L1 : l1 = a + e) by (unfold e; ring). assert (L2 : (a + c) / 2 - r = c - e) by (unfold e, l1; field).
    assert (U1 : b / n * (b / n) + e / n * (e / n) = 1) by (replace (b / n * (b / n) + e / n * (e / n)) with ((b * b + e * e) / (n * n)) by (field; exact N0); rewrite NN; field; pose proof (Rle_0_sqr e) as X; unfold Rsqr in X; lra).
    split; [split|]; cbn [fst snd]; intros i j Hi Hj; destruct (two i Hi) as [-> | ->], (two j Hj) as [-> | ->]; unfold mmul, mtrans, eye; cbn; try (rewrite <- U1); try (req; field; exact N0).
    + rewrite S00, L1, L2. transitivity (a * (b / n * (b / n) + e / n * (e / n)) + (e * (b * b) - e * (e * e + e * (a - c))) / (n * n)); [req; field; exact N0|]. rewrite U1, EQ. req; field; exact N0.
    + fold b. rewrite L1, L2. transitivity (b * ((e * e + e * (a - c)) + e * e) / (n * n)); [req; field; exact N0|]. rewrite EQ, NN. req. field. rewrite <- NN. intros X. apply Rmult_integral in X. tauto.
    + rewrite S10, L1, L2. transitivity (b * ((e * e + e * (a - c)) + e * e) / (n * n)); [req; field; exact N0|]. rewrite EQ, NN. req. field. rewrite <- NN. intros X. apply Rmult_integral in X. tauto.
    + rewrite S11, L1, L2. transitivity (c * (b / n * (b / n) + e / n * (e / n)) + e * ((e * e + e * (a - c)) - b * b) / (n * n)); [req; field; exact N0|]. rewrite U1, EQ. req; field; exact N0.
Qed.
