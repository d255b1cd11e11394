(** Lemmas for C101: stress update and phases. *)
From Coq Require Import String Reals List Arith Lia Lra Bool.
From Verif Require Import Num Arr Fe Problem SpecFe Elastic ElasticFacts Plasticity SpecPlasticity PlasticityFacts PlasticityMain Laser SpecLaser.
Import ListNotations.
Local Open Scope R_scope.

Section Return.
  Variable d : nat.
  Hypothesis D : (0 < d)%nat.
  Variables (G so eo : tensor) (dT : R) (ph : nat).
  Let t := elastic_guess d (strain G) so eo dT ph.
  Let s := laser_return d G so eo dT ph.
  Lemma young_E : E_of ph = young ph.
  Proof. unfold E_of, E0, young, SOLID. destruct ph as [|[|[|n]]]; cbn [Nat.eqb]; lra. Qed.
  Lemma expansion_a : alpha_V ph = expansion ph.
  Proof. unfold alpha_V, alpha_V0, expansion, SOLID. destruct ph as [|[|[|n]]]; reflexivity. Qed.
  Lemma stress_E_hooke E e : same_on d (stress_E d E e) (hooke_of E d e).
  Proof. intros i j _ _. unfold stress_E, hooke_of. destruct (i =? j)%nat; req; field. Qed.
  Lemma hooke_of_ext E e e' : same_on d e e' -> same_on d (hooke_of E d e) (hooke_of E d e').
  Proof. intros H i j Hi Hj. unfold hooke_of. rewrite (trace_ext d _ _ H), (H i j Hi Hj). reflexivity. Qed.
  Lemma trial_guess : same_on d (sigma_trial d G so eo dT ph) t.
  Proof.
    intros i j Hi Hj. unfold sigma_trial, t, elastic_guess. rewrite (stress_E_hooke _ _ i j Hi Hj), young_E, expansion_a. f_equal.
    apply hooke_of_ext; auto. intros k l _ _. destruct (k =? l)%nat; req; ring.
  Qed.
  Definition lcut : R := if Rlt_dec 0 (von_mises d t - 250 * 10 ^ 6) then (von_mises d t - 250 * 10 ^ 6) / von_mises d t else 0.
  Lemma lreturn_form : same_on d s (tcomb 1 t (- lcut) (shear_part d t)).
  Proof.
    intros i j Hi Hj. unfold s, laser_return, f_yield_plus. cbv zeta. rewrite (s_norm_mises d D), (mises_ext d _ _ trial_guess).
    rewrite (deviator_shear d D _ i j Hi Hj), (shear_ext d _ _ trial_guess i j Hi Hj), (trial_guess i j Hi Hj).
    unfold Laser.sig0, tcomb, lcut, safe_divide. destruct (Rlt_dec 0 (von_mises d t - 250 * 10 ^ 6)).
    - destruct (Req_EM_T (von_mises d t) 0) as [E|E]; [lra|]. req; field. exact E.
    - destruct (Req_EM_T (von_mises d t) 0) as [E|E]; req; [ring|]. field. exact E.
  Qed.
  Lemma lcut_range : 0 <= lcut < 1.
  Proof.
    unfold lcut. destruct (Rlt_dec 0 (von_mises d t - 250 * 10 ^ 6)); [|lra]. assert (0 < von_mises d t) by lra. split.
    - apply Rlt_le. apply Rdiv_lt_0_compat; lra.
    - apply (Rmult_lt_reg_r (von_mises d t)); [lra|]. unfold Rdiv. rewrite Rmult_assoc, Rinv_l by lra. lra.
  Qed.
  Lemma lcut_zero : carried d t -> lcut = 0.
  Proof. unfold carried, lcut. intros H. destruct (Rlt_dec 0 (von_mises d t - 250 * 10 ^ 6)); [lra|reflexivity]. Qed.
  Lemma lcut_pos : ~ carried d t -> 0 < lcut /\ (1 - lcut) * von_mises d t = 250 * 10 ^ 6.
  Proof. unfold carried, lcut. intros H. destruct (Rlt_dec 0 (von_mises d t - 250 * 10 ^ 6)); [|lra]. split; [apply Rdiv_lt_0_compat; lra|field; lra]. Qed.
  Lemma lreturn_shear : same_on d (shear_part d s) (fun i j => (1 - lcut) * shear_part d t i j).
  Proof.
    intros i j Hi Hj. rewrite (shear_ext d _ _ lreturn_form i j Hi Hj), (shear_comb d D 1 t (- lcut) _ i j Hi Hj).
    unfold tcomb. rewrite (shear_shear d D t i j Hi Hj). req; ring.
  Qed.
  Lemma lreturn_mises : von_mises d s = (1 - lcut) * von_mises d t.
  Proof. apply (mises_scale d); [pose proof lcut_range; lra|exact lreturn_shear]. Qed.
  Lemma lreturn_carried : carried d s.
  Proof.
    unfold carried. rewrite lreturn_mises. destruct (Rle_dec (von_mises d t) (250 * 10 ^ 6)) as [H|H].
    - rewrite (lcut_zero H). lra.
    - destruct (lcut_pos H) as (_ & ->). lra.
  Qed.
  Lemma lreturn_elastic : carried d t -> same_on d s t.
  Proof. intros H i j Hi Hj. rewrite (lreturn_form i j Hi Hj), (lcut_zero H). unfold tcomb. req; ring. Qed.
  Lemma lreturn_trace : trace d s = trace d t.
  Proof. rewrite (trace_ext d _ _ lreturn_form), trace_comb, (shear_trace d D). req; ring. Qed.
  Lemma guess_symmetric : symmetric d so -> symmetric d eo -> symmetric d t.
  Proof.
    intros H1 H2 i j Hi Hj. unfold t, elastic_guess. rewrite (H1 i j) by auto. f_equal. unfold hooke_of. rewrite (Nat.eqb_sym j i), (H2 i j) by auto.
    replace (strain G j i) with (strain G i j) by (unfold strain; req; ring). reflexivity.
  Qed.
  Lemma lreturn_symmetric : symmetric d so -> symmetric d eo -> symmetric d s.
  Proof.
    intros H1 H2 i j Hi Hj. rewrite (lreturn_form i j Hi Hj), (lreturn_form j i Hj Hi). unfold tcomb, shear_part.
    rewrite (Nat.eqb_sym j i), (guess_symmetric H1 H2 i j Hi Hj). reflexivity.
  Qed.
  (** strain kept, temperature changed: only the mean stress changes *)
  Lemma clamped : same_on d (strain G) eo -> same_on d t (tcomb 1 so (- (young ph * expansion ph * dT * (1 / (1 + 3 / 10) * (1 + 3 / 10 / (1 - 2 * (3 / 10)) * INR d)))) (teye 1)).
  Proof.
    intros H i j Hi Hj. unfold t, elastic_guess, tcomb.
    assert (E : same_on d (fun k l => strain G k l - eo k l - (if (k =? l)%nat then expansion ph * dT else 0)) (teye (- (expansion ph * dT)))).
    { intros k l Hk Hl. rewrite (H k l Hk Hl). unfold teye. destruct (k =? l)%nat; req; ring. }
    rewrite (hooke_of_ext _ _ _ E i j Hi Hj). unfold hooke_of. rewrite (trace_eye d). unfold teye. destruct (i =? j)%nat; req; field.
  Qed.
  Lemma clamped_carried : same_on d (strain G) eo -> carried d so -> carried d t.
  Proof.
    intros H C. unfold carried. rewrite (mises_scale d 1 so t); [rewrite Rmult_1_l; exact C|lra|].
    intros i j Hi Hj. rewrite (shear_ext d _ _ (clamped H) i j Hi Hj), (shear_comb d D _ _ _ _ i j Hi Hj). unfold tcomb. unfold shear_part at 2. rewrite (trace_eye d).
    unfold teye. pose proof (D0 d D). destruct (i =? j)%nat; req; field; auto.
  Qed.
End Return.

(** elastic solid steps add up *)
Lemma guess_chain d e0 e1 e2 s0 dT1 dT2 ph (s1 s2 : tensor) : same_on d s1 (elastic_guess d e1 s0 e0 dT1 ph) -> same_on d s2 (elastic_guess d e2 s1 e1 dT2 ph) ->
  same_on d s2 (elastic_guess d e2 s0 e0 (dT1 + dT2) ph).
Proof.
  intros H1 H2 i j Hi Hj. rewrite (H2 i j Hi Hj). unfold elastic_guess. rewrite (H1 i j Hi Hj). unfold elastic_guess, hooke_of.
  set (w := expansion ph).
  set (a := fun (g h : tensor) (x : R) (k l : nat) => g k l - h k l - (if (k =? l)%nat then w * x else 0)).
  change (fun k l => e2 k l - e1 k l - (if (k =? l)%nat then w * dT2 else 0)) with (a e2 e1 dT2).
  change (fun k l => e1 k l - e0 k l - (if (k =? l)%nat then w * dT1 else 0)) with (a e1 e0 dT1).
  change (fun k l => e2 k l - e0 k l - (if (k =? l)%nat then w * (dT1 + dT2) else 0)) with (a e2 e0 (dT1 + dT2)).
  assert (T : trace d (a e2 e0 (dT1 + dT2)) = trace d (a e2 e1 dT2) + trace d (a e1 e0 dT1)).
  { unfold trace. rewrite <- Rsum_plus. apply Rsum_ext. intros k _. unfold a. rewrite Nat.eqb_refl. req; ring. }
  rewrite T. destruct (i =? j)%nat; req; ring.
Qed.

(** phases *)
Definition phase_fold (Ts : list R) : nat := fold_left next_phase Ts 0%nat.
Lemma phase_snoc Ts T : phase_fold (Ts ++ [T]) = next_phase (phase_fold Ts) T.
Proof. unfold phase_fold. now rewrite fold_left_app. Qed.
Lemma next_phase_cases ph T : next_phase ph T =
  match ph with 0%nat => if Rlt_dec 1623 T then 1%nat else 0%nat | 1%nat => if Rlt_dec T 1623 then 2%nat else 1%nat | n => n end.
Proof. unfold next_phase, POWDER, LIQUID, SOLID, Tl. destruct ph as [|[|n]]; cbn [Nat.eqb andb]; destruct (Rlt_dec 1623 T), (Rlt_dec T 1623); reflexivity. Qed.
Lemma phase_fold_ok Ts : phase_ok Ts (phase_fold Ts).
Proof.
  induction Ts as [|T Ts IH] using rev_ind; [left; split; [reflexivity|intros x []]|]. rewrite phase_snoc, next_phase_cases.
  destruct IH as [(-> & H)|[(-> & a & T1 & b & -> & Ha & HT & Hb)|(-> & a & T1 & b & T2 & c & -> & H1 & H2)]].
  - destruct (Rlt_dec 1623 T) as [L|L].
    + right; left. split; [reflexivity|]. exists Ts, T, []. repeat split; auto. intros x [].
    + left. split; [reflexivity|]. intros x Hx. apply in_app_or in Hx as [Hx|[<-|[]]]; [now apply H|lra].
  - destruct (Rlt_dec T 1623) as [L|L].
    + right; right. split; [reflexivity|]. exists a, T1, b, T, []. rewrite <- app_assoc. repeat split; auto.
    + right; left. split; [reflexivity|]. exists a, T1, (b ++ [T]). rewrite <- app_assoc. repeat split; auto. intros x Hx. apply in_app_or in Hx as [Hx|[<-|[]]]; [now apply Hb|lra].
  - right; right. split; [reflexivity|]. exists a, T1, b, T2, (c ++ [T]). split; [|auto]. rewrite <- !app_assoc. cbn [app]. f_equal. f_equal. now rewrite <- app_assoc.
Qed.
(** the three cases exclude each other *)
Lemma phase_ok_one Ts m n : phase_ok Ts m -> phase_ok Ts n -> m = n.
Proof.
  assert (P : forall a b : list R, forall x, In x (a ++ x :: b)) by (intros; apply in_or_app; right; now left).
  assert (F : forall a T b T' c, (forall x, In x ((a ++ T :: b ++ T' :: c) : list R) -> x <= 1623) -> 1623 < T -> False).
  { intros a T b T' c H L. specialize (H T (P _ _ _)). lra. }
  assert (G : forall (a b a' b' c' : list R) T U U', (forall x, In x a -> x <= 1623) -> (forall x, In x b -> 1623 <= x) -> 1623 < T -> 1623 < U -> U' < 1623 -> a ++ T :: b = a' ++ U :: b' ++ U' :: c' -> False).
  { induction a as [|x a IH]; intros b a' b' c' T U U' Ha Hb HT HU HU' E.
    - destruct a' as [|y a']; cbn in E; injection E as -> ->; [specialize (Hb U' (P _ _ _)); lra|]. specialize (Hb U'). assert (In U' (a' ++ U :: b' ++ U' :: c')) by (apply in_or_app; right; right; apply P). specialize (Hb H). lra.
    - destruct a' as [|y a']; cbn in E; injection E as -> E; [specialize (Ha U (or_introl eq_refl)); lra|]. apply (IH b a' b' c' T U U'); auto. intros z Hz. apply Ha. now right. }
  intros [(-> & H)|[(-> & a & T1 & b & -> & Ha & HT & Hb)|(-> & a & T1 & b & T2 & c & -> & H1 & H2)]] [(-> & H')|[(-> & a' & T1' & b' & E & Ha' & HT' & Hb')|(-> & a' & T1' & b' & T2' & c' & E & H1' & H2')]]; try reflexivity; exfalso.
  - subst Ts. specialize (H T1' (P _ _ _)). lra.
  - subst Ts. exact (F _ _ _ _ _ H H1').
  - specialize (H' T1 (P _ _ _)). lra.
  - exact (G _ _ _ _ _ _ _ _ Ha Hb HT H1' H2' E).
  - exact (F _ _ _ _ _ H' H1).
  - exact (G _ _ _ _ _ _ _ _ Ha' Hb' HT' H1 H2 (eq_sym E)).
Qed.
