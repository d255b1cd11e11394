(** Lemmas for C107. *)
From Coq Require Import Reals List Arith Lia Lra Psatz Bool.
From Verif Require Import ArcDemo SpecArcDemo.
Import ListNotations.
Local Open Scope R_scope.

Lemma sq_pos x : x <> 0 -> 0 < x ^ 2. Proof. intros H. replace (x ^ 2) with (x * x) by ring. nra. Qed.
Section Pass.
  Variables (Dl u0 l0 q u l : R).
  Let A := 1 - 2 * u.
  Let r := out_of_balance q u l.
  Let b := - r / A.
  Let t := - q / A.
  Let a1 := t ^ 2 + 1 ^ 2 * q ^ 2.
  Let a2 := 2 * (u - u0 + b) * t + 2 * 1 ^ 2 * (l - l0) * q ^ 2.
  Let a3 := (u - u0 + b) ^ 2 + 1 ^ 2 * (l - l0) ^ 2 * q ^ 2 - Dl ^ 2.
  Let d := (- a2 + sqrt (a2 ^ 2 - 4 * a1 * a3)) / (2 * a1).
  Lemma force_eq x : internal_force x = force x. Proof. unfold internal_force, force. ring. Qed.
  Lemma pass_eq : A <> 0 -> q <> 0 -> 0 <= a2 ^ 2 - 4 * a1 * a3 -> arc_pass Dl u0 l0 q u l = Some (u + (b + d * t), l + d).
  Proof.
    intros HA Hq HD. unfold arc_pass. rewrite force_eq. unfold slope. fold A. fold (out_of_balance q u l). fold r. fold b. fold t. fold a1. fold a2. fold a3.
    destruct (Req_EM_T A 0) as [E|_]; [contradiction|]. assert (P : 0 < a1) by (unfold a1; assert (0 < q ^ 2) by (apply sq_pos; exact Hq); assert (0 <= t ^ 2) by apply pow2_ge_0; lra).
    destruct (Req_EM_T a1 0) as [E|_]; [lra|]. destruct (Rlt_dec (a2 ^ 2 - 4 * a1 * a3) 0) as [E|_]; [lra|].
    rewrite Rmax_left; [reflexivity|]. unfold Rdiv. apply Rmult_le_compat_r; [left; apply Rinv_0_lt_compat; lra|]. pose proof (sqrt_pos (a2 ^ 2 - 4 * a1 * a3)). lra.
  Qed.
  Lemma a1_pos : q <> 0 -> 0 < a1.
  Proof. intros Hq. unfold a1. assert (0 < q ^ 2) by (apply sq_pos; exact Hq). assert (0 <= t ^ 2) by apply pow2_ge_0. lra. Qed.
  Lemma pass_none : arc_pass Dl u0 l0 q u l = None <-> A = 0 \/ q = 0 \/ a2 ^ 2 - 4 * a1 * a3 < 0.
  Proof.
    split.
    - intros H. destruct (Req_EM_T A 0) as [E|N]; [tauto|]. destruct (Req_EM_T q 0) as [E|N']; [tauto|]. destruct (Rlt_dec (a2 ^ 2 - 4 * a1 * a3) 0) as [E|N'']; [tauto|]. rewrite pass_eq in H; [discriminate|assumption..|lra].
    - intros H. unfold arc_pass. rewrite force_eq. unfold slope. fold A. fold (out_of_balance q u l). fold r. fold b. fold t. fold a1. fold a2. fold a3.
      destruct (Req_EM_T A 0) as [E|N]; [reflexivity|]. destruct (Req_EM_T a1 0) as [E|N']; [reflexivity|]. destruct (Rlt_dec (a2 ^ 2 - 4 * a1 * a3) 0) as [E|N'']; [reflexivity|].
      exfalso. destruct H as [H|[H|H]]; [contradiction| |contradiction]. apply N'. unfold a1, t. rewrite H. field. exact N.
  Qed.
  (** points on the tangent are given by their load factor; the circle condition is the quadratic equation *)
  Lemma tangent_point u' l' : A <> 0 -> on_tangent q u u' l' <-> u' = u + (b + (l' - l) * t).
  Proof.
    intros HA. unfold on_tangent. fold A. unfold b, t, r, out_of_balance. split; intros H.
    - apply (Rmult_eq_reg_l A); [|exact HA]. field_simplify; [|exact HA]. lra.
    - rewrite H. field. exact HA.
  Qed.
  Lemma circle_quad u' l' : u' = u + (b + (l' - l) * t) -> on_circle Dl u0 l0 q u' l' <-> a1 * (l' - l) ^ 2 + a2 * (l' - l) + a3 = 0.
  Proof.
    intros E. unfold on_circle, a1, a2, a3. assert (I : (u' - u0) * (u' - u0) + q * q * ((l' - l0) * (l' - l0)) - Dl * Dl = (t ^ 2 + 1 ^ 2 * q ^ 2) * (l' - l) ^ 2 + (2 * (u - u0 + b) * t + 2 * 1 ^ 2 * (l - l0) * q ^ 2) * (l' - l) + ((u - u0 + b) ^ 2 + 1 ^ 2 * (l - l0) ^ 2 * q ^ 2 - Dl ^ 2)) by (rewrite E; ring). split; intros H; lra.
  Qed.
  Lemma disc_square x : 0 < a1 -> a1 * x ^ 2 + a2 * x + a3 = 0 -> (2 * a1 * x + a2) ^ 2 = a2 ^ 2 - 4 * a1 * a3.
  Proof. intros _ H. replace a3 with (- (a1 * x ^ 2 + a2 * x)) by lra. ring. Qed.
  Lemma root_ok : 0 < a1 -> 0 <= a2 ^ 2 - 4 * a1 * a3 -> a1 * d ^ 2 + a2 * d + a3 = 0.
  Proof.
    intros P HD. pose proof (sqrt_sqrt _ HD) as S. set (s := sqrt (a2 ^ 2 - 4 * a1 * a3)) in *. unfold d. fold s.
    replace (a1 * ((- a2 + s) / (2 * a1)) ^ 2 + a2 * ((- a2 + s) / (2 * a1)) + a3) with ((s * s - (a2 ^ 2 - 4 * a1 * a3)) / (4 * a1)) by (field; lra). rewrite S. field. lra.
  Qed.
  Lemma root_max x : 0 < a1 -> a1 * x ^ 2 + a2 * x + a3 = 0 -> x <= d.
  Proof.
    intros P H. pose proof (disc_square x P H) as E. unfold d. rewrite <- E. apply (Rmult_le_reg_r (2 * a1)); [lra|]. unfold Rdiv. rewrite (Rmult_assoc (- a2 + _)), Rinv_l by lra.
    assert (2 * a1 * x + a2 <= sqrt ((2 * a1 * x + a2) ^ 2)); [|lra]. rewrite <- Rsqr_pow2, sqrt_Rsqr_abs. apply Rle_abs.
  Qed.
  Lemma pass_some u' l' : arc_pass Dl u0 l0 q u l = Some (u', l') ->
    on_circle Dl u0 l0 q u' l' /\ on_tangent q u u' l' /\ out_of_balance q u' l' = - ((u' - u) * (u' - u)) /\ (forall x y, on_circle Dl u0 l0 q x y -> on_tangent q u x y -> y <= l').
  Proof.
    intros H. destruct (Req_EM_T A 0) as [E|NA]; [rewrite (proj2 pass_none) in H by tauto; discriminate|]. destruct (Req_EM_T q 0) as [E|NQ]; [rewrite (proj2 pass_none) in H by tauto; discriminate|].
    destruct (Rlt_dec (a2 ^ 2 - 4 * a1 * a3) 0) as [E|ND]; [rewrite (proj2 pass_none) in H by tauto; discriminate|]. rewrite pass_eq in H by (assumption || lra). injection H as EU EL.
    pose proof (a1_pos NQ) as P. assert (LD : l' - l = d) by lra. assert (EU' : u' = u + (b + (l' - l) * t)) by (rewrite LD; lra).
    assert (T : on_tangent q u u' l') by (apply tangent_point; assumption).
    split; [|split; [exact T|split]].
    - apply (circle_quad u' l' EU'). rewrite LD. apply root_ok; [exact P|lra].
    - unfold on_tangent, out_of_balance, force in *. lra.
    - intros x y C TG. apply tangent_point in TG; [|exact NA]. apply (circle_quad x y TG) in C. pose proof (root_max _ P C). lra.
  Qed.
  Lemma pass_nan : arc_pass Dl u0 l0 q u l = None <-> 1 - 2 * u = 0 \/ q = 0 \/ forall x y, on_tangent q u x y -> ~ on_circle Dl u0 l0 q x y.
  Proof.
    split.
    - intros H. apply pass_none in H as [H|[H|H]]; [tauto|tauto|]. destruct (Req_EM_T A 0) as [E|NA]; [tauto|]. destruct (Req_EM_T q 0) as [E|NQ]; [tauto|]. right. right. intros x y T C.
      apply tangent_point in T; [|exact NA]. apply (circle_quad x y T) in C. pose proof (disc_square _ (a1_pos NQ) C) as S. pose proof (pow2_ge_0 (2 * a1 * (y - l) + a2)). lra.
    - intros H. apply pass_none. destruct H as [H|[H|H]]; [tauto|tauto|]. destruct (Req_EM_T A 0) as [E|NA]; [tauto|]. destruct (Req_EM_T q 0) as [E|NQ]; [tauto|]. right. right.
      destruct (Rlt_dec (a2 ^ 2 - 4 * a1 * a3) 0) as [E|ND]; [exact E|]. exfalso. assert (P : arc_pass Dl u0 l0 q u l = Some (u + (b + d * t), l + d)) by (apply pass_eq; assumption || lra).
      apply pass_some in P as (C & T & _). exact (H _ _ T C).
  Qed.
End Pass.

(** ** From a point of the curve *)
Lemma first_pass Dl q u0 l0 : 0 < Dl -> q <> 0 -> 1 - 2 * u0 <> 0 -> out_of_balance q u0 l0 = 0 ->
  exists u' l', arc_pass Dl u0 l0 q u0 l0 = Some (u', l') /\ l0 < l' /\ (u' - u0) * (1 - 2 * u0) = - q * (l' - l0).
Proof.
  intros HD HQ HA R. destruct (arc_pass Dl u0 l0 q u0 l0) as [[u' l']|] eqn:E.
  - exists u', l'. split; [reflexivity|]. apply pass_some in E as (C & T & _ & MX). unfold on_tangent, out_of_balance in *. assert (TT : (u' - u0) * (1 - 2 * u0) = - q * (l' - l0)) by lra. split; [|exact TT].
    set (x := 2 * u0 - u') in *. set (y := 2 * l0 - l') in *.
    assert (Y : y <= l') by (apply (MX x y); [unfold on_circle, x, y in *; nra|unfold x, y; lra]).
    destruct (Req_EM_T l' l0) as [EL|NL]; [|unfold y in Y; lra]. exfalso. rewrite EL in TT. assert (Z : (u' - u0) * (1 - 2 * u0) = 0) by lra. apply Rmult_integral in Z as [Z|Z]; [|contradiction].
    unfold on_circle in C. rewrite Z, EL in C. nra.
  - exfalso. apply pass_nan in E as [E|[E|E]]; [contradiction|contradiction|].
    set (A := 1 - 2 * u0) in *. set (n := sqrt (q * q * (1 + A * A))). assert (PN : 0 < q * q * (1 + A * A)) by (assert (0 < q * q) by nra; assert (0 <= A * A) by nra; nra). assert (N0 : 0 < n) by (apply sqrt_lt_R0; exact PN). assert (NN : n * n = q * q * (1 + A * A)) by (apply sqrt_sqrt; lra).
    apply (E (u0 - q * (Dl / n)) (l0 + A * (Dl / n))); unfold on_tangent, on_circle, out_of_balance in *.
    + fold A. lra.
    + replace (u0 - q * (Dl / n) - u0) with (- q * (Dl / n)) by ring. replace (l0 + A * (Dl / n) - l0) with (A * (Dl / n)) by ring.
      replace (- q * (Dl / n) * (- q * (Dl / n)) + q * q * (A * (Dl / n) * (A * (Dl / n)))) with (q * q * (1 + A * A) * ((Dl / n) * (Dl / n))) by ring. rewrite <- NN. field. lra.
Qed.

(** ** The loop *)
Lemma loop_nan fuel Dl u0 l0 q rv step o : arc_loop fuel Dl u0 l0 q rv step None = Some o -> o = None.
Proof.
  revert rv step. induction fuel as [|fuel IH]; intros rv step H; cbn [arc_loop] in H; destruct (above_tol rv || _); try discriminate; try (now injection H as <-). exact (IH _ _ H).
Qed.
Lemma loop_exit fuel Dl u0 l0 q rv step u l u' l' : arc_loop fuel Dl u0 l0 q rv step (Some (u, l)) = Some (Some (u', l')) -> (above_tol rv || (step <=? 1)%nat = true) ->
  exists k x y, (1 <= k)%nat /\ (2 <= step + k)%nat /\ arc_pass Dl u0 l0 q x y = Some (u', l') /\ Rabs (out_of_balance q x y) <= / 10 ^ 6.
Proof.
  revert rv step u l. induction fuel as [|fuel IH]; intros rv step u l H C; cbn [arc_loop] in H; rewrite C in H; [discriminate|].
  destruct (arc_pass Dl u0 l0 q u l) as [[x y]|] eqn:E; [|apply loop_nan in H; discriminate].
  destruct (above_tol (Some (arc_res q u l)) || (S step <=? 1)%nat) eqn:C'.
  - destruct (IH _ _ _ _ H C') as (k & x' & y' & K1 & K2 & P & B). exists (S k), x', y'. split; [lia|]. split; [lia|]. tauto.
  - assert (H' : Some (Some (x, y)) = Some (Some (u', l'))) by (destruct fuel; cbn [arc_loop] in H; rewrite C' in H; exact H). injection H' as <- <-.
    apply orb_false_iff in C' as (C1 & C2). apply Nat.leb_gt in C2. exists 1%nat, u, l. split; [lia|]. split; [lia|]. split; [exact E|].
    unfold above_tol in C1. destruct (Rlt_dec _ _) as [?|N]; [discriminate|]. unfold arc_res in N. rewrite force_eq in N. apply Rnot_lt_le. exact N.
Qed.
Lemma solver_exit fuel Dl u0 l0 q u' l' : arc_length_solver fuel Dl u0 l0 q = Some (Some (u', l')) ->
  on_circle Dl u0 l0 q u' l' /\ exists x y, Rabs (out_of_balance q x y) <= / 10 ^ 6 /\ on_tangent q x u' l' /\ out_of_balance q u' l' = - ((u' - x) * (u' - x)).
Proof.
  intros H. apply loop_exit in H as (k & x & y & _ & _ & P & B); [|apply orb_true_r]. apply pass_some in P as (C & T & R & _). split; [exact C|]. exists x, y. tauto.
Qed.
(** more fuel does not change the result *)
Lemma loop_more fuel k Dl u0 l0 q rv step st o : arc_loop fuel Dl u0 l0 q rv step st = Some o -> arc_loop (fuel + k) Dl u0 l0 q rv step st = Some o.
Proof.
  revert rv step st. induction fuel as [|fuel IH]; intros rv step st H; cbn [arc_loop Nat.add] in *.
  - destruct (above_tol rv || _) eqn:C; [discriminate|]. destruct k; cbn [arc_loop]; rewrite C; exact H.
  - destruct (above_tol rv || _); [|exact H]. destruct st as [[u l]|]; now apply IH.
Qed.
Lemma steps_chain n fuel Dl q st l : arc_steps n fuel Dl q st = Some l -> length l = S n /\ match st with Some p => exists l', l = st :: l' /\ chain Dl q p l' | None => Forall (fun o => o = None) l end.
Proof.
  revert st l. induction n as [|n IH]; intros st l H; cbn [arc_steps] in H.
  - injection H as <-. split; [reflexivity|]. destruct st; [exists []; now split|repeat constructor].
  - destruct st as [[u z]|].
    + destruct (arc_length_solver fuel Dl u z q) as [st'|] eqn:E; [|discriminate]. destruct (arc_steps n fuel Dl q st') as [l'|] eqn:E'; [|discriminate]. injection H as <-. destruct (IH _ _ E') as (L & C). split; [cbn; now rewrite L|]. exists l'. split; [reflexivity|].
      destruct st' as [[u' z']|].
      * destruct C as (l'' & -> & C). cbn [chain fst snd]. split; [|exact C]. now apply solver_exit in E.
      * destruct l' as [|o l']; [discriminate|]. inversion C as [|? ? EO FO]. subst. exact FO.
    + destruct (arc_steps n fuel Dl q None) as [l'|] eqn:E'; [|discriminate]. injection H as <-. destruct (IH _ _ E') as (L & C). split; [cbn; now rewrite L|]. constructor; auto.
Qed.
