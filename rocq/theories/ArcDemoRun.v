(** Lemmas for C107: the first step of the demonstration converges. *)
From Coq Require Import Reals List Arith Lia Lra Psatz Bool.
From Verif Require Import ArcDemo SpecArcDemo ArcDemoMain.
Import ListNotations.
Local Open Scope R_scope.

Lemma abs_le x a : Rabs x <= a <-> - a <= x <= a.
Proof. unfold Rabs. destruct (Rcase_abs x); lra. Qed.
Definition bal (u l : R) : R := u - u * u - l.
Lemma bal_eq u l : out_of_balance (-1) u l = bal u l. Proof. unfold out_of_balance, bal, force. ring. Qed.
(** one pass with explicit coefficients; i is the inverse of the slope *)
Lemma pass_demo u l i : (1 - 2 * u) * i = 1 -> let b := - bal u l * i in let a1 := i * i + 1 in let a2 := 2 * (u + b) * i + 2 * l in let a3 := (u + b) * (u + b) + l * l - / 25 in
  0 <= a2 * a2 - 4 * a1 * a3 -> exists d, 2 * a1 * d + a2 = sqrt (a2 * a2 - 4 * a1 * a3) /\ a1 * (d * d) + a2 * d + a3 = 0 /\ arc_pass (/ 5) 0 0 (-1) u l = Some (u + (b + d * i), l + d).
Proof.
  intros HI b a1 a2 a3 HD. assert (NA : 1 - 2 * u <> 0) by (intros E; rewrite E in HI; lra). assert (EI : i = / (1 - 2 * u)) by (apply (Rmult_eq_reg_l (1 - 2 * u)); [rewrite Rinv_r by exact NA; exact HI|exact NA]).
  pose proof (pass_eq (/ 5) 0 0 (-1) u l NA ltac:(lra)) as P. cbn zeta in P. rewrite bal_eq in P.
  replace (- bal u l / (1 - 2 * u)) with b in P by (unfold b, Rdiv; rewrite EI; ring). replace (- -1 / (1 - 2 * u)) with i in P by (unfold Rdiv; rewrite EI; ring).
  replace (i ^ 2 + 1 ^ 2 * (-1) ^ 2) with a1 in P by (unfold a1; ring). replace (2 * (u - 0 + b) * i + 2 * 1 ^ 2 * (l - 0) * (-1) ^ 2) with a2 in P by (unfold a2; ring).
  replace ((u - 0 + b) ^ 2 + 1 ^ 2 * (l - 0) ^ 2 * (-1) ^ 2 - (/ 5) ^ 2) with a3 in P by (unfold a3; field). replace (a2 ^ 2 - 4 * a1 * a3) with (a2 * a2 - 4 * a1 * a3) in P by ring.
  assert (P1 : 0 < a1) by (unfold a1; nra).
  set (s := sqrt (a2 * a2 - 4 * a1 * a3)) in *. pose proof (sqrt_sqrt _ HD) as SS. fold s in SS.
  exists ((- a2 + s) / (2 * a1)). split; [field; lra|]. split; [|exact (P HD)].
  replace (a1 * ((- a2 + s) / (2 * a1) * ((- a2 + s) / (2 * a1))) + a2 * ((- a2 + s) / (2 * a1)) + a3) with ((s * s - (a2 * a2 - 4 * a1 * a3)) / (4 * a1)) by (field; lra). rewrite SS. field. lra.
Qed.
Definition good (u l : R) : Prop := u * u + l * l = / 25 /\ 0 <= u /\ 0 <= l.
Lemma good_bounds u l : good u l -> Rabs (bal u l) <= / 20 -> / 10 <= u <= / 5 /\ / 20 <= l <= / 5.
Proof.
  intros (C & U & L) B. unfold bal in B. apply abs_le in B.
  assert (U5 : u <= / 5) by nra. assert (L5 : l <= / 5) by nra. split; split; try assumption.
  - destruct (Rle_dec (/ 10) u) as [H|H]; [exact H|]. exfalso. assert (17 / 100 <= l) by nra. nra.
  - destruct (Rle_dec (/ 20) l) as [H|H]; [exact H|]. exfalso. assert (19 / 100 <= u) by nra. nra.
Qed.

Lemma contract u l : good u l -> Rabs (bal u l) <= / 2000 -> exists u' l', arc_pass (/ 5) 0 0 (-1) u l = Some (u', l') /\ good u' l' /\ Rabs (bal u' l') <= 64 * (bal u l * bal u l).
Proof.
  intros G B. destruct (good_bounds u l G ltac:(lra)) as ((U1 & U2) & (L1 & L2)). destruct G as (C & U0 & L0). set (r := bal u l) in *.
  set (p := Rabs r) in *. assert (P0 : 0 <= p) by apply Rabs_pos. assert (RR : - p <= r <= p) by (apply abs_le; unfold p; lra). assert (PP : r * r = p * p) by (unfold p; rewrite <- Rabs_mult, Rabs_pos_eq; [reflexivity|nra]). rewrite PP. clearbody p.
  set (A := 1 - 2 * u). assert (A1 : 3 / 5 <= A <= 4 / 5) by (unfold A; lra). set (i := / A). assert (AI : A * i = 1) by (unfold i; apply Rinv_r; lra).
  assert (I1 : 1 <= i) by nra. assert (I2 : i <= 5 / 3) by nra. clearbody i.
  pose proof (pass_demo u l i AI) as PD. cbn zeta in PD. fold r in PD.
  set (b := - r * i) in *. assert (B1 : - (5 / 3 * p) <= b <= 5 / 3 * p) by (unfold b; split; nra). 
  set (a1 := i * i + 1) in *. assert (A11 : 2 <= a1 <= 34 / 9) by (unfold a1; split; nra).
  set (a2 := 2 * (u + b) * i + 2 * l) in *.
  assert (UL : / 5 <= u + l) by nra.
  assert (A2 : 39 / 100 <= a2). { unfold a2. assert (2 * u <= 2 * u * i) by nra. assert (- (2 * b * i) <= 6 * p) by nra. nra. }
  assert (A2' : a2 <= 2) by (unfold a2; nra).
  set (a3 := (u + b) * (u + b) + l * l - / 25) in *. assert (E3 : a3 = b * (2 * u + b)) by (unfold a3; lra).
  assert (A3 : - (7 / 10 * p) <= a3 <= 7 / 10 * p). { rewrite E3. assert (0 <= 2 * u + b <= 41 / 100) by lra. split; nra. }
  clearbody a3. clearbody a1.
  assert (DI : 0 <= a2 * a2 - 4 * a1 * a3). { assert (a1 * a3 <= 27 / 10 * p) by nra. nra. }
  destruct (PD DI) as (d & D1 & D2 & PS). clear PD. pose proof (sqrt_pos (a2 * a2 - 4 * a1 * a3)) as SP. rewrite <- D1 in SP.
  assert (K : 19 / 100 <= a1 * d + a2) by lra. assert (KD : d * (a1 * d + a2) = - a3) by (replace (d * (a1 * d + a2)) with (a1 * (d * d) + a2 * d) by ring; lra).
  assert (D : - (37 / 10 * p) <= d <= 37 / 10 * p) by (split; nra).
  exists (u + (b + d * i)), (l + d). split; [exact PS|].
  set (w := b + d * i). assert (W : - (8 * p) <= w <= 8 * p) by (unfold w; split; nra).
  apply pass_some in PS as (CC & _ & RB & _). rewrite bal_eq in RB. split.
  - split; [|split; [fold w; lra|lra]]. unfold on_circle in CC. fold w in CC. nra.
  - fold w in RB. rewrite RB. rewrite Rabs_Ropp, Rabs_pos_eq by nra. replace (u + w - u) with w by ring. nra.
Qed.

(** the first two passes *)
Definition s2 : R := sqrt (/ 50).
Lemma s2_bounds : s2 * s2 = / 50 /\ 1414 / 10000 <= s2 <= 1415 / 10000.
Proof.
  assert (E : s2 * s2 = / 50) by (apply sqrt_sqrt; lra). split; [exact E|]. pose proof (sqrt_pos (/ 50)) as P. fold s2 in P. split; nra.
Qed.
Lemma first : arc_pass (/ 5) 0 0 (-1) 0 0 = Some (s2, s2).
Proof.
  destruct s2_bounds as (E & B1 & B2). pose proof (pass_demo 0 0 1 ltac:(ring)) as P. cbn zeta in P. unfold bal in P.
  destruct P as (d & D1 & D2 & PS); [lra|]. pose proof (sqrt_pos ((2 * (0 + - (0 - 0 * 0 - 0) * 1) * 1 + 2 * 0) * (2 * (0 + - (0 - 0 * 0 - 0) * 1) * 1 + 2 * 0) - 4 * (1 * 1 + 1) * ((0 + - (0 - 0 * 0 - 0) * 1) * (0 + - (0 - 0 * 0 - 0) * 1) + 0 * 0 - / 25))) as SP. rewrite <- D1 in SP.
  assert (d = s2) as -> by nra. rewrite PS. do 2 f_equal; ring.
Qed.
Lemma second : exists u l, arc_pass (/ 5) 0 0 (-1) s2 s2 = Some (u, l) /\ good u l /\ Rabs (bal u l) <= / 2000.
Proof.
  destruct s2_bounds as (E & B1 & B2). set (A := 1 - 2 * s2). assert (A1 : 717 / 1000 <= A <= 7172 / 10000) by (unfold A; lra). set (i := / A). assert (AI : A * i = 1) by (unfold i; apply Rinv_r; lra).
  assert (I1 : 1394 / 1000 <= i) by nra. assert (I2 : i <= 1395 / 1000) by nra. clearbody i.
  pose proof (pass_demo s2 s2 i AI) as PD. cbn zeta in PD. assert (BE : bal s2 s2 = - / 50) by (unfold bal; lra). rewrite BE in PD.
  set (b := - - / 50 * i) in *. assert (Bb : 2788 / 100000 <= b <= 279 / 10000) by (unfold b; lra). clearbody b.
  set (a1 := i * i + 1) in *. assert (A11 : 2943 / 1000 <= a1 <= 2947 / 1000) by (unfold a1; split; nra). clearbody a1.
  set (v := s2 + b) in *. assert (V : 16928 / 100000 <= v <= 1694 / 10000) by (unfold v; lra).
  set (a2 := 2 * v * i + 2 * s2) in *. assert (A2 : 754 / 1000 <= a2 <= 757 / 1000) by (unfold a2; split; nra).
  set (a3 := v * v + s2 * s2 - / 25) in *. assert (A3 : 86 / 10000 <= a3 <= 871 / 100000) by (unfold a3; rewrite E; split; nra). clearbody a3.
  assert (T : 253 / 10000 <= a1 * a3 <= 257 / 10000) by (split; nra).
  assert (DI : 46 / 100 <= a2 * a2 - 4 * a1 * a3 <= 48 / 100) by (split; nra).
  destruct (PD ltac:(lra)) as (d & D1 & D2 & PS). clear PD. assert (SB : 67 / 100 <= sqrt (a2 * a2 - 4 * a1 * a3) <= 70 / 100).
  { pose proof (sqrt_pos (a2 * a2 - 4 * a1 * a3)) as SP. pose proof (sqrt_sqrt (a2 * a2 - 4 * a1 * a3) ltac:(lra)) as SS. split; nra. }
  rewrite <- D1 in SB. assert (D : - (15 / 1000) <= d <= - (9 / 1000)) by (split; nra).
  exists (s2 + (b + d * i)), (s2 + d). split; [exact PS|]. set (w := b + d * i). assert (W : - (2 / 100) <= w <= 2 / 100) by (unfold w; split; nra).
  apply pass_some in PS as (CC & _ & RB & _). rewrite bal_eq in RB. fold w in CC, RB. split.
  - split; [|split; lra]. unfold on_circle in CC. nra.
  - rewrite RB. rewrite Rabs_Ropp, Rabs_pos_eq by nra. replace (s2 + w - s2) with w by ring. nra.
Qed.
Lemma above_eq u l : above_tol (Some (arc_res (-1) u l)) = if Rlt_dec (/ 10 ^ 6) (Rabs (bal u l)) then true else false.
Proof. unfold above_tol, arc_res. rewrite force_eq. fold (out_of_balance (-1) u l). now rewrite bal_eq. Qed.
(** the state after a pass from a state with the residual x *)
Definition after (x u l : R) : Prop := good u l /\ Rabs (bal u l) <= 64 * (x * x) /\ Rabs (bal u l) <= / 2000.
Lemma leave fuel x u l step : (2 <= step)%nat -> 0 <= x -> after x u l -> (if Rlt_dec (/ 10 ^ 6) x then true else false) = false ->
  arc_loop fuel (/ 5) 0 0 (-1) (Some x) step (Some (u, l)) = Some (Some (u, l)) /\ Rabs (bal u l) <= / 10 ^ 6.
Proof.
  intros S X (G & B & _) H. split.
  - destruct fuel; cbn [arc_loop above_tol]; rewrite H; replace (step <=? 1)%nat with false by (symmetry; apply Nat.leb_gt; lia); reflexivity.
  - destruct (Rlt_dec _ _) as [?|N]; [discriminate|]. nra.
Qed.
Lemma go fuel x u l step : (2 <= step)%nat -> 0 <= x -> after x u l -> (forall u' l', after (Rabs (bal u l)) u' l' -> exists u'' l'', arc_loop fuel (/ 5) 0 0 (-1) (Some (Rabs (bal u l))) (S step) (Some (u', l')) = Some (Some (u'', l'')) /\ good u'' l'' /\ Rabs (bal u'' l'') <= / 10 ^ 6) ->
  exists u'' l'', arc_loop (S fuel) (/ 5) 0 0 (-1) (Some x) step (Some (u, l)) = Some (Some (u'', l'')) /\ good u'' l'' /\ Rabs (bal u'' l'') <= / 10 ^ 6.
Proof.
  intros ST X H N. destruct (Rlt_dec (/ 10 ^ 6) x) as [C|C] eqn:EC.
  - destruct H as (G & _ & B). destruct (contract u l G B) as (u' & l' & P & G' & B').
    assert (AF : after (Rabs (bal u l)) u' l').
    { split; [exact G'|]. assert (SQ : Rabs (bal u l) * Rabs (bal u l) = bal u l * bal u l) by (rewrite <- Rabs_mult, Rabs_pos_eq; [reflexivity|nra]). rewrite SQ. split; [exact B'|]. apply abs_le in B. nra. }
    destruct (N u' l' AF) as (u'' & l'' & E & R). exists u'', l''. split; [|exact R]. cbn [arc_loop above_tol]. rewrite EC, P. cbn [orb]. unfold arc_res. rewrite force_eq. fold (out_of_balance (-1) u l). rewrite bal_eq. exact E.
  - destruct (leave (S fuel) x u l step ST X H) as (E & R); [now rewrite EC|]. exists u, l. split; [exact E|]. split; [exact (proj1 H)|exact R].
Qed.
Lemma demo : exists u l, arc_length_solver 6 (/ 5) 0 0 (-1) = Some (Some (u, l)) /\ good u l /\ Rabs (bal u l) <= / 10 ^ 6.
Proof.
  destruct second as (u2 & l2 & P2 & G2 & B2). destruct s2_bounds as (E & _).
  assert (BS : Rabs (bal s2 s2) = / 50) by (unfold bal; rewrite E; replace (s2 - / 50 - s2) with (- / 50) by ring; rewrite Rabs_Ropp, Rabs_pos_eq; lra).
  assert (EQ : arc_length_solver 6 (/ 5) 0 0 (-1) = arc_loop 4 (/ 5) 0 0 (-1) (Some (/ 50)) 2 (Some (u2, l2))).
  { unfold arc_length_solver. do 2 (cbn [arc_loop]; rewrite orb_true_r). rewrite first, P2. unfold arc_res at 1. rewrite force_eq. fold (out_of_balance (-1) s2 s2). now rewrite bal_eq, BS. }
  rewrite EQ. apply go; [lia|lra|split; [exact G2|split; [lra|exact B2]]|]. intros u3 l3 A3.
  apply go; [lia|apply Rabs_pos|exact A3|]. intros u4 l4 A4. apply go; [lia|apply Rabs_pos|exact A4|]. intros u5 l5 A5.
  assert (T3 : Rabs (bal u3 l3) <= / 60000) by (destruct A3 as (_ & X & _); pose proof (Rabs_pos (bal u2 l2)); nra).
  assert (T4 : Rabs (bal u4 l4) <= / 10 ^ 7) by (destruct A4 as (_ & X & _); pose proof (Rabs_pos (bal u3 l3)); nra).
  assert (H : (if Rlt_dec (/ 10 ^ 6) (Rabs (bal u4 l4)) then true else false) = false) by (destruct (Rlt_dec _ _); [lra|reflexivity]).
  destruct (leave 1 (Rabs (bal u4 l4)) u5 l5 5 ltac:(lia) (Rabs_pos _) A5 H) as (E5 & R5). exists u5, l5. split; [exact E5|]. split; [exact (proj1 A5)|exact R5].
Qed.
