(** Proofs for C100: passes and runs. *)
From Coq Require Import List Arith Bool Reals Lia Lra.
From Verif Require Import Num Fe Problem ProblemFacts DerivFacts ElasticFacts Dendrite SpecDendrite DendriteAngle DendriteFd SpecDendriteFd DendriteFdFacts.
Import ListNotations.
Local Open Scope R_scope.

Section Run.
  Variables (nx ny : nat) (P : dn_params) (hx hy : R) (chi : grid).
  Local Notation pass := (fd_pass nx ny P hx hy chi).
  Local Notation loop := (fd_loop nx ny P hx hy chi).
  Local Notation e2 p := (fd_grad nx ny (wid2 nx ny P hx hy p) hx hy).
  Lemma pass_captures baked p T : fst (pass baked p T) = Some (jit_captured baked (e2 p)).
  Proof. reflexivity. Qed.
  Hypothesis HX : (3 <= nx)%nat.
  Hypothesis HY : (3 <= ny)%nat.
  Lemma pass_step baked q p T : jit_captured baked (e2 p) = e2 q -> frozen_step nx ny P hx hy q chi p T (fst (snd (pass baked p T))) (snd (snd (pass baked p T))).
  Proof.
    intros E. assert (PI' : forall i j, inner nx ny i j -> fst (snd (pass baked p T)) i j = p i j + dt P / tau P * rhs nx ny P hx hy q p T chi i j).
    { intros i j I. unfold fd_pass. cbn [fd_grad fst snd]. rewrite bc_inner by exact I.
      change (jit_captured baked _) with (jit_captured baked (e2 p)). rewrite E. unfold phase_field. cbv zeta. unfold rhs.
      pose proof (grad_inner nx ny p hx hy i j I) as [G1 G2].
      pose proof (grad_inner nx ny (wid2 nx ny P hx hy q) hx hy i j I) as [G3 G4].
      pose proof (grad_inner nx ny (fun i j => wid nx ny P hx hy p i j * wid' nx ny P hx hy p i j * gy nx ny hx hy p i j) hx hy i j I) as [G5 _].
      pose proof (grad_inner nx ny (fun i j => wid nx ny P hx hy p i j * wid' nx ny P hx hy p i j * gx nx ny hx hy p i j) hx hy i j I) as [_ G6].
      rewrite <- G1, <- G2, <- G3, <- G4, <- G5, <- G6, <- (laplace_inner nx ny p hx hy i j I). unfold driving, wid2, wid, wid', dir, gx, gy. cbn [fd_grad fst snd]. lra. }
    split; [|split; [|split]].
    - exact (bc_mirrored nx ny _ HX HY).
    - exact (bc_mirrored nx ny _ HX HY).
    - exact PI'.
    - intros i j I. pose proof (laplace_inner nx ny T hx hy i j I) as L. rewrite <- L. transitivity (T_field nx ny P hx hy T (fun i j => fst (snd (pass baked p T)) i j - p i j) i j); [exact (bc_inner nx ny _ i j I)|]. reflexivity.
  Qed.
  (** every pass of a run uses what the first has captured *)
  Theorem loop_frozen : forall n q p T baked, jit_captured baked (e2 p) = e2 q -> let l := loop n baked p T in List.length l = n /\
    forall k, (k < n)%nat -> frozen_step nx ny P hx hy q chi (fst (nth k ((p, T) :: l) (p, T))) (snd (nth k ((p, T) :: l) (p, T))) (fst (nth k l (p, T))) (snd (nth k l (p, T))).
  Proof.
    induction n as [|n IH]; intros q p T baked E; [split; [reflexivity|intros; lia]|]. cbv zeta.
    pose proof (pass_step baked q p T E) as ST. pose proof (pass_captures baked p T) as CA. cbn [fd_loop]. destruct (pass baked p T) as [b [p' T']] eqn:EP. cbn [fst snd] in ST, CA.
    specialize (IH q p' T' b). rewrite CA, E in IH. specialize (IH eq_refl). cbv zeta in IH. rewrite CA, E. destruct IH as [L IH]. split; [cbn [List.length]; now rewrite L|].
    intros [|k] Hk; [exact ST|]. cbn [nth]. specialize (IH k ltac:(lia)). revert IH. rewrite !(nth_indep _ (p', T') (p, T)); auto; cbn [List.length]; rewrite ?L; lia.
  Qed.
  (** ** heat *)
  Lemma inner_heat q p T p' T' : mirrored nx ny T -> frozen_step nx ny P hx hy q chi p T p' T' ->
    inner_sum nx ny (fun i j => T' i j - K_lat P * p' i j) = inner_sum nx ny (fun i j => T i j - K_lat P * p i j).
  Proof.
    intros M (_ & _ & _ & HT). unfold inner_sum. rewrite (Rsum_ext _ _ (fun i => sum_n (K := Rops) (ny - 2) (fun j => (T (S i) (S j) - K_lat P * p (S i) (S j)) + dt P * fd_laplace nx ny T hx hy (S i) (S j)))).
    - rewrite (sum2_plus _ _ (fun i j => T (S i) (S j) - K_lat P * p (S i) (S j)) (fun i j => dt P * fd_laplace nx ny T hx hy (S i) (S j))). rewrite (sum2_mul _ _ (dt P) (fun i j => fd_laplace nx ny T hx hy (S i) (S j))).
      pose proof (laplace_inner_total nx ny T hx hy ltac:(lia) ltac:(lia) M) as Z. unfold inner_sum in Z. rewrite Z. req; ring.
    - intros i Hi. apply Rsum_ext. intros j Hj. assert (I : inner nx ny (S i) (S j)) by (repeat split; lia). rewrite (HT _ _ I), (laplace_inner nx ny T hx hy _ _ I). ring.
  Qed.
  Theorem run_heat n p T : mirrored nx ny T -> forall s, In s (loop n None p T) -> inner_sum nx ny (fun i j => snd s i j - K_lat P * fst s i j) = inner_sum nx ny (fun i j => T i j - K_lat P * p i j).
  Proof.
    intros M s I. destruct (loop_frozen n p p T None eq_refl) as [L F]. set (l := loop n None p T) in *.
    assert (H : forall k, (k <= n)%nat -> let s := nth k ((p, T) :: l) (p, T) in mirrored nx ny (snd s) /\ inner_sum nx ny (fun i j => snd s i j - K_lat P * fst s i j) = inner_sum nx ny (fun i j => T i j - K_lat P * p i j)).
    { induction k as [|k IHk]; intros Hk; [split; [exact M|reflexivity]|]. specialize (IHk ltac:(lia)). cbv zeta in IHk |- *. destruct IHk as [MK EK]. specialize (F k ltac:(lia)). split; [exact (proj1 (proj2 F))|].
      rewrite <- EK. exact (inner_heat _ _ _ _ _ MK F). }
    apply In_nth with (d := (p, T)) in I as (k & Hk & <-). rewrite L in Hk. exact (proj2 (H (S k) ltac:(lia))).
  Qed.
End Run.

(** ** states that never change *)
Section Steady.
  Variables (nx ny : nat) (P : dn_params) (hx hy : R) (chi : grid).
  Lemma const_shift (m : grid) c : (forall i j, m i j = c) -> forall i j, neg_x m i j = c /\ pos_x nx m i j = c /\ neg_y m i j = c /\ pos_y ny m i j = c.
  Proof. intros H i j. unfold neg_x, pos_x, neg_y, pos_y. destruct i, j, (_ =? nx - 1)%nat, (_ =? ny - 1)%nat; auto. Qed.
  Lemma const_grad m c : (forall i j, m i j = c) -> forall i j, fst (fd_grad nx ny m hx hy) i j = 0 /\ snd (fd_grad nx ny m hx hy) i j = 0.
  Proof. intros H i j. destruct (const_shift m c H i j) as (A & B & C & D). unfold fd_grad. cbn [fst snd]. rewrite A, B, C, D. unfold Rdiv. split; ring. Qed.
  Lemma const_laplace m c : (forall i j, m i j = c) -> forall i j, fd_laplace nx ny m hx hy i j = 0.
  Proof. intros H i j. destruct (const_shift m c H i j) as (A & B & C & D). unfold fd_laplace. rewrite A, B, C, D, H. unfold Rdiv. ring. Qed.
  Lemma const_bc m c : (forall i j, m i j = c) -> forall i j, zero_flux_BC nx ny m i j = c.
  Proof. intros H i j. unfold zero_flux_BC. destruct (j =? ny - 1)%nat, (i =? nx - 1)%nat; cbn; repeat match goal with |- context [if ?b then _ else _] => destruct b end; auto. Qed.
  (** a pass from constant fields: only reaction and noise act *)
  Lemma const_pass baked p T x : (forall i j, p i j = x) -> let c := jit_captured baked (fd_grad nx ny (wid2 nx ny P hx hy p) hx hy) in
    forall i j, phase_field nx ny P (fst c) (snd c) chi hx hy (wid nx ny P hx hy p) (wid' nx ny P hx hy p) (gx nx ny hx hy p) (gy nx ny hx hy p) p T i j
      = x + dt P / tau P * (x * (1 - x) * (x - / 2 + driving P (T i j)) + a_noise P * x * (1 - x) * chi i j).
  Proof.
    intros HP c i j. assert (G : forall i j, gx nx ny hx hy p i j = 0 /\ gy nx ny hx hy p i j = 0) by exact (const_grad p x HP).
    unfold phase_field. cbv zeta. rewrite (const_laplace p x HP).
    assert (Z1 : forall a b, wid nx ny P hx hy p a b * wid' nx ny P hx hy p a b * gy nx ny hx hy p a b = 0) by (intros a b; rewrite (proj2 (G a b)); ring).
    assert (Z2 : forall a b, wid nx ny P hx hy p a b * wid' nx ny P hx hy p a b * gx nx ny hx hy p a b = 0) by (intros a b; rewrite (proj1 (G a b)); ring).
    rewrite (proj1 (const_grad _ 0 Z1 i j)), (proj2 (const_grad _ 0 Z2 i j)), (proj1 (G i j)), (proj2 (G i j)), HP. unfold driving. replace (5 / 10) with (/ 2) by lra. ring.
  Qed.
  Lemma steady_pass baked p T x y : x = 0 \/ x = 1 -> (forall i j, p i j = x) -> (forall i j, T i j = y) ->
    (forall i j, fst (snd (fd_pass nx ny P hx hy chi baked p T)) i j = x) /\ (forall i j, snd (snd (fd_pass nx ny P hx hy chi baked p T)) i j = y).
  Proof.
    intros X HP HT. assert (HP' : forall i j, fst (snd (fd_pass nx ny P hx hy chi baked p T)) i j = x).
    { intros i j. refine (const_bc _ x _ i j). intros a b. pose proof (const_pass baked p T x HP a b) as C. cbv zeta in C. refine (eq_trans C _). destruct X as [->| ->]; ring. }
    split; [exact HP'|]. intros i j. refine (const_bc _ y _ i j). intros a b. transitivity (T_field nx ny P hx hy T (fun i j => fst (snd (fd_pass nx ny P hx hy chi baked p T)) i j - p i j) a b); [reflexivity|].
    unfold T_field. rewrite (const_laplace T y HT), HT, HP', HP. ring.
  Qed.
  Theorem steady_run n : forall baked p T x y, x = 0 \/ x = 1 -> (forall i j, p i j = x) -> (forall i j, T i j = y) ->
    forall s, In s (fd_loop nx ny P hx hy chi n baked p T) -> forall i j, fst s i j = x /\ snd s i j = y.
  Proof.
    induction n as [|n IH]; intros baked p T x y X HP HT s I; [contradiction|]. cbn [fd_loop] in I. destruct (steady_pass baked p T x y X HP HT) as [A B]. destruct (fd_pass nx ny P hx hy chi baked p T) as [b [p' T']]. cbn [fst snd] in A, B.
    destruct I as [<-|I]; [intros i j; split; [apply A|apply B]|]. exact (IH b p' T' x y X A B s I).
  Qed.
End Steady.

(** ** maximum principle of the heat step *)
Section Maximum.
  Variables (nx ny : nat) (P : dn_params) (hx hy : R).
  Lemma shift_bound (m : grid) lo hi : (forall i j, on_grid nx ny i j -> lo <= m i j <= hi) -> forall i j, on_grid nx ny i j ->
    lo <= neg_x m i j <= hi /\ lo <= pos_x nx m i j <= hi /\ lo <= neg_y m i j <= hi /\ lo <= pos_y ny m i j <= hi.
  Proof.
    intros H i j (Hi & Hj). unfold neg_x, pos_x, neg_y, pos_y. split; [|split; [|split]].
    - destruct i; apply H; split; lia.
    - destruct (Nat.eqb_spec i (nx - 1)); apply H; split; lia.
    - destruct j; apply H; split; lia.
    - destruct (Nat.eqb_spec j (ny - 1)); apply H; split; lia.
  Qed.
  Theorem heat_maximum (T d : grid) lo hi d0 d1 : hx <> 0 -> hy <> 0 -> 0 <= dt P -> dt P * (2 / hx ^ 2 + 2 / hy ^ 2) <= 1 -> 0 <= K_lat P ->
    (forall i j, on_grid nx ny i j -> lo <= T i j <= hi) -> (forall i j, on_grid nx ny i j -> d0 <= d i j <= d1) ->
    forall i j, on_grid nx ny i j -> lo + K_lat P * d0 <= T_field nx ny P hx hy T d i j <= hi + K_lat P * d1.
  Proof.
    intros X0 Y0 DP CFL KP HT HD i j O. unfold T_field, fd_laplace. destruct (shift_bound T lo hi HT i j O) as (A & B & C & D). specialize (HT i j O). specialize (HD i j O).
    assert (AX : 0 < / hx ^ 2) by (apply Rinv_0_lt_compat; nra). assert (AY : 0 < / hy ^ 2) by (apply Rinv_0_lt_compat; nra).
    unfold Rdiv in *. set (ax := / hx ^ 2) in *. set (ay := / hy ^ 2) in *. set (t := T i j) in *.
    replace (t + dt P * ((neg_x T i j + pos_x nx T i j - 2 * t) * ax + (neg_y T i j + pos_y ny T i j - 2 * t) * ay) + K_lat P * d i j)
      with ((1 - dt P * (2 * ax + 2 * ay)) * t + (dt P * ax) * (neg_x T i j + pos_x nx T i j) + (dt P * ay) * (neg_y T i j + pos_y ny T i j) + K_lat P * d i j) by ring.
    assert (W0 : 0 <= 1 - dt P * (2 * ax + 2 * ay)) by lra. assert (W1 : 0 <= dt P * ax) by nra. assert (W2 : 0 <= dt P * ay) by nra.
    assert (K0 : K_lat P * d0 <= K_lat P * d i j <= K_lat P * d1) by (split; apply Rmult_le_compat_l; lra).
    pose proof (Rmult_le_compat_l _ _ _ W0 (proj1 HT)). pose proof (Rmult_le_compat_l _ _ _ W0 (proj2 HT)).
    assert (S1 : 2 * lo <= neg_x T i j + pos_x nx T i j <= 2 * hi) by lra. assert (S2 : 2 * lo <= neg_y T i j + pos_y ny T i j <= 2 * hi) by lra.
    pose proof (Rmult_le_compat_l _ _ _ W1 (proj1 S1)). pose proof (Rmult_le_compat_l _ _ _ W1 (proj2 S1)). pose proof (Rmult_le_compat_l _ _ _ W2 (proj1 S2)). pose proof (Rmult_le_compat_l _ _ _ W2 (proj2 S2)).
    split; nra.
  Qed.
  Lemma bc_bound (a : grid) lo hi : (3 <= nx)%nat -> (3 <= ny)%nat -> (forall i j, on_grid nx ny i j -> lo <= a i j <= hi) -> forall i j, on_grid nx ny i j -> lo <= zero_flux_BC nx ny a i j <= hi.
  Proof. intros HX HY H i j O. rewrite (bc_clamp nx ny a i j HX HY O). apply H. destruct O. split; lia. Qed.
End Maximum.
(** ** values outside the grid do not matter *)
Section Ext.
  Variables (nx ny : nat) (P : dn_params) (hx hy : R).
  Local Notation same := (same_on nx ny).
  Hypothesis HX : (2 <= nx)%nat. Hypothesis HY : (2 <= ny)%nat.
  Lemma shift_ext m m' : same m m' -> forall i j, on_grid nx ny i j -> neg_x m i j = neg_x m' i j /\ pos_x nx m i j = pos_x nx m' i j /\ neg_y m i j = neg_y m' i j /\ pos_y ny m i j = pos_y ny m' i j.
  Proof.
    intros H i j (Hi & Hj). unfold neg_x, pos_x, neg_y, pos_y. split; [|split; [|split]].
    - destruct i; apply H; split; lia.
    - destruct (Nat.eqb_spec i (nx - 1)); apply H; split; lia.
    - destruct j; apply H; split; lia.
    - destruct (Nat.eqb_spec j (ny - 1)); apply H; split; lia.
  Qed.
  Lemma grad_ext m m' : same m m' -> same (fst (fd_grad nx ny m hx hy)) (fst (fd_grad nx ny m' hx hy)) /\ same (snd (fd_grad nx ny m hx hy)) (snd (fd_grad nx ny m' hx hy)).
  Proof. intros H. split; intros i j O; destruct (shift_ext m m' H i j O) as (A & B & C & D); unfold fd_grad; cbn [fst snd]; congruence. Qed.
  Lemma laplace_ext m m' : same m m' -> same (fd_laplace nx ny m hx hy) (fd_laplace nx ny m' hx hy).
  Proof. intros H i j O. destruct (shift_ext m m' H i j O) as (A & B & C & D). unfold fd_laplace. now rewrite A, B, C, D, (H i j O). Qed.
  Lemma bc_ext m m' : same m m' -> same (zero_flux_BC nx ny m) (zero_flux_BC nx ny m').
  Proof.
    intros H i j (Hi & Hj). unfold zero_flux_BC. destruct (Nat.eqb_spec j (ny - 1)), (Nat.eqb_spec i (nx - 1)); cbn [Nat.eqb];
      repeat match goal with |- context [(?a =? ?b)%nat] => destruct (Nat.eqb_spec a b) end; apply H; split; lia.
  Qed.
  Definition same_opt (a b : option (grid * grid)) : Prop := match a, b with None, None => True | Some x, Some y => same (fst x) (fst y) /\ same (snd x) (snd y) | _, _ => False end.
  Lemma pass_ext chi chi' b b' p p' T T' : same chi chi' -> same_opt b b' -> same p p' -> same T T' ->
    let r := fd_pass nx ny P hx hy chi b p T in let r' := fd_pass nx ny P hx hy chi' b' p' T' in
    same_opt (fst r) (fst r') /\ same (fst (snd r)) (fst (snd r')) /\ same (snd (snd r)) (snd (snd r')).
  Proof.
    intros HC HB HP HT r r'. destruct (grad_ext p p' HP) as [GX GY].
    assert (TH : same (dir nx ny hx hy p) (dir nx ny hx hy p')) by (intros i j O; unfold dir, gx, gy; now rewrite (GX i j O), (GY i j O)).
    assert (W : same (wid nx ny P hx hy p) (wid nx ny P hx hy p')) by (intros i j O; unfold wid; now rewrite (TH i j O)).
    assert (W' : same (wid' nx ny P hx hy p) (wid' nx ny P hx hy p')) by (intros i j O; unfold wid'; now rewrite (TH i j O)).
    assert (W2 : same (wid2 nx ny P hx hy p) (wid2 nx ny P hx hy p')) by (intros i j O; unfold wid2; now rewrite (W i j O)).
    destruct (grad_ext _ _ W2) as [EX EY]. set (c := jit_captured b (fd_grad nx ny (wid2 nx ny P hx hy p) hx hy)). set (c' := jit_captured b' (fd_grad nx ny (wid2 nx ny P hx hy p') hx hy)).
    assert (C : same (fst c) (fst c') /\ same (snd c) (snd c')) by (unfold c, c'; destruct b, b'; cbn in HB |- *; try contradiction; [exact HB|split; [exact EX|exact EY]]). destruct C as [C1 C2].
    assert (Q1 : same (fun i j => wid nx ny P hx hy p i j * wid' nx ny P hx hy p i j * gy nx ny hx hy p i j) (fun i j => wid nx ny P hx hy p' i j * wid' nx ny P hx hy p' i j * gy nx ny hx hy p' i j)) by (intros i j O; unfold gy; now rewrite (W i j O), (W' i j O), (GY i j O)).
    assert (Q2 : same (fun i j => wid nx ny P hx hy p i j * wid' nx ny P hx hy p i j * gx nx ny hx hy p i j) (fun i j => wid nx ny P hx hy p' i j * wid' nx ny P hx hy p' i j * gx nx ny hx hy p' i j)) by (intros i j O; unfold gx; now rewrite (W i j O), (W' i j O), (GX i j O)).
    assert (PN : same (fst (snd r)) (fst (snd r'))).
    { refine (bc_ext _ _ _). intros i j O. pose proof (proj1 (grad_ext _ _ Q1) i j O) as E1. pose proof (proj2 (grad_ext _ _ Q2) i j O) as E2. pose proof (laplace_ext p p' HP i j O) as E3.
      change (phase_field nx ny P (fst c) (snd c) chi hx hy (wid nx ny P hx hy p) (wid' nx ny P hx hy p) (gx nx ny hx hy p) (gy nx ny hx hy p) p T i j
        = phase_field nx ny P (fst c') (snd c') chi' hx hy (wid nx ny P hx hy p') (wid' nx ny P hx hy p') (gx nx ny hx hy p') (gy nx ny hx hy p') p' T' i j).
      unfold phase_field. cbv zeta. unfold gx, gy in *. rewrite E1, E2, E3, (C1 i j O), (C2 i j O), (W i j O), (GX i j O), (GY i j O), (HP i j O), (HT i j O), (HC i j O). reflexivity. }
    split; [exact (conj C1 C2)|]. split; [exact PN|]. refine (bc_ext _ _ _). intros i j O. pose proof (laplace_ext T T' HT i j O) as E3.
    change (T i j + dt P * fd_laplace nx ny T hx hy i j + K_lat P * (fst (snd r) i j - p i j) = T' i j + dt P * fd_laplace nx ny T' hx hy i j + K_lat P * (fst (snd r') i j - p' i j)).
    now rewrite E3, (HT i j O), (HP i j O), (PN i j O).
  Qed.
  Theorem run_ext n : forall chi chi' b b' p p' T T', same chi chi' -> same_opt b b' -> same p p' -> same T T' ->
    Forall2 (fun s s' => same (fst s) (fst s') /\ same (snd s) (snd s')) (fd_loop nx ny P hx hy chi n b p T) (fd_loop nx ny P hx hy chi' n b' p' T').
  Proof.
    induction n as [|n IH]; intros chi chi' b b' p p' T T' HC HB HP HT; [constructor|]. cbn [fd_loop]. destruct (pass_ext chi chi' b b' p p' T T' HC HB HP HT) as (A & B & C).
    destruct (fd_pass nx ny P hx hy chi b p T) as [b1 [p1 T1]], (fd_pass nx ny P hx hy chi' b' p' T') as [b2 [p2 T2]]. cbn [fst snd] in A, B, C. constructor; [split; assumption|]. now apply IH.
  Qed.
End Ext.
Lemma heat_sums nx ny K (p p0 T : grid) : inner_sum nx ny (fun i j => T i j - K * p i j) = inner_sum nx ny (fun i j => 0 - K * p0 i j) ->
  inner_sum nx ny T = K * (inner_sum nx ny p - inner_sum nx ny p0).
Proof.
  intros B. assert (S : forall (g h : grid) c, inner_sum nx ny (fun i j => g i j - c * h i j) = inner_sum nx ny g - c * inner_sum nx ny h).
  { intros g h c. unfold inner_sum. transitivity (sum_n (K := Rops) (nx - 2) (fun i => sum_n (K := Rops) (ny - 2) (fun j => g (S i) (S j) + (- c) * h (S i) (S j)))).
    - apply Rsum_ext. intros i _. apply Rsum_ext. intros j _. ring.
    - rewrite (sum2_plus _ _ (fun i j => g (S i) (S j)) (fun i j => - c * h (S i) (S j))), (sum2_mul _ _ (- c) (fun i j => h (S i) (S j))). req; ring. }
  rewrite S in B. pose proof (S (fun _ _ => 0) p0 K) as S0. cbv beta in S0. rewrite S0 in B. assert (Z : inner_sum nx ny (fun _ _ => 0) = 0) by (apply zsum; intros; now apply zsum). rewrite Z in B. lra.
Qed.
