(** Real numbers extended with +inf, -inf and NaN, with the IEEE 754 rules for
    comparison and arithmetic that Python/NumPy/JAX float64 follow.
    Simplification: no rounding, no overflow of finite numbers, one zero (so
    division of a non-zero number by zero has the sign of the numerator). *)
From Coq Require Import List Arith Lia Bool Reals Lra.
From Verif Require Import Num.
Import ListNotations.
Local Open Scope R_scope.

Inductive xr := Fin (r : R) | PInf | NInf | NaN.

Definition Rltb (a b : R) : bool := if Rlt_dec a b then true else false.
Definition Rleb (a b : R) : bool := if Rle_dec a b then true else false.
Definition Reqb (a b : R) : bool := if Req_EM_T a b then true else false.

(** infinity of the sign of a (NaN if a is zero) *)
Definition inf_sign (a : R) : xr := if Rlt_dec 0 a then PInf else if Rlt_dec a 0 then NInf else NaN.
Definition xopp (x : xr) : xr :=
  match x with Fin a => Fin (- a) | PInf => NInf | NInf => PInf | NaN => NaN end.
Definition xadd (x y : xr) : xr :=
  match x, y with
  | Fin a, Fin b => Fin (a + b)
  | NaN, _ | _, NaN => NaN
  | PInf, NInf | NInf, PInf => NaN
  | PInf, _ | _, PInf => PInf
  | NInf, _ | _, NInf => NInf
  end.
Definition xsub (x y : xr) : xr := xadd x (xopp y).
Definition xmul (x y : xr) : xr :=
  match x, y with
  | Fin a, Fin b => Fin (a * b)
  | NaN, _ | _, NaN => NaN
  | PInf, Fin b | Fin b, PInf => inf_sign b
  | NInf, Fin b | Fin b, NInf => inf_sign (- b)
  | PInf, PInf | NInf, NInf => PInf
  | PInf, NInf | NInf, PInf => NInf
  end.
Definition xdiv (x y : xr) : xr :=
  match x, y with
  | Fin a, Fin b => if Req_EM_T b 0 then inf_sign a else Fin (a / b)
  | NaN, _ | _, NaN => NaN
  | Fin _, PInf | Fin _, NInf => Fin 0
  | PInf, Fin b => if Req_EM_T b 0 then PInf else inf_sign b
  | NInf, Fin b => if Req_EM_T b 0 then NInf else inf_sign (- b)
  | PInf, PInf | NInf, NInf | PInf, NInf | NInf, PInf => NaN
  end.
(** np.sqrt *)
Definition xsqrt (x : xr) : xr :=
  match x with
  | Fin a => if Rlt_dec a 0 then NaN else Fin (sqrt a)
  | PInf => PInf
  | NInf | NaN => NaN
  end.
(** np.abs *)
Definition xabs (x : xr) : xr :=
  match x with Fin a => Fin (Rabs a) | PInf | NInf => PInf | NaN => NaN end.
(** x < y: false as soon as one side is NaN *)
Definition xltb (x y : xr) : bool :=
  match x, y with
  | Fin a, Fin b => Rltb a b
  | NaN, _ | _, NaN => false
  | NInf, NInf | PInf, _ | _, NInf => false
  | NInf, _ | _, PInf => true
  end.
Definition xeqb (x y : xr) : bool :=
  match x, y with
  | Fin a, Fin b => Reqb a b
  | PInf, PInf | NInf, NInf => true
  | _, _ => false
  end.
Definition xgtb (x y : xr) : bool := xltb y x.
Definition xleb (x y : xr) : bool := xltb x y || xeqb x y.
Definition xgeb (x y : xr) : bool := xleb y x.
(** np.isfinite *)
Definition isfinite (x : xr) : bool := match x with Fin _ => true | _ => false end.
Definition isnan (x : xr) : bool := match x with NaN => true | _ => false end.
(** np.maximum, np.minimum: NaN if one argument is NaN *)
Definition xmax (x y : xr) : xr :=
  if isnan x || isnan y then NaN else if xltb x y then y else x.
Definition xmin (x y : xr) : xr :=
  if isnan x || isnan y then NaN else if xltb y x then y else x.

Definition Xops : ops :=
  mkOps xr (Fin 0) (Fin 1) xadd xmul xsub xopp xdiv (xdiv (Fin 1)).
Canonical Xops.

(** np.linalg.norm of a vector *)
Definition xnorm (l : list Xops) : xr := xsqrt (sumK (map (fun x => xmul x x) l)).

Lemma Rltb_true a b : Rltb a b = true <-> a < b.
Proof. unfold Rltb. destruct (Rlt_dec a b); split; intros; congruence || lra. Qed.
Lemma Rltb_false a b : Rltb a b = false <-> b <= a.
Proof. unfold Rltb. destruct (Rlt_dec a b); split; intros; congruence || lra. Qed.
Lemma Rleb_true a b : Rleb a b = true <-> a <= b.
Proof. unfold Rleb. destruct (Rle_dec a b); split; intros; congruence || lra. Qed.
Lemma Rleb_false a b : Rleb a b = false <-> b < a.
Proof. unfold Rleb. destruct (Rle_dec a b); split; intros; congruence || lra. Qed.
Lemma Reqb_true a b : Reqb a b = true <-> a = b.
Proof. unfold Reqb. destruct (Req_EM_T a b); split; intros; congruence || lra. Qed.

Lemma isfinite_ex x : isfinite x = true <-> exists r, x = Fin r.
Proof. destruct x; cbn; split; intros H; eauto; try discriminate; destruct H; discriminate. Qed.

Lemma xadd_fin x y r : xadd x y = Fin r -> exists a b, x = Fin a /\ y = Fin b /\ r = a + b.
Proof. destruct x, y; cbn; try discriminate. injection 1 as <-. eauto. Qed.
Lemma inf_sign_not_fin a r : inf_sign a <> Fin r.
Proof. unfold inf_sign. destruct (Rlt_dec 0 a); [discriminate|]. destruct (Rlt_dec a 0); discriminate. Qed.
Lemma xmul_fin x y r : xmul x y = Fin r -> exists a b, x = Fin a /\ y = Fin b /\ r = a * b.
Proof.
  destruct x, y; cbn; try discriminate; try (intros H; now apply inf_sign_not_fin in H).
  injection 1 as <-. eauto.
Qed.
Lemma xopp_fin x r : xopp x = Fin r -> x = Fin (- r).
Proof. destruct x; cbn; try discriminate. injection 1 as <-. now rewrite Ropp_involutive. Qed.
Lemma xsub_fin x y r : xsub x y = Fin r -> exists a b, x = Fin a /\ y = Fin b /\ r = a - b.
Proof.
  unfold xsub. intros H. apply xadd_fin in H as (a & b & -> & Hb & ->). apply xopp_fin in Hb as ->.
  exists a, (- b). repeat split. lra.
Qed.
Lemma xsqrt_fin x r : xsqrt x = Fin r -> exists a, x = Fin a /\ 0 <= a /\ r = sqrt a.
Proof.
  destruct x; cbn; try discriminate. destruct (Rlt_dec r0 0); [discriminate|]. injection 1 as <-. exists r0.
  repeat split; lra.
Qed.
Lemma sumK_fin (l : list Xops) r : sumK l = Fin r -> Forall (fun x => isfinite x = true) l.
Proof.
  revert r. induction l as [|x l IH]; intros r H; [constructor|]. change (xadd x (sumK l) = Fin r) in H.
  apply xadd_fin in H as (a & b & -> & Hb & _). constructor; [reflexivity|]. eapply IH; eassumption.
Qed.
(** The real value of a finite number *)
Definition to_R (x : xr) : R := match x with Fin a => a | _ => 0 end.
Lemma sumK_Fin (l : list R) : sumK (K := Xops) (map Fin l) = Fin (fold_right Rplus 0 l).
Proof.
  induction l as [|x l IH]; [reflexivity|]. change (xadd (Fin x) (sumK (K := Xops) (map Fin l)) = Fin (x + fold_right Rplus 0 l)).
  rewrite IH. reflexivity.
Qed.
Lemma all_fin_map (l : list xr) : Forall (fun x => isfinite x = true) l -> l = map Fin (map to_R l).
Proof.
  induction 1 as [|x l Hx Hl IH]; [reflexivity|]. cbn [map]. rewrite <- IH. destruct x; try discriminate. reflexivity.
Qed.

(** A finite norm means finite components, each bounded by the norm. *)
Lemma xnorm_fin (l : list Xops) r : xnorm l = Fin r ->
  0 <= r /\ Forall (fun x => isfinite x = true) l /\
  r = sqrt (fold_right Rplus 0 (map (fun a => a * a) (map to_R l))).
Proof.
  unfold xnorm. intros H. apply xsqrt_fin in H as (a & Ha & Pa & ->).
  split; [apply sqrt_pos|].
  assert (F : Forall (fun x => isfinite x = true) l).
  { apply sumK_fin in Ha. rewrite Forall_map in Ha. eapply Forall_impl; [|exact Ha]. intros x Hx. cbn in Hx.
    apply isfinite_ex in Hx as [r Hr]. apply xmul_fin in Hr as (b & c & -> & _). reflexivity. }
  split; [exact F|]. rewrite (all_fin_map l F) in Ha. rewrite map_map in Ha. cbn in Ha.
  rewrite <- (map_map (fun a => a * a) Fin) in Ha. rewrite sumK_Fin in Ha. injection Ha as <-. f_equal.
Qed.
Lemma sum_sq_ge (l : list R) : 0 <= fold_right Rplus 0 (map (fun a => a * a) l).
Proof. induction l as [|x l IH]; cbn; [lra|]. nra. Qed.
Lemma sum_sq_nth (l : list R) i : nth i l 0 * nth i l 0 <= fold_right Rplus 0 (map (fun a => a * a) l).
Proof.
  revert i. induction l as [|x l IH]; intros [|i]; cbn; try lra.
  - pose proof (sum_sq_ge l). lra.
  - specialize (IH i). nra.
Qed.
Lemma xnorm_nth (l : list Xops) r i a : xnorm l = Fin r -> (i < length l)%nat -> nth i l (Fin 0) = Fin a -> Rabs a <= r.
Proof.
  intros H Hi Ha. apply xnorm_fin in H as (P & F & ->).
  rewrite <- (sqrt_Rsqr (Rabs a)) by apply Rabs_pos. apply sqrt_le_1_alt. rewrite <- Rsqr_abs. unfold Rsqr.
  assert (E : nth i (map to_R l) 0 = a).
  { transitivity (to_R (nth i l (Fin 0))); [exact (map_nth to_R l (Fin 0) i)|now rewrite Ha]. }
  rewrite <- E. apply sum_sq_nth.
Qed.
Lemma xnorm_nil : xnorm [] = Fin 0.
Proof. unfold xnorm. cbn. destruct (Rlt_dec 0 0); [lra|]. now rewrite sqrt_0. Qed.

Lemma xnorm_Fin (l : list R) : xnorm (map Fin l) = Fin (sqrt (fold_right Rplus 0 (map (fun a => a * a) l))).
Proof.
  unfold xnorm. rewrite map_map. cbn [xmul]. rewrite <- (map_map (fun a => a * a) Fin), sumK_Fin. cbn [xsqrt].
  destruct (Rlt_dec _ 0); [|reflexivity]. pose proof (sum_sq_ge l). lra.
Qed.
