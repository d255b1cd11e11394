(** Numbers.  The Python code computes with float64 arrays (solver.py:10-11
    enables x64).  The model is written over a record of operations, so that the
    same definitions run on exact integers/rationals (Z, Qc), on the reals R,
    and on reals extended with NaN and infinities (XNum.v).
    Simplification: rounding is not modelled. *)
From Coq Require Import List Arith Lia ZArith QArith Qcanon Field_theory Ring_theory Reals.
Import ListNotations.

Record ops := mkOps {
  car :> Type;
  zero : car;
  one : car;
  add : car -> car -> car;
  mul : car -> car -> car;
  sub : car -> car -> car;
  opp : car -> car;
  div : car -> car -> car;
  inv : car -> car
}.
Arguments zero {o}. Arguments one {o}. Arguments add {o}. Arguments mul {o}.
Arguments sub {o}. Arguments opp {o}. Arguments div {o}. Arguments inv {o}.

Declare Scope num_scope.
Delimit Scope num_scope with num.
Infix "+" := add : num_scope.
Infix "*" := mul : num_scope.
Infix "-" := sub : num_scope.
Infix "/" := div : num_scope.
Notation "- x" := (opp x) : num_scope.
Notation "0" := zero : num_scope.
Notation "1" := one : num_scope.

(** The laws a number structure may satisfy. *)
Definition ring_laws (K : ops) : Prop :=
  ring_theory (@zero K) one add mul sub opp eq.
Definition field_laws (K : ops) : Prop :=
  field_theory (@zero K) one add mul sub opp div inv eq.

Lemma field_ring (K : ops) : field_laws K -> ring_laws K.
Proof. intros H; exact (F_R H). Qed.

Definition Zops : ops := mkOps Z 0%Z 1%Z Z.add Z.mul Z.sub Z.opp Z.div (fun x => (1 / x)%Z).
Definition Qcops : ops := mkOps Qc 0%Qc 1%Qc Qcplus Qcmult Qcminus Qcopp Qcdiv Qcinv.
Definition Rops : ops := mkOps R 0%R 1%R Rplus Rmult Rminus Ropp Rdiv Rinv.

Lemma Zops_ring : ring_laws Zops.
Proof. exact InitialRing.Zth. Qed.

Lemma Qcops_field : field_laws Qcops.
Proof. exact Qcft. Qed.

Lemma Rops_field : field_laws Rops.
Proof. exact RealField.Rfield. Qed.

Lemma Rops_ring : ring_laws Rops.
Proof. exact (field_ring Rops Rops_field). Qed.

Lemma Qcops_ring : ring_laws Qcops.
Proof. exact (field_ring Qcops Qcops_field). Qed.

(** np.sum over a list of numbers. *)
Definition sumK {K : ops} (l : list K) : K := fold_right add zero l.
(** Sum of f over a list of indices. *)
Definition sum_over {K : ops} {A} (l : list A) (f : A -> K) : K := sumK (map f l).
(** Sum of f 0, ..., f (n-1). *)
Definition sum_n {K : ops} (n : nat) (f : nat -> K) : K := sum_over (seq 0 n) f.

Section Sums.
  Context {K : ops} (KR : ring_laws K).
  Open Scope num_scope.
  Let Kth : ring_theory (@zero K) one add mul sub opp eq := KR.
  Add Ring Kring : Kth.

  Lemma sum_over_nil {A} (f : A -> K) : sum_over [] f = 0.
  Proof. reflexivity. Qed.
  Lemma sum_over_cons {A} a (l : list A) (f : A -> K) : sum_over (a :: l) f = f a + sum_over l f.
  Proof. reflexivity. Qed.
  Lemma sumK_app (l1 l2 : list K) : sumK (l1 ++ l2) = sumK l1 + sumK l2.
  Proof.
    induction l1 as [|x l1 IH]; [change (sumK l2 = 0 + sumK l2); ring|].
    change (x + sumK (l1 ++ l2) = x + sumK l1 + sumK l2). rewrite IH; ring.
  Qed.
  Lemma sum_over_app {A} (l1 l2 : list A) (f : A -> K) :
    sum_over (l1 ++ l2) f = sum_over l1 f + sum_over l2 f.
  Proof. unfold sum_over. rewrite map_app. apply sumK_app. Qed.
  Lemma sum_over_ext_in {A} (l : list A) (f g : A -> K) :
    (forall a, In a l -> f a = g a) -> sum_over l f = sum_over l g.
  Proof.
    intros H. unfold sum_over. f_equal. apply map_ext_in. exact H.
  Qed.
  Lemma sum_over_ext {A} (l : list A) (f g : A -> K) :
    (forall a, f a = g a) -> sum_over l f = sum_over l g.
  Proof. intros H. apply sum_over_ext_in. auto. Qed.
  Lemma sum_over_add {A} (l : list A) (f g : A -> K) :
    sum_over l (fun a => f a + g a) = sum_over l f + sum_over l g.
  Proof.
    induction l as [|a l IH]; [rewrite ?sum_over_nil; ring|].
    rewrite !sum_over_cons, IH; ring.
  Qed.
  Lemma sum_over_sub {A} (l : list A) (f g : A -> K) :
    sum_over l (fun a => f a - g a) = sum_over l f - sum_over l g.
  Proof.
    induction l as [|a l IH]; [rewrite ?sum_over_nil; ring|].
    rewrite !sum_over_cons, IH; ring.
  Qed.
  Lemma sum_over_opp {A} (l : list A) (f : A -> K) :
    sum_over l (fun a => - f a) = - sum_over l f.
  Proof.
    induction l as [|a l IH]; [rewrite ?sum_over_nil; ring|].
    rewrite !sum_over_cons, IH; ring.
  Qed.
  Lemma sum_over_zero {A} (l : list A) : sum_over l (fun _ => 0) = @zero K.
  Proof. induction l as [|a l IH]; [reflexivity|]. rewrite sum_over_cons, IH; ring. Qed.
  Lemma sum_over_mul_l {A} c (l : list A) (f : A -> K) :
    sum_over l (fun a => c * f a) = c * sum_over l f.
  Proof.
    induction l as [|a l IH]; [rewrite ?sum_over_nil; ring|].
    rewrite !sum_over_cons, IH; ring.
  Qed.
  Lemma sum_over_mul_r {A} c (l : list A) (f : A -> K) :
    sum_over l (fun a => f a * c) = sum_over l f * c.
  Proof.
    induction l as [|a l IH]; [rewrite ?sum_over_nil; ring|].
    rewrite !sum_over_cons, IH; ring.
  Qed.
  Lemma sum_over_swap {A B} (l : list A) (m : list B) (f : A -> B -> K) :
    sum_over l (fun a => sum_over m (fun b => f a b))
    = sum_over m (fun b => sum_over l (fun a => f a b)).
  Proof.
    induction l as [|a l IH].
    - rewrite sum_over_nil. rewrite <- (sum_over_zero m). apply sum_over_ext. reflexivity.
    - rewrite sum_over_cons, IH, <- sum_over_add. reflexivity.
  Qed.
  Lemma sum_over_map {A B} (g : B -> A) (l : list B) (f : A -> K) :
    sum_over (map g l) f = sum_over l (fun b => f (g b)).
  Proof. unfold sum_over. rewrite map_map. reflexivity. Qed.
  Lemma sum_over_flat_map {A B} (g : B -> list A) (l : list B) (f : A -> K) :
    sum_over (flat_map g l) f = sum_over l (fun b => sum_over (g b) f).
  Proof.
    induction l as [|b l IH]; [reflexivity|].
    cbn [flat_map]. rewrite sum_over_app, sum_over_cons, IH. reflexivity.
  Qed.
  Lemma sum_over_concat {A} (l : list (list A)) (f : A -> K) :
    sum_over (concat l) f = sum_over l (fun b => sum_over b f).
  Proof.
    induction l as [|b l IH]; [reflexivity|].
    cbn [concat]. rewrite sum_over_app, sum_over_cons, IH. reflexivity.
  Qed.
  Lemma sum_n_S n (f : nat -> K) : sum_n (S n) f = sum_n n f + f n.
  Proof.
    unfold sum_n. rewrite seq_S, sum_over_app, sum_over_cons, sum_over_nil. cbn [Nat.add]. ring.
  Qed.
  Lemma sum_n_ext n (f g : nat -> K) : (forall i, (i < n)%nat -> f i = g i) -> sum_n n f = sum_n n g.
  Proof. intros H. apply sum_over_ext_in. intros i Hi. apply in_seq in Hi. apply H. lia. Qed.
  Lemma sum_over_nth {A} (d : A) (l : list A) (f : A -> K) :
    sum_over l f = sum_n (length l) (fun i => f (nth i l d)).
  Proof.
    induction l as [|x l IH]; [reflexivity|].
    cbn [length]. unfold sum_n. cbn [seq]. rewrite !sum_over_cons. cbn [nth]. f_equal.
    rewrite IH. unfold sum_n. rewrite <- seq_shift, sum_over_map. reflexivity.
  Qed.
  (** exactly one index contributes *)
  Lemma sum_over_single {A} (dec : forall x y : A, {x = y} + {x <> y}) (l : list A) (a : A) (f : A -> K) :
    NoDup l -> In a l -> (forall b, In b l -> b <> a -> f b = 0) -> sum_over l f = f a.
  Proof.
    induction l as [|x l IH]; intros Hnd Hin Hz; [destruct Hin|].
    inversion Hnd as [|? ? Hx Hl]; subst. rewrite sum_over_cons.
    destruct Hin as [<-|Hin].
    - rewrite (sum_over_ext_in l f (fun _ => 0)).
      + rewrite sum_over_zero. ring.
      + intros b Hb. apply Hz; [now right|]. intros ->; contradiction.
    - rewrite IH; [|assumption..|intros b Hb; apply Hz; now right].
      rewrite (Hz x); [ring|now left|intros ->; contradiction].
  Qed.
  Lemma sum_n_single n a (f : nat -> K) :
    (a < n)%nat -> (forall i, (i < n)%nat -> i <> a -> f i = 0) -> sum_n n f = f a.
  Proof.
    intros Ha Hz. apply sum_over_single; [apply Nat.eq_dec|apply seq_NoDup|apply in_seq; lia|].
    intros b Hb. apply in_seq in Hb. apply Hz; lia.
  Qed.
End Sums.

(** Infer the structure from the carrier. *)
Canonical Rops.
Canonical Zops.
Canonical Qcops.
