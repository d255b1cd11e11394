(** Vocabulary for C91, C92 and C93. *)
From Coq Require Import List Arith Bool Reals.
From Coquelicot Require Derive.
From Verif Require Import Num Arr Fe Problem SpecAssembly SpecWeak SpecEnergy Elastic Plasticity SpecPlasticity Lagrangian SpecLagrangian SpecFinPlast CrystalPlast.
Import ListNotations.
Local Open Scope R_scope.

(** ** quaternions w + x i + y j + z k *)
Definition qmul (p q : nat -> R) : nat -> R := fun k =>
  match k with
  | 0%nat => p 0%nat * q 0%nat - p 1%nat * q 1%nat - p 2%nat * q 2%nat - p 3%nat * q 3%nat
  | 1%nat => p 0%nat * q 1%nat + p 1%nat * q 0%nat + p 2%nat * q 3%nat - p 3%nat * q 2%nat
  | 2%nat => p 0%nat * q 2%nat - p 1%nat * q 3%nat + p 2%nat * q 0%nat + p 3%nat * q 1%nat
  | _ => p 0%nat * q 3%nat + p 1%nat * q 2%nat - p 2%nat * q 1%nat + p 3%nat * q 0%nat
  end.
Definition qconj (q : nat -> R) : nat -> R := fun k => match k with O => q 0%nat | _ => - q k end.
Definition qsize2 (q : nat -> R) : R := q 0%nat ^ 2 + q 1%nat ^ 2 + q 2%nat ^ 2 + q 3%nat ^ 2.
(** a vector as a quaternion *)
Definition pure (v : nat -> R) : nat -> R := fun k => match k with O => 0 | S i => v i end.

(** ** tensors *)
Definition at_vec (A : tensor) (v : nat -> R) : nat -> R := fun i => sum_n (K := Rops) 3 (fun j => A i j * v j).
Definition dot3 (u v : nat -> R) : R := sum_n (K := Rops) 3 (fun i => u i * v i).
Definition transp (A : tensor) : tensor := fun i j => A j i.
(** a tensor of fourth order applied to a matrix *)
Definition contract (C : nat -> nat -> nat -> nat -> R) (E : tensor) : tensor := fun i j =>
  sum_n (K := Rops) 3 (fun k => sum_n (K := Rops) 3 (fun l => C i j k l * E k l)).
(** Hooke's law of a cubic crystal in its own axes *)
Definition cubic_law (E : tensor) : tensor := fun i j =>
  if (i =? j)%nat then (168400 - 121400) * E i i + 121400 * trace 3 E else 75400 * (E i j + E j i).
(** the same for a crystal turned by M *)
Definition turned_law (M E : tensor) : tensor := conj3 M (cubic_law (conj3 (transp M) E)).
(** half of Fe^T Fe - I *)
Definition green (Fe : tensor) : tensor := fun i j => (sum_n (K := Rops) 3 (fun k => Fe k i * Fe k j) - ident i j) / 2.
(** a permutation of the axes with signs *)
Definition axis_symmetry (M : tensor) : Prop := exists (p : nat -> nat) (s : nat -> R),
  (forall i, (i < 3)%nat -> (p i < 3)%nat /\ (s i = 1 \/ s i = -1)) /\ (forall i j, (i < 3)%nat -> (j < 3)%nat -> p i = p j -> i = j) /\
  forall i j, (i < 3)%nat -> (j < 3)%nat -> M i j = if (j =? p i)%nat then s i else 0.

(** ** slip: system s of the table has normal (a, b, c) and direction (d, e, f) in its row *)
Definition normal (table : list (list R)) (s : nat) : nat -> R := fun i => nth i (nth s table []) 0.
Definition direction (table : list (list R)) (s : nat) : nat -> R := fun i => nth (3 + i) (nth s table []) 0.
Definition unit (v : nat -> R) : nat -> R := fun i => v i / sqrt (dot3 v v).
(** the slip systems of a table lie in their planes *)
Definition in_plane (table : list (list R)) : Prop := forall s, (s < length table)%nat -> dot3 (direction table s) (normal table s) = 0.
(** direction times normal, in a crystal turned by M *)
Definition slip_frame (table : list (list R)) (M : tensor) (s : nat) : tensor := fun i j =>
  at_vec M (unit (direction table s)) i * at_vec M (unit (normal table s)) j.
(** shear stress on a slip system *)
Definition resolved (table : list (list R)) (M S : tensor) (s : nat) : R := ddot 3 S (slip_frame table M s).
(** slip during dt under shear stress tau with resistance g *)
Definition slip_by (dt tau g : R) : R := dt / 1000 * (if Rle_dec 0 tau then (tau / g) ^ 10 else - (tau / g) ^ 10).
(** plastic flow: the slips of all systems *)
Definition flow (table : list (list R)) (dt : R) (g : nat -> R) (M S : tensor) : tensor := fun i j =>
  sum_n (K := Rops) (length table) (fun s => slip_by dt (resolved table M S s) (g s) * slip_frame table M s i j).
(** deformation of the lattice *)
Definition lattice (table : list (list R)) (dt : R) (F Fp : tensor) (g : nat -> R) (M S : tensor) : tensor :=
  times F (times Fp (fun i j => ident i j - flow table dt g M S i j)).
(** what the crystal's law leaves open at the stress S *)
Definition law_gap (table : list (list R)) (dt : R) (F Fp : tensor) (g : nat -> R) (M S : tensor) : tensor := fun i j =>
  S i j - turned_law M (green (lattice table dt F Fp g M S)) i j.
(** Frobenius norm *)
Definition size3 (A : tensor) : R := sqrt (ddot 3 A A).
(** hardening: x^2.5 with the sign of x, of the distance to saturation *)
Definition to_saturation (g : R) : R := let x := 1 - g / (1098 / 10) in if Rle_dec 0 x then x * x * sqrt x else - (x * x * sqrt (- x)).
(** ** systems of nine equations *)
Definition apply9 (A : nat -> nat -> R) (u : nat -> R) : nat -> R := fun k => sum_n (K := Rops) 9 (fun j => A k j * u j).
(** jax.numpy.linalg.solve is exact on the matrix A *)
Definition exact_on (lin_solve : tensor -> (nat -> R) -> nat -> R) (A : tensor) : Prop := forall b k, (k < 9)%nat -> apply9 A (lin_solve A b) k = b k.
Definition regular9 (A : tensor) : Prop := forall u, (forall k, (k < 9)%nat -> apply9 A u k = 0) -> forall k, (k < 9)%nat -> u k = 0.
Definition identity9 (A : tensor) : Prop := forall k j, (k < 9)%nat -> (j < 9)%nat -> A k j = if (k =? j)%nat then 1 else 0.

(** ** the state kept for quadrature point q of cell c: inverse of the plastic deformation, resistances, slips, orientation *)
Definition ckept (ivs : list (list (nat -> cp_var))) (m c q : nat) : cp_var := nth c (nth m ivs []) (fun _ => CV (fun _ => 0)) q.
Definition kept_Fp (ivs : list (list (nat -> cp_var))) (c q : nat) : tensor := as_t (ckept ivs 0 c q).
Definition kept_g (ivs : list (list (nat -> cp_var))) (c q : nat) : nat -> R := as_v (ckept ivs 1 c q).
Definition kept_slip (ivs : list (list (nat -> cp_var))) (c q : nat) : nat -> R := as_v (ckept ivs 2 c q).
Definition kept_rot (ivs : list (list (nat -> cp_var))) (c q : nat) : tensor := as_t (ckept ivs 3 c q).

(** ** slopes of the gap in the entries of the stress *)
Definition put (S : tensor) (a b : nat) (t : R) : tensor := fun c d => if ((c =? a) && (d =? b))%nat then t else S c d.
Definition gap_slope (table : list (list R)) (dt : R) (F Fp : tensor) (g : nat -> R) (M S : tensor) (i j a b : nat) : R :=
  Derive.Derive (fun t => law_gap table dt F Fp g M (put S a b t) i j) (S a b).
(** as a matrix of nine rows and columns *)
Definition gap_matrix (table : list (list R)) (dt : R) (F Fp : tensor) (g : nat -> R) (M S : tensor) : tensor := fun k l =>
  if ((k <? 9) && (l <? 9))%nat then gap_slope table dt F Fp g M S (k / 3) (k mod 3) (l / 3) (l mod 3) else 0.
