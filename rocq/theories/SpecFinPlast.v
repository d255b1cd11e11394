(** Vocabulary for C90. *)
From Coq Require Import List Arith Bool Reals.
From Verif Require Import Num Arr Fe Problem SpecAssembly SpecWeak SpecEnergy Elastic Plasticity SpecPlasticity Lagrangian SpecLagrangian.
Import ListNotations.
Local Open Scope R_scope.

(** product of three matrices A B A^T *)
Definition conj3 (A B : tensor) : tensor := fun i j =>
  sum_n (K := Rops) 3 (fun k => sum_n (K := Rops) 3 (fun l => A i k * B k l * A j l)).
Definition times (A B : tensor) : tensor := fun i j => sum_n (K := Rops) 3 (fun k => A i k * B k j).
Definition ident : tensor := fun i j => if (i =? j)%nat then 1 else 0.
(** volume ratio of a deformation *)
Definition vol (F : tensor) : R := det (K := Rops) 3 F.
(** the deformation without its volume change *)
Definition shape_of (F : tensor) : tensor := fun i j => Rpower (vol F) (- (1 / 3)) * F i j.
Definition positive (A : tensor) : Prop :=
  forall v : nat -> R, (exists i, (i < 3)%nat /\ v i <> 0) -> 0 < sum_n (K := Rops) 3 (fun i => sum_n (K := Rops) 3 (fun j => v i * A i j * v j)).
(** size of the shear stress 80000 dev b, and the largest one the material carries at hardening a *)
Definition shear_stress (b : tensor) : R := 80000 * sqrt (ddot 3 (shear_part 3 b) (shear_part 3 b)).
Definition strength (a : R) : R := sqrt (2 / 3) * (400 + 18 * a).
(** Kirchhoff stress of a volume ratio and an elastic strain *)
Definition kirchhoff (J : R) (b : tensor) : tensor := fun i j => (if (i =? j)%nat then 164000 / 2 * (J ^ 2 - 1) else 0) + 80000 * shear_part 3 b i j.
(** the state of a point: an elastic strain that is symmetric and positive, hardening that is not negative *)
Definition sound_state (b : tensor) (a : R) : Prop := symmetric 3 b /\ positive b /\ 0 <= a.
(** stored energy of the elastic material *)
Definition finite_energy (F : tensor) : R :=
  164000 / 2 * ((vol F ^ 2 - 1) / 2 - ln (vol F)) + 80000 / 2 * (trace 3 (conj3 (shape_of F) ident) - 3).

(** deformation gradient, elastic strain and hardening kept for quadrature point q of cell c *)
Definition kept (ivs : list (list (nat -> ul_var))) (m c q : nat) : ul_var := nth c (nth m ivs []) (fun _ => Scal 0) q.
Definition kept_F (ivs : list (list (nat -> ul_var))) (c q : nat) : tensor := as_tens (kept ivs 0 c q).
Definition kept_b (ivs : list (list (nat -> ul_var))) (c q : nat) : tensor := as_tens (kept ivs 1 c q).
Definition kept_a (ivs : list (list (nat -> ul_var))) (c q : nat) : R := as_scal (kept ivs 2 c q).
