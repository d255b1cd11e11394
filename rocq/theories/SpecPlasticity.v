(** Vocabulary for C76. *)
From Coq Require Import List Arith Bool Reals.
From Verif Require Import Num Arr Fe Problem SpecAssembly SpecWeak SpecEnergy Elastic Plasticity.
Import ListNotations.
Local Open Scope R_scope.

(** sum of the products of the entries *)
Definition ddot (d : nat) (A B : tensor) : R := sum_n (K := Rops) d (fun i => sum_n (K := Rops) d (fun j => A i j * B i j)).
(** the part of a stress left after taking off its mean diagonal *)
Definition shear_part (d : nat) (A : tensor) : tensor := fun i j => A i j - (if (i =? j)%nat then trace d A / INR d else 0).
(** von Mises stress *)
Definition von_mises (d : nat) (A : tensor) : R := sqrt (3 / 2 * ddot d (shear_part d A) (shear_part d A)).
(** stresses the material can carry *)
Definition admissible (d : nat) (A : tensor) : Prop := von_mises d A <= 250.
Definition same_on (d : nat) (A B : tensor) : Prop := forall i j, (i < d)%nat -> (j < d)%nat -> A i j = B i j.
Definition symmetric (d : nat) (A : tensor) : Prop := forall i j, (i < d)%nat -> (j < d)%nat -> A i j = A j i.
(** Hooke's law with Young modulus 70000 and Poisson ratio 0.3, in the form sigma = 2 G (eps + nu / (1 - 2 nu) tr eps I) *)
Definition hooke (d : nat) (e : tensor) : tensor := fun i j =>
  2 * (70000 / (2 * (1 + 3 / 10))) * (e i j + (if (i =? j)%nat then 3 / 10 / (1 - 2 * (3 / 10)) * trace d e else 0)).
(** [e] is an elastic strain of stress [s] *)
Definition strain_of (d : nat) (s e : tensor) : Prop := same_on d (hooke d e) s.
(** elastic energy of a stress: half stress times elastic strain *)
Definition elastic_energy (d : nat) (s : tensor) (w : R) : Prop := exists e, strain_of d s e /\ w = / 2 * ddot d s e.

(** stress and strain kept in a problem for quadrature point q of cell c *)
Definition kept_stress (p : problem Rops tensor) (c q : nat) : tensor := nth 0 (iv_at p c q) (fun _ _ => 0).
Definition kept_strain (p : problem Rops tensor) (c q : nat) : tensor := nth 1 (iv_at p c q) (fun _ _ => 0).

(** a one-variable problem with the return map, loads that do not depend on the solution, two internal variables *)
Definition plastic_problem (p : problem Rops tensor) (f : fe Rops) : Prop :=
  standard_problem p f /\ vec f = dim f /\ (0 < dim f)%nat /\ tensor_map (maps p) = Some (plastic_map (dim f)) /\
  (forall mm u u' x iv k, mass_map (maps p) = Some mm -> mm u x iv k = mm u' x iv k) /\
  (forall sms sm u u' x iv k, surface_maps (maps p) = Some sms -> In sm sms -> sm u x iv k = sm u' x iv k) /\
  length (internal_vars p) = 2%nat.
(** the initial state: as constructed *)
Definition at_rest (p : problem Rops tensor) (f : fe Rops) : Prop := internal_vars p = initial_vars f.
