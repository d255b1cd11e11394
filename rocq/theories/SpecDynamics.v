(** Vocabulary for C75. *)
From Coq Require Import List Arith Bool Reals.
From Verif Require Import Num Arr Fe Problem SpecAssembly SpecBc SpecWeak SpecEnergy Elastic SpecElastic.
Import ListNotations.
Local Open Scope R_scope.

Section Spec.
  Context {V : Type}.
  Variables (p : problem Rops V) (f : fe Rops) (P : list (list Rops)).
  Local Notation field := (list (list Rops)).
  (** the mass of node n: rho times the integral of its shape functions over the cells it belongs to *)
  Definition lumped_mass (rho : R) (n : nat) : R :=
    sum_n (K := Rops) (num_cells f) (fun c => sum_n (K := Rops) (num_nodes f) (fun a =>
      if (cell_node f c a =? n)%nat then rho * sum_n (K := Rops) (num_quads f) (fun q => shape_vals f q a * get_JxW P f c q) else 0)).
  Definition volume : R := sum_n (K := Rops) (num_cells f) (fun c => sum_n (K := Rops) (num_quads f) (get_JxW P f c)).
  (** an array with one row of vec numbers per node; component k of node n *)
  Definition is_field (u : field) : Prop := shaped (length (points f)) (vec f) u.
  Definition at_dof (u : field) (n k : nat) : R := get2 (@zero Rops) u n k.
  Definition zero_on_held (u : field) : Prop := forall n k, (n < length (points f))%nat -> (k < vec f)%nat -> constrained f n k -> at_dof u n k = 0.
  (** a u + b v *)
  Definition comb (a : R) (u : field) (b : R) (v : field) : field := map2 (map2 (fun x y => a * x + b * y)) u v.
  (** sum over the dofs of mass times the product of two fields *)
  Definition mass_dot (rho : R) (u v : field) : R :=
    sum_n (K := Rops) (length (points f)) (fun n => sum_n (K := Rops) (vec f) (fun k => lumped_mass rho n * (at_dof u n k * at_dof v n k))).
  Definition kinetic (rho : R) (v : field) : R := / 2 * mass_dot rho v v.
  (** energy between two successive states: kinetic energy of the difference quotient, strain energy of the mean, minus the strain energy of half the difference *)
  Definition half_step_energy (lam mu rho dt : R) (u u' : field) : R :=
    kinetic rho (comb (/ dt) u' (- / dt) u) + strain_energy lam mu p f P (comb (/ 2) u (/ 2) u') - strain_energy lam mu p f P (comb (/ 2) u' (- / 2) u).
  (** every dof that is not held has a mass *)
  Definition masses_ok (rho : R) : Prop := forall n k, (n < length (points f))%nat -> (k < vec f)%nat -> ~ constrained f n k -> lumped_mass rho n <> 0.
  (** linear elasticity, no loads *)
  Definition free_elastic (lam mu : R) : Prop :=
    standard_problem p f /\ vec f = dim f /\ tensor_map (maps p) = Some (elastic_stress lam mu (dim f)) /\ mass_map (maps p) = None /\ surface_maps (maps p) = None.
  (** linear momentum and moment of momentum (about the reference positions) of a velocity *)
  Definition momentum (rho : R) (v : field) (k : nat) : R := sum_n (K := Rops) (length (points f)) (fun n => lumped_mass rho n * at_dof v n k).
  Definition spin (rho : R) (v : field) (i k : nat) : R :=
    sum_n (K := Rops) (length (points f)) (fun n => lumped_mass rho n * (nth i (nth n P []) 0 * at_dof v n k - nth k (nth n P []) 0 * at_dof v n i)).
End Spec.
