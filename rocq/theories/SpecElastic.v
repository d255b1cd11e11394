(** Vocabulary for the linear elastic parts of C73, C74. *)
From Coq Require Import List Arith Bool Reals.
From Verif Require Import Num Arr Fe Problem SpecAssembly SpecWeak SpecEnergy Elastic.
Import ListNotations.

Section Spec.
  Context {V : Type}.
  (** A one-variable problem with the elastic stress map; its source and tractions do not depend on the solution. *)
  Definition elastic_problem (lam mu : R) (p : problem Rops V) (f : fe Rops) : Prop :=
    standard_problem p f /\ vec f = dim f /\ tensor_map (maps p) = Some (elastic_stress lam mu (dim f)) /\
    (forall mm u u' x iv k, mass_map (maps p) = Some mm -> mm u x iv k = mm u' x iv k) /\
    (forall sms sm u u' x iv k, surface_maps (maps p) = Some sms -> In sm sms -> sm u x iv k = sm u' x iv k).
  (** strain energy minus the work of the loads (the maps return minus the loads) *)
  Definition potential_energy (lam mu : R) (sqrtK : Rops -> Rops) (p : problem Rops V) (f : fe Rops) (P u : list (list Rops)) : R :=
    over_cells (K := Rops) p f P (fun c q => (strain_energy_density lam mu (dim f) (sol_to_grad P f u c q)
        + dot1 (K := Rops) (vec f) (source p f P u c q) (convert_from_dof_to_quad f u c q))%R)
    + over_faces (K := Rops) sqrtK p f P (fun s e c fc q =>
        dot1 (K := Rops) (vec f) (traction p f P u s e q) (convert_from_dof_to_face_quad f u c fc q)).
  Definition strain_energy (lam mu : R) (p : problem Rops V) (f : fe Rops) (P u : list (list Rops)) : R :=
    over_cells (K := Rops) p f P (fun c q => strain_energy_density lam mu (dim f) (sol_to_grad P f u c q)).
  (** the potential of the problem as densities in the sense of [total_energy] *)
  Definition elastic_densities (lam mu : R) (p : problem Rops V) (f : fe Rops) : densities V :=
    mkDensities (fun G _ => strain_energy_density lam mu (dim f) G)
      (fun u x iv => match mass_map (maps p) with None => 0%R | Some mm => dot1 (K := Rops) (vec f) (mm (fun _ => 0%R) x iv) u end)
      (fun s u x iv => match surface_maps (maps p) with None => 0%R | Some sms =>
         match nth_error sms s with None => 0%R | Some sm => dot1 (K := Rops) (vec f) (sm (fun _ => 0%R) x iv) u end end).
  (** the tangents: the stress map itself, nothing for the loads *)
  Definition elastic_tangents (lam mu : R) (d : nat) : tangents :=
    mkTangents (fun _ _ H => elastic_stress (V := V) lam mu d H []) (fun _ _ _ _ => 0%R) (fun _ _ _ _ _ => 0%R).
End Spec.
