(** Vocabulary for C102. *)
From Coq Require Import String Reals List Arith Bool.
From Verif Require Import Num Arr Fe Problem SpecAssembly SpecFe SpecWeak SpecEnergy Elastic Plasticity HyperElastic.
Import ListNotations.
Local Open Scope R_scope.

Definition shear_modulus (E nu : R) : R := E / (2 * (1 + nu)).
Definition bulk_modulus (E nu : R) : R := E / (3 * (1 - 2 * nu)).
(** first Piola-Kirchhoff stress: mu J^(-2/d) (F - tr(F^T F)/d F^-T) + kappa (J - 1) J F^-T *)
Definition neo_stress (d : nat) (E nu : R) (F : tensor) : tensor := fun i j =>
  let J := det (K := Rops) d F in let FinvT := inv_mat (K := Rops) d F j i in
  shear_modulus E nu * Rpower J (- (2) / INR d) * (F i j - sum_n (K := Rops) d (fun k => sum_n (K := Rops) d (fun l => F k l * F k l)) / INR d * FinvT)
  + bulk_modulus E nu * (J - 1) * J * FinvT.
Definition identity : tensor := fun i j => if (i =? j)%nat then 1 else 0.
Definition product (d : nat) (A B : tensor) : tensor := fun i j => sum_n (K := Rops) d (fun k => A i k * B k j).
Definition transposed (A : tensor) : tensor := fun i j => A j i.
(** equal entries *)
Definition same (d : nat) (A B : tensor) : Prop := forall i j, (i < d)%nat -> (j < d)%nat -> A i j = B i j.
(** rotations *)
Definition is_rotation (d : nat) (Q : tensor) : Prop := det (K := Rops) d Q = 1 /\ same d (product d (transposed Q) Q) identity.
(** jax.grad returns the gradient of the energy of a (d, d) array with positive determinant (there is one: C102_stress), and looks at the entries only *)
Definition grad_correct (d : nat) (grad : (tensor -> R) -> tensor -> tensor) (energy : tensor -> R) : Prop :=
  (forall F, 0 < det (K := Rops) d F -> gradient2 d d energy F (grad energy F)) /\
  (forall F F', same d F F' -> same d (grad energy F) (grad energy F')).
(** Hooke's law with Lame's first parameter lam *)
Definition hooke (d : nat) (lam mu : R) (H : tensor) : tensor := fun i j =>
  (if (i =? j)%nat then lam * sum_n (K := Rops) d (fun k => H k k) else 0) + mu * (H i j + H j i).
(** deformation gradient at a quadrature point *)
Definition deform (P : list (list Rops)) (f : fe Rops) (u : list (list Rops)) (c q : nat) : tensor := fun i j => sol_to_grad P f u c q i j + identity i j.
(** a problem with the stress above; its source and tractions do not depend on the displacement *)
Definition hyper_problem {V} (grad : (tensor -> R) -> tensor -> tensor) (energy : tensor -> R) (p : problem Rops V) (f : fe Rops) : Prop :=
  standard_problem p f /\ vec f = dim f /\ tensor_map (maps p) = Some (fun G _ => first_PK_stress grad energy G) /\
  (forall mm u u' x iv k, mass_map (maps p) = Some mm -> mm u x iv k = mm u' x iv k) /\
  (forall sms sm u u' x iv k, surface_maps (maps p) = Some sms -> In sm sms -> sm u x iv k = sm u' x iv k).
(** stored energy less the work of the loads (the maps return minus the loads) *)
Definition hyper_potential {V} (energy : tensor -> R) (sqrtK : Rops -> Rops) (p : problem Rops V) (f : fe Rops) (P u : list (list Rops)) : R :=
  over_cells (K := Rops) p f P (fun c q => energy (deform P f u c q) + dot1 (K := Rops) (vec f) (source p f P u c q) (convert_from_dof_to_quad f u c q))
  + over_faces (K := Rops) sqrtK p f P (fun s e c fc q => dot1 (K := Rops) (vec f) (traction p f P u s e q) (convert_from_dof_to_face_quad f u c fc q)).
(** field that turns the deformed positions by a skew matrix W *)
Definition turning (d : nat) (W : tensor) (P u v : list (list Rops)) : Prop := forall n k, (n < length P)%nat -> (k < d)%nat ->
  get2 0 v n k = sum_n (K := Rops) d (fun l => W k l * (get2 0 P n l + get2 0 u n l)).
Definition skew (d : nat) (W : tensor) : Prop := forall i j, (i < d)%nat -> (j < d)%nat -> W i j = - W j i.
(** minus the work of the loads on a field v *)
Definition load_work {V} (sqrtK : Rops -> Rops) (p : problem Rops V) (f : fe Rops) (P u v : list (list Rops)) : R :=
  over_cells (K := Rops) p f P (fun c q => dot1 (K := Rops) (vec f) (source p f P u c q) (convert_from_dof_to_quad f v c q))
  + over_faces (K := Rops) sqrtK p f P (fun s e c fc q => dot1 (K := Rops) (vec f) (traction p f P u s e q) (convert_from_dof_to_face_quad f v c fc q)).
(** every quadrature point is turned right side out: the determinant of the deformation gradient is positive *)
Definition uncrushed (P : list (list Rops)) (f : fe Rops) (u : list (list Rops)) (n : nat) : Prop :=
  forall c q, (c < n)%nat -> (q < num_quads f)%nat -> 0 < det (K := Rops) (dim f) (deform P f u c q).
(** the energies without density that the scripts use, with their stresses (C102_stress): two and three dimensions, and plane strain *)
Inductive code_energy : nat -> (tensor -> R) -> (tensor -> tensor) -> Prop :=
| plain d E nu : d = 2%nat \/ d = 3%nat -> code_energy d (psi d E nu) (neo_stress d E nu)
| plane E nu : code_energy 2 (psi_plane E nu) (fun F => neo_stress 3 E nu (embed F)).
(** Lame's first parameter of an isotropic solid *)
Definition lame (E nu : R) : R := E * nu / ((1 + nu) * (1 - 2 * nu)).
