(** Model of the isotropic linear elastic stress map used by the benchmarks and applications, and of
    the strain energy that applications/explicit_dynamics reports. *)
From Coq Require Import List Arith Bool Reals.
From Verif Require Import Num.
Import ListNotations.

Section Elastic.
  Context {V : Type}.
  Variables (lam mu : R) (d : nat).
  (** tests/benchmarks/linear_elasticity_cube/test_linear_elasticity_cube.py:22, applications/explicit_dynamics/example.py:22:
      epsilon = 0.5*(u_grad + u_grad.T) *)
  Definition strain (G : nat -> nat -> Rops) : nat -> nat -> Rops := fun i j => (/ 2 * (G i j + G j i))%R.
  (** np.trace *)
  Definition trace (A : nat -> nat -> Rops) : Rops := sum_n d (fun m => A m m).
  (** test_linear_elasticity_cube.py:23, explicit_dynamics/example.py:23-26:
      sigma = lmbda*np.trace(epsilon)*np.eye(self.dim) + 2*mu*epsilon; no internal variable is used. *)
  Definition elastic_stress (G : nat -> nat -> Rops) (_ : list V) : nat -> nat -> Rops := fun i j =>
    (lam * trace (strain G) * (if (i =? j)%nat then 1 else 0) + 2 * mu * strain G i j)%R.
  (** applications/explicit_dynamics/example.py:149-153: 0.5*lmbda*trace(strain)**2 + mu*sum(strain**2) *)
  Definition strain_energy_density (G : nat -> nat -> Rops) : Rops :=
    (/ 2 * lam * (trace (strain G) * trace (strain G)) + mu * sum_n (K := Rops) d (fun i => sum_n (K := Rops) d (fun j => strain G i j * strain G i j)))%R.
End Elastic.
