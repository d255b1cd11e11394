(** Vocabulary for C101. *)
From Coq Require Import String Reals List Arith Bool.
From Verif Require Import Num Arr Fe Problem SpecFe Basis Init SpecWeak SpecEnergy Elastic Plasticity SpecPlasticity Laser.
Import ListNotations.
Local Open Scope R_scope.

(** Hooke's law with Young's modulus E and Poisson ratio 0.3, in the form sigma = 2 G (eps + nu / (1 - 2 nu) tr eps I) *)
Definition hooke_of (E : R) (d : nat) (e : tensor) : tensor := fun i j =>
  2 * (E / (2 * (1 + 3 / 10))) * (e i j + (if (i =? j)%nat then 3 / 10 / (1 - 2 * (3 / 10)) * trace d e else 0)).
(** Young's modulus and thermal expansion of a phase: only the solid is stiff and expands *)
Definition young (phase : nat) : R := match phase with 2%nat => 70 * 10 ^ 9 | _ => 70 * 10 ^ 7 end.
Definition expansion (phase : nat) : R := match phase with 2%nat => / 10 ^ 5 | _ => 0 end.
(** stresses the material can carry *)
Definition carried (d : nat) (s : tensor) : Prop := von_mises d s <= 250 * 10 ^ 6.
(** the stress if the whole change of strain beyond the thermal one were elastic *)
Definition elastic_guess (d : nat) (e so eo : tensor) (dT : R) (phase : nat) : tensor := fun i j =>
  hooke_of (young phase) d (fun k l => e k l - eo k l - (if (k =? l)%nat then expansion phase * dT else 0)) i j + so i j.

(** the stress s taken instead of the guess g: the mean stress is kept; the shear part is kept if g can be carried, and scaled to the limit if not *)
Definition returned (d : nat) (g s : tensor) : Prop := trace d s = trace d g /\ exists k, 0 <= k <= 1 /\
  (forall i j, (i < d)%nat -> (j < d)%nat -> shear_part d s i j = k * shear_part d g i j) /\ (carried d g -> k = 1) /\ (~ carried d g -> von_mises d s = 250 * 10 ^ 6).

(** The phase of a point whose temperature was Ts (in this order) when the mechanical problem was solved: powder (0) if it never was above
    1623; liquid (1) if it never was below 1623 since it first was above; solid (2) if it was below after it had been above. *)
Definition phase_ok (Ts : list R) (phase : nat) : Prop :=
  phase = 0%nat /\ (forall T, In T Ts -> T <= 1623) \/
  phase = 1%nat /\ (exists a T b, Ts = a ++ T :: b /\ (forall x, In x a -> x <= 1623) /\ 1623 < T /\ forall x, In x b -> 1623 <= x) \/
  phase = 2%nat /\ (exists a T b T' c, Ts = a ++ T :: b ++ T' :: c /\ 1623 < T /\ T' < 1623).

(** temperature, strain, stress, phase at quadrature point q of cell c *)
Definition no_state : laser_state := mkLaser [] [] [] [].
(** state before pass i of a run with states h after the passes *)
Definition state (f : fe Rops) (h : list laser_state) (i : nat) : laser_state := nth i (laser_start f :: h) no_state.
Definition temperature (f : fe Rops) (s : laser_state) (c q : nat) : R := convert_from_dof_to_quad f (l_T s) c q 0%nat.
Definition var (s : laser_state) (i c q : nat) : lval := nth c (nth i (l_vars s) []) (fun _ => LNum 0) q.
Definition has_stress (s : laser_state) (c q : nat) (t : tensor) : Prop := var s 0 c q = LTen t.
Definition has_strain (s : laser_state) (c q : nat) (t : tensor) : Prop := var s 1 c q = LTen t.
Definition has_phase (s : laser_state) (c q : nat) (n : nat) : Prop := var s 3 c q = LPhase n.

(** heat flowing in at a surface point x at temperature T: convection and radiation, and the laser beam *)
Definition loss (T : R) : R := 100 * (300 - T) + 567 / 10 ^ 10 * (3 / 10) * (300 ^ 4 - T ^ 4).
Definition beam (center : nat -> R) (switch : R) (x : nat -> R) : R :=
  2 * (1 / 4) * 50 / (PI * (5 / 10 ^ 5) ^ 2) * exp (- (2) * ((x 0%nat - center 0%nat) ^ 2 + (x 1%nat - center 1%nat) ^ 2) / (5 / 10 ^ 5) ^ 2) * switch.
(** heat needed per volume and time *)
Definition heat_rate (T T_old : R) : R := 8440 * 588 * (T - T_old) / (2 / 10 ^ 6).

(** the problems of the script, on any mesh *)
Definition heat_var (quad fquad : list (list Rops) * list Rops) (normals : nat -> nat -> Rops) (pts : list (list Rops)) (cls : list (list nat)) : var_args Rops :=
  mkVar pts cls 1 "HEX8" quad fquad normals (Some heat_bc).

(** integral of g over the given faces (cell, local face) *)
Definition over_list (sqrtK : Rops -> Rops) (f : fe Rops) (P : list (list Rops)) (b : list (nat * nat)) (g : nat -> nat -> nat -> R) : R :=
  sum_over (K := Rops) b (fun x => sum_n (K := Rops) (num_face_quads f) (fun q => g (fst x) (snd x) q * nanson_scale sqrtK P f (fst x) (snd x) q)).
Definition over_mesh (f : fe Rops) (P : list (list Rops)) (g : nat -> nat -> R) : R :=
  sum_n (K := Rops) (length (cells f)) (fun c => sum_n (K := Rops) (num_quads f) (fun q => g c q * get_JxW P f c q)).
