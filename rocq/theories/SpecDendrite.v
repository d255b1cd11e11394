(** Vocabulary for C98: solidification. *)
From Coq Require Import List Arith Bool Reals.
From Verif Require Import Num Arr Fe Problem SpecAssembly SpecBc SpecWeak SpecEnergy SpecLinear SpecPosed ThermoMech SpecThermoMech Dendrite.
Import ListNotations.
Local Open Scope R_scope.

(** A problem of the class Solidification: two scalar variables in the plane on the same cells and quadrature points. *)
Definition dn_problem (P : dn_params) (p : problem Rops (nat -> nat -> Rops)) (fp fT : fe Rops) : Prop :=
  fes p = [fp; fT] /\ maps p = dn_maps P [fp; fT] /\ boundary_inds_list p = [] /\ internal_vars_surfaces p = [] /\
  vec fp = 1%nat /\ vec fT = 1%nat /\ dim fp = 2%nat /\ dim fT = 2%nat /\ num_quads fT = num_quads fp.
(** positive relaxation time and time step, interface width that never vanishes; everything else may be anything *)
Definition dn_physical (P : dn_params) : Prop := 0 < dt P /\ 0 < tau P /\ eps_bar P <> 0 /\ -1 < delta P < 1.

(** Kobayashi's driving force m(T), the flux of the phase field for the width eps and its derivative, the energy of the interface *)
Definition driving (P : dn_params) (T : R) : R := alpha P / PI * atan (gamma P * (T_eq P - T)).
Definition interface_flux (e e' gx gy : R) : R * R := (e * e * gx - e * e' * gy, e * e * gy + e * e' * gx).

Section Spec.
  Variables (P : dn_params) (p : problem Rops (nat -> nat -> Rops)) (fp fT : fe Rops).
  (** values and gradients at quadrature point q of cell c *)
  Definition phase (u : list (list Rops)) (c q : nat) : R := convert_from_dof_to_quad fp u c q 0.
  Definition temp (w : list (list Rops)) (c q : nat) : R := convert_from_dof_to_quad fT w c q 0.
  Definition grad_p (u : list (list Rops)) (c q j : nat) : R := sol_to_grad (points fp) fp u c q 0 j.
  Definition grad_T (w : list (list Rops)) (c q j : nat) : R := sol_to_grad (points fT) fT w c q 0 j.
  Definition angle (u : list (list Rops)) (c q : nat) : R := arctan2 (grad_p u c q 1) (grad_p u c q 0).
  (** integral of flux . grad v + (tau (p - p_old) / dt - p_old (1 - p_old) (p_old - 1/2 + m(T_old) + a chi)) v, where the width of the interface is
      taken at the direction of the old gradient *)
  Definition phase_work (u_old w_old : list (list Rops)) (chi : list R) (u v : list (list Rops)) : R :=
    over_cells (K := Rops) p fp (points fp) (fun c q =>
      let fl := interface_flux (eps_fn P (angle u_old c q)) (eps_grad P (angle u_old c q)) (grad_p u c q 0) (grad_p u c q 1) in
      fst fl * grad_p v c q 0 + snd fl * grad_p v c q 1
      + (tau P * (phase u c q - phase u_old c q) / dt P
         - phase u_old c q * (1 - phase u_old c q) * (phase u_old c q - / 2 + driving P (temp w_old c q) + a_noise P * nth c chi 0)) * phase v c q).
  (** integral of grad T . grad z + ((T - T_old) - K (p - p_old)) / dt z *)
  Definition heat_flow (u_old w_old : list (list Rops)) (u w z : list (list Rops)) : R :=
    over_cells (K := Rops) p fT (points fT) (fun c q =>
      grad_T w c q 0 * grad_T z c q 0 + grad_T w c q 1 * grad_T z c q 1
      + ((temp w c q - temp w_old c q) - K_lat P * (phase u c q - phase u_old c q)) / dt P * temp z c q).
  (** integral of T - K p: sensible heat less the latent heat set free *)
  Definition enthalpy (u w : list (list Rops)) : R :=
    over_cells (K := Rops) p fp (points fp) (fun c q => temp w c q - K_lat P * phase u c q).
End Spec.
(** the constant field *)
Definition constant (N : nat) (x : R) : list (list Rops) := repeat [x] N.
