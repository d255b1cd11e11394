(** Vocabulary for C99: explicit solidification. *)
From Coq Require Import List Arith Bool Reals.
From Verif Require Import Num Arr Fe Problem SpecAssembly SpecEnergy SpecLinear SpecThermoMech Dendrite SpecDendrite DendriteEx.
Import ListNotations.
Local Open Scope R_scope.

(** Problems of the two classes, on the same two scalar variables in the plane *)
Definition ex_problems (P : dn_params) (pm pf : problem Rops (nat -> nat -> Rops)) (fp fT : fe Rops) : Prop :=
  pm = mkProblem [fp; fT] [] (sm_maps P [fp; fT]) [] [] /\ (exists iv, pf = mkProblem [fp; fT] [] (sf_maps P [fp; fT]) iv []) /\
  vec fp = 1%nat /\ vec fT = 1%nat /\ dim fp = 2%nat /\ dim fT = 2%nat /\ num_quads fT = num_quads fp.

(** the field that is 1 at node n and 0 at the others *)
Definition hat (N n : nat) : list (list Rops) := map (fun i => [if (i =? n)%nat then 1 else 0]) (seq 0 N).

Section Spec.
  Variables (P : dn_params) (p : problem Rops (nat -> nat -> Rops)) (fp fT : fe Rops).
  (** the integral of the shape function of node n of a variable, and of a field *)
  Definition integral (f : fe Rops) (x : list (list Rops)) : R := over_cells (K := Rops) p f (points f) (fun c q => convert_from_dof_to_quad f x c q 0).
  Definition share (f : fe Rops) (n : nat) : R := integral f (hat (length (points f)) n).
  (** sum of share * x * v over the nodes: the lumped inner product *)
  Definition lumped (f : fe Rops) (x v : list (list Rops)) : R :=
    sum_n (K := Rops) (length (points f)) (fun n => share f n * get2 (@zero Rops) x n 0 * get2 (@zero Rops) v n 0).
  (** nodewise difference *)
  Definition change (x y : list (list Rops)) : list (list Rops) := map2 (map2 (fun a b : R => b - a)) x y.
  (** flux of the phase field at its own direction *)
  Definition own_flux (u : list (list Rops)) (c q : nat) : R * R :=
    interface_flux (eps_fn P (angle fp u c q)) (eps_grad P (angle fp u c q)) (grad_p fp u c q 0) (grad_p fp u c q 1).
  Definition drive (u w : list (list Rops)) (c q : nat) : R :=
    phase fp u c q * (1 - phase fp u c q) * (phase fp u c q - / 2 + driving P (temp fT w c q)).
  Definition noise_term (chi : list R) (u : list (list Rops)) (c q : nat) : R := a_noise P * phase fp u c q * (1 - phase fp u c q) * nth c chi 0.
  (** Kobayashi's equation tau dp/dt = div flux + p (1 - p) (p - 1/2 + m(T)) + a p (1 - p) chi, right-hand side tested with v *)
  Definition phase_force (chi : list R) (u w v : list (list Rops)) : R :=
    over_cells (K := Rops) p fp (points fp) (fun c q =>
      - (fst (own_flux u c q) * grad_p fp v c q 0 + snd (own_flux u c q) * grad_p fp v c q 1) + (drive u w c q + noise_term chi u c q) * phase fp v c q).
  (** dT/dt = div grad T + K / tau (div flux + p (1 - p) (p - 1/2 + m(T))), right-hand side tested with z: the noise is missing *)
  Definition heat_force (u w z : list (list Rops)) : R :=
    over_cells (K := Rops) p fT (points fT) (fun c q =>
      - (grad_T fT w c q 0 * grad_T fT z c q 0 + grad_T fT w c q 1 * grad_T fT z c q 1)
      + K_lat P / tau P * (- (fst (own_flux u c q) * grad_T fT z c q 0 + snd (own_flux u c q) * grad_T fT z c q 1) + drive u w c q * temp fT z c q)).
End Spec.

(** What the theorems assume: well formed arrays, one noise value per cell, constants reproduced at the quadrature points, a correct jax.jvp and masses that are
    not zero. *)
Definition ex_setting (P : dn_params) (jvp : (list Rops -> list Rops) -> list Rops -> list Rops -> list Rops) kf (pm pf : problem Rops (nat -> nat -> Rops)) (fp fT : fe Rops)
    (chi : list R) : Prop :=
  ex_problems P pm pf fp fT /\ wf_problem pm /\ (0 < p_num_cells pm)%nat /\ length chi = p_num_cells pm /\ constants_exact pm fp /\ constants_exact pm fT /\
  right_jvp jvp pm [points fp; points fT] kf.
Definition ex_regular (P : dn_params) (pm : problem Rops (nat -> nat -> Rops)) (fp fT : fe Rops) : Prop :=
  tau P <> 0 /\ dt P <> 0 /\ (forall n, (n < length (points fp))%nat -> share pm fp n <> 0) /\ (forall n, (n < length (points fT))%nat -> share pm fT n <> 0).
(** the two equations of a step from (u, w) to (u', w') *)
Definition ex_stepped (P : dn_params) (pm : problem Rops (nat -> nat -> Rops)) (fp fT : fe Rops) (chi : list R) (u w u' w' : list (list Rops)) : Prop :=
  (forall v, shaped (length (points fp)) 1 v -> tau P / dt P * lumped pm fp (change u u') v = phase_force P pm fp fT chi u w v) /\
  (forall z, shaped (length (points fT)) 1 z -> / dt P * lumped pm fT (change w w') z = heat_force P pm fp fT u w z).
