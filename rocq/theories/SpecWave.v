(** Vocabulary for C78. *)
From Coq Require Import List Arith Bool Reals.
From Verif Require Import Num Arr Fe Problem SpecAssembly SpecBc SpecEnergy Wave.
Import ListNotations.

(** A problem of one variable with the wave kernel and no surface integrals. *)
Definition wave_problem {K : ops} (c dt : K) (p : problem K (nat -> K)) (f : fe K) : Prop :=
  fes p = [f] /\ boundary_inds_list p = [] /\ internal_vars_surfaces p = [] /\ maps p = wave_maps c dt [f].

(** [u] solves the problem: right shape, every prescribed value met, no residual at any other dof. *)
Definition solved {V : Type} (sqrtK : Rops -> Rops) (p : problem Rops V) (f : fe Rops) (P u : list (list Rops)) : Prop :=
  sol_ok p [u] /\
  (forall n k b, (n < length (points f))%nat -> (k < vec f)%nat -> prescribed f n k = Some b -> get2 (@zero Rops) u n k = b) /\
  exists res, compute_residual sqrtK p [P] [u] = Ok [res] /\
    forall n k, (n < length (points f))%nat -> (k < vec f)%nat -> prescribed f n k = None -> get2 (@zero Rops) res n k = 0%R.

(** The quadrature sees the free fields: a field that is zero where values are prescribed, and vanishes with its gradient at every
    quadrature point, is zero at every node. *)
Definition seen {V : Type} (p : problem Rops V) (f : fe Rops) (P : list (list Rops)) : Prop :=
  forall d, sol_ok p [d] ->
    (forall n k b, (n < length (points f))%nat -> (k < vec f)%nat -> prescribed f n k = Some b -> get2 (@zero Rops) d n k = 0%R) ->
    (forall e q k, (e < p_num_cells p)%nat -> (q < num_quads f)%nat -> (k < vec f)%nat ->
       convert_from_dof_to_quad f d e q k = 0%R /\ forall j, (j < dim f)%nat -> sol_to_grad P f d e q k j = 0%R) ->
    forall n k, (n < length (points f))%nat -> (k < vec f)%nat -> get2 (@zero Rops) d n k = 0%R.

Section Energy.
  Context {V : Type}.
  Variables (c dt : R) (p : problem Rops V) (f : fe Rops) (P : list (list Rops)).
  Local Open Scope R_scope.
  (** u at a quadrature point, its change from w *)
  Definition change (u w : list (list Rops)) (e q k : nat) : R := convert_from_dof_to_quad f u e q k - convert_from_dof_to_quad f w e q k.
  (** energy of the state u reached from w, in units of dt^2 *)
  Definition wave_energy (u w : list (list Rops)) : R :=
    over_cells (K := Rops) p f P (fun e q =>
      / 2 * dot1 (K := Rops) (vec f) (change u w e q) (change u w e q)
      + / 2 * (c * dt) ^ 2 * dot2 (K := Rops) (vec f) (dim f) (sol_to_grad P f u e q) (sol_to_grad P f u e q)).
  (** what the implicit step from (w, u) to u' loses *)
  Definition wave_loss (u' u w : list (list Rops)) : R :=
    over_cells (K := Rops) p f P (fun e q =>
      / 2 * dot1 (K := Rops) (vec f) (fun k => change u' u e q k - change u w e q k) (fun k => change u' u e q k - change u w e q k)
      + / 2 * (c * dt) ^ 2 * dot2 (K := Rops) (vec f) (dim f) (fun k j => sol_to_grad P f u' e q k j - sol_to_grad P f u e q k j)
                                                              (fun k j => sol_to_grad P f u' e q k j - sol_to_grad P f u e q k j)).
End Energy.

(** ** Triangles *)
(** twice the signed area of the triangle of the first three nodes of a cell: positive if they turn left *)
Definition signed_area2 (points : list (list R)) (cell : list nat) : R :=
  let x i := nth 0 (nth (nth i cell 0%nat) points []) 0%R in
  let y i := nth 1 (nth (nth i cell 0%nat) points []) 0%R in
  ((x 1%nat - x 0%nat) * (y 2%nat - y 0%nat) - (x 2%nat - x 0%nat) * (y 1%nat - y 0%nat))%R.
(** node numbers exist, points have two coordinates *)
Definition triangle_mesh (n : nat) (points : list (list R)) (cells : list (list nat)) : Prop :=
  (forall cell, In cell cells -> length cell = n /\ forall i, In i cell -> (i < length points)%nat) /\
  (forall p, In p points -> (2 <= length p)%nat).
(** The sides of a six node triangle: (corner, corner, node between them), in the order of meshio. *)
Definition sides6 : list (nat * nat * nat) := [(0, 1, 3); (1, 2, 4); (2, 0, 5)]%nat.
(** node m of a cell is the one between corners a and b *)
Definition between (cell : list nat) (a b m : nat) : Prop :=
  exists i j k, In (i, j, k) sides6 /\ nth k cell 0%nat = m /\
    ((nth i cell 0%nat = a /\ nth j cell 0%nat = b) \/ (nth i cell 0%nat = b /\ nth j cell 0%nat = a)).
