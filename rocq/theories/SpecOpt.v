(** Vocabulary for the filter and optimization properties (C42, C43, C62-C66). *)
From Coq Require Import List Arith Reals.
From Verif Require Import Num Arr Fe XNum Newton Mma SpecMma MmaOpt.
Import ListNotations.
Local Open Scope R_scope.

(** Densities in an interval, densities in [0, 1] *)
Definition within (n : nat) (lo hi : R) (rho : nat -> xr) : Prop := each n (fin_with (fun r => lo <= r <= hi)) rho.
Definition densities (n : nat) (rho : nat -> xr) : Prop := within n 0 1 rho.

(** The distance of the points number i and j of a list *)
Definition dist (dim : nat) (cs : list (list xr)) (i j : nat) : R :=
  let c k l := to_R (nth l (nth k cs []) NaN) in sqrt (sum_n (K := Rops) dim (fun l => (c i l - c j l) * (c i l - c j l))).

(** What scipy documents for KDTree.query(points[i], k=20).  At least 20 points: 20 different points, with their distances, such
    that no other point is nearer.  Fewer points: missing neighbours are reported with an infinite distance and the index len(points). *)
Definition query_correct (dim : nat) (query : list (list xr) -> nat -> list (xr * nat)) (cs : list (list xr)) : Prop :=
  forall i, (i < length cs)%nat ->
    length (query cs i) = 20%nat /\
    (length cs < 20 -> In (PInf, length cs) (query cs i))%nat /\
    (20 <= length cs -> NoDup (map snd (query cs i)) /\
       (forall d j, In (d, j) (query cs i) -> j < length cs /\ d = Fin (dist dim cs i j)) /\
       forall j, j < length cs -> ~ In j (map snd (query cs i)) -> forall d j', In (d, j') (query cs i) -> (dist dim cs i j' <= dist dim cs i j)%R)%nat.

(** A mesh of finite points with positive volume; flex_inds are cell numbers. *)
Definition mesh_ok (dim : nat) (points : list (list xr)) (cells : list (list nat)) (JxW : list (list xr)) (flex_inds : list nat) : Prop :=
  (0 < dim)%nat /\
  (forall p, In p points -> length p = dim /\ Forall finite p) /\
  (forall c, In c cells -> c <> [] /\ Forall (fun v => (v < length points)%nat) c) /\
  Forall (fun c => (c < length cells)%nat) flex_inds /\
  positive (total_volume JxW).
(** The centroid of a cell *)
Definition centroid_of (points : list (list xr)) (c : list nat) (l : nat) : R :=
  fold_right Rplus 0 (map (fun v => to_R (nth l (nth v points []) NaN)) c) / INR (length c).
(** The centroids of the flexible cells *)
Definition flex_centroids (dim : nat) (points : list (list xr)) (cells : list (list nat)) (flex_inds : list nat) : list (list xr) :=
  map (fun f => map (fun l => Fin (centroid_of points (nth f cells []) l)) (seq 0 dim)) flex_inds.
(** 1.5 times the size of a cube with the average volume of a cell *)
Definition radius (dim : nat) (cells : list (list nat)) (JxW : list (list xr)) : R :=
  15 / 10 * Rpower (to_R (total_volume JxW) / INR (length cells)) (1 / INR dim).

(** A filter over n cells: non-negative finite weights, existing columns, the row sums are positive. *)
Definition filter_ok (n : nat) (ft : filter) : Prop :=
  length (f_rows ft) = n /\
  forall i, (i < n)%nat -> (forall w j, In (w, j) (nth i (f_rows ft) []) -> nonneg w /\ (j < n)%nat) /\ positive (Hs ft i) /\
    Hs ft i = sumK (map fst (nth i (f_rows ft) []) : list Xops).
(** The weight of cell j in row i (0 if it is not stored) *)
Definition weight_of (ft : filter) (i j : nat) : R :=
  fold_right Rplus 0 (map (fun wj => if (snd wj =? j)%nat then to_R (fst wj) else 0) (nth i (f_rows ft) [])).

(** The handles return finite numbers at densities in [0, 1] (or raise). *)
Definition handles_finite (m n : nat) (objectiveHandle : nat -> (nat -> xr) -> result (xr * (nat -> xr)))
    (consHandle : (nat -> xr) -> nat -> result ((nat -> xr) * (nat -> nat -> xr))) : Prop :=
  (forall l rho J dJ, densities n rho -> objectiveHandle l rho = Ok (J, dJ) -> each n finite dJ) /\
  (forall l rho vc dvc, densities n rho -> consHandle rho l = Ok (vc, dvc) -> each m finite vc /\ forall i, (i < m)%nat -> each n finite (dvc i)).

(** The linear solver and the handles raise no exception. *)
Definition solves_always (solve : nat -> (nat -> nat -> XF) -> (nat -> XF) -> result (nat -> XF)) : Prop := forall k A b, exists x, solve k A b = Ok x.

(** One iteration of the method of moving asymptotes, number i (from 0), with a history of designs d and of asymptotes L, U:
    the values and gradients at the (filtered) design d i, the sub-problem with the box [0, 1] that looks back at the two previous
    designs, and the next design and asymptotes. *)
Definition mma_iteration (density_filtering sensitivity_filtering : bool) solve fuel m n objectiveHandle consHandle ft movelimit
    (d L U : nat -> nat -> xr) (handed : list (nat -> xr)) (i : nat) : Prop :=
  exists rho dJ vc dvc st,
    nth_error handed i = Some rho /\ physical density_filtering n ft (d i) = Ok rho /\
    gradients sensitivity_filtering n objectiveHandle consHandle ft (i + 1) (d i) rho = Ok (dJ, vc, dvc) /\
    let S := mma_problem n (mkMma (F := XF) (i + 1) (d (i - 1)%nat) (d (i - 2)%nat) (L i) (U i) (fun _ => Fin 0) (fun _ => Fin 1) movelimit
               (Fin 1) (fun _ => Fin 0) (fun _ => Fin 10000) (fun _ => Fin 0)) (d i) dJ vc dvc in
    subsolv m n S solve fuel (Fin (1 / 10000000) : XF) = Done (Ok st) /\ d (i + 1)%nat = vx st /\ L (i + 1)%nat = low S /\ U (i + 1)%nat = upp S.
