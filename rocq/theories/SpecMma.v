(** Vocabulary for the optimizer properties (C39-C43): finite numbers, the interior of the sub-problem. *)
From Coq Require Import List Arith Reals.
From Verif Require Import Num Arr Fe XNum Mma.
Import ListNotations.
Local Open Scope R_scope.

(** x is a finite number with the property Q *)
Definition fin_with (Q : R -> Prop) (x : xr) : Prop := exists r, x = Fin r /\ Q r.
Definition finite (x : xr) : Prop := fin_with (fun _ => True) x.
Definition positive (x : xr) : Prop := fin_with (fun r => 0 < r) x.
Definition nonneg (x : xr) : Prop := fin_with (fun r => 0 <= r) x.
(** x < y, both finite; x <= y, both finite *)
Definition xlt (x y : xr) : Prop := exists a b, x = Fin a /\ y = Fin b /\ a < b.
Definition xle (x y : xr) : Prop := exists a b, x = Fin a /\ y = Fin b /\ a <= b.

(** Every entry of a vector of n entries *)
Definition each (n : nat) (P : xr -> Prop) (u : nat -> xr) : Prop := forall i, (i < n)%nat -> P (u i).

(** The sub-problem: minimize sum_j p0_j/(upp_j - x_j) + q0_j/(x_j - low_j) + a0 z + sum_i (c_i y_i + d_i y_i^2/2) under
    sum_j P_ij/(upp_j - x_j) + Q_ij/(x_j - low_j) - a_i z - y_i <= b_i, alfa <= x <= beta, y >= 0, z >= 0.
    It is well posed if all data are finite, the four bounds are ordered and the coefficients are not negative. *)
Definition well_posed (m n : nat) (S : subproblem XF) : Prop :=
  (forall j, (j < n)%nat -> xlt (low S j) (alfa S j) /\ xlt (alfa S j) (beta S j) /\ xlt (beta S j) (upp S j)) /\
  each n nonneg (p0 S) /\ each n nonneg (q0 S) /\
  (forall i, (i < m)%nat -> each n nonneg (PP S i) /\ each n nonneg (QQ S i)) /\
  finite (a0 S) /\ each m finite (aa S) /\ each m finite (bb S) /\ each m finite (cc S) /\ each m nonneg (dd S).

(** The point is strictly inside: alfa < x < beta and all multipliers, slacks and auxiliary variables positive. *)
Definition interior (m n : nat) (S : subproblem XF) (st : state XF) : Prop :=
  (forall j, (j < n)%nat -> xlt (alfa S j) (vx st j) /\ xlt (vx st j) (beta S j)) /\
  each m positive (vy st) /\ positive (vz st) /\ each m positive (vlam st) /\ each n positive (vxsi st) /\
  each n positive (veta st) /\ each m positive (vmu st) /\ positive (vzet st) /\ each m positive (vs st).

(** np.linalg.solve returns finite numbers (or raises). *)
Definition solves_finite (solve : nat -> (nat -> nat -> XF) -> (nat -> XF) -> result (nat -> XF)) : Prop :=
  forall k A b x, solve k A b = Ok x -> each k finite x.

(** A convex separable function sum_j p_j/(u_j - x_j) + q_j/(x_j - l_j), and the change of one variable. *)
Definition separable (n : nat) (p q l u x : nat -> R) : R := sum_n (K := Rops) n (fun j => p j / (u j - x j) + q j / (x j - l j)).
Definition set_at (x : nat -> R) (j : nat) (t : R) : nat -> R := fun i => if (i =? j)%nat then t else x i.
(** The real values of finite numbers *)
Definition reals (u : nat -> xr) : nat -> R := fun i => to_R (u i).

(** What mmasub is given: a design inside a box with non-empty interior, a positive move limit, finite numbers. *)
Definition design_ok (n : nat) (M : mma XF) (xval : nat -> xr) : Prop :=
  (forall j, (j < n)%nat -> xle (x_min M j) (xval j) /\ xle (xval j) (x_max M j) /\ xlt (x_min M j) (x_max M j)) /\
  positive (moveLimit M) /\ each n finite (xold1 M) /\ each n finite (xold2 M) /\ each n finite (lowAsymp M) /\ each n finite (upAsymp M).
Definition scaling_ok (m : nat) (M : mma XF) : Prop :=
  finite (zconst M) /\ each m finite (zscale M) /\ each m finite (ylinscale M) /\ each m nonneg (yquadscale M).
Definition values_ok (m n : nat) (df0dx fval : nat -> xr) (dfdx : nat -> nat -> xr) : Prop :=
  each n finite df0dx /\ each m finite fval /\ forall i, (i < m)%nat -> each n finite (dfdx i).

(** The points at which subsolv evaluates the residual: the first point, and every point reached from such a point by
    a trial step: the Newton direction times the first step length, halved j times. *)
Inductive visited (m n : nat) (S : subproblem XF) (solve : nat -> (nat -> nat -> XF) -> (nat -> XF) -> result (nat -> XF)) : state XF -> Prop :=
| visited_start : visited m n S solve (start S)
| visited_trial st (epsi : R) d steg j : visited m n S solve st ->
    direction m n S (Fin epsi : XF) st solve = Ok d -> first_steg m n S st d = Ok steg ->
    visited m n S solve (move_by st d (xdiv steg (Fin (2 ^ j)) : XF)).

(** The real numbers of a finite sub-problem and of a finite point *)
Definition real_S (S : subproblem XF) : subproblem RF := mkSub (F := RF) (fun i => to_R (low S i)) (fun i => to_R (upp S i))
  (fun i => to_R (alfa S i)) (fun i => to_R (beta S i)) (fun i => to_R (p0 S i)) (fun i => to_R (q0 S i)) (fun k i => to_R (PP S k i))
  (fun k i => to_R (QQ S k i)) (to_R (a0 S)) (fun i => to_R (aa S i)) (fun i => to_R (bb S i)) (fun i => to_R (cc S i)) (fun i => to_R (dd S i)).
Definition real_st (st : state XF) : state RF := mkSt (F := RF) (fun i => to_R (vx st i)) (fun i => to_R (vy st i)) (to_R (vz st))
  (fun i => to_R (vlam st i)) (fun i => to_R (vxsi st i)) (fun i => to_R (veta st i)) (fun i => to_R (vmu st i)) (to_R (vzet st)) (fun i => to_R (vs st i)).

(** The Lagrangian of the sub-problem: s is the slack of the constraints, lam, xsi, eta, mu, zet the multipliers. *)
Definition lagrangian (m n : nat) (T : subproblem RF) (st : state RF) : R :=
  separable n (p0 T) (q0 T) (low T) (upp T) (vx st) + a0 T * vz st
  + sum_n (K := Rops) m (fun k => cc T k * vy st k + dd T k * (vy st k * vy st k) / 2)
  + sum_n (K := Rops) m (fun k => vlam st k * (separable n (PP T k) (QQ T k) (low T) (upp T) (vx st) - aa T k * vz st - vy st k - bb T k))
  - sum_n (K := Rops) n (fun j => vxsi st j * (vx st j - alfa T j)) - sum_n (K := Rops) n (fun j => veta st j * (beta T j - vx st j))
  - sum_n (K := Rops) m (fun k => vmu st k * vy st k) - vzet st * vz st.
Definition with_x (st : state RF) (x : nat -> R) : state RF := mkSt (F := RF) x (vy st) (vz st) (vlam st) (vxsi st) (veta st) (vmu st) (vzet st) (vs st).
Definition with_y (st : state RF) (y : nat -> R) : state RF := mkSt (F := RF) (vx st) y (vz st) (vlam st) (vxsi st) (veta st) (vmu st) (vzet st) (vs st).
Definition with_z (st : state RF) (z : R) : state RF := mkSt (F := RF) (vx st) (vy st) z (vlam st) (vxsi st) (veta st) (vmu st) (vzet st) (vs st).
(** The optimality conditions of the sub-problem with complementarity relaxed to products equal to e, up to tol: the Lagrangian is
    stationary in x, y and z, the constraints with slack s are met, and every multiplier times its constraint is e. *)
Definition kkt_within (m n : nat) (T : subproblem RF) (e tol : R) (st : state RF) : Prop :=
  (forall j, (j < n)%nat -> exists g, derivable_pt_lim (fun t => lagrangian m n T (with_x st (set_at (vx st) j t))) (vx st j) g /\ Rabs g <= tol) /\
  (forall k, (k < m)%nat -> exists g, derivable_pt_lim (fun t => lagrangian m n T (with_y st (set_at (vy st) k t))) (vy st k) g /\ Rabs g <= tol) /\
  (exists g, derivable_pt_lim (fun t => lagrangian m n T (with_z st t)) (vz st) g /\ Rabs g <= tol) /\
  (forall k, (k < m)%nat -> Rabs (separable n (PP T k) (QQ T k) (low T) (upp T) (vx st) - aa T k * vz st - vy st k - bb T k + vs st k) <= tol) /\
  (forall j, (j < n)%nat -> Rabs (vxsi st j * (vx st j - alfa T j) - e) <= tol /\ Rabs (veta st j * (beta T j - vx st j) - e) <= tol) /\
  (forall k, (k < m)%nat -> Rabs (vmu st k * vy st k - e) <= tol /\ Rabs (vlam st k * vs st k - e) <= tol) /\
  Rabs (vzet st * vz st - e) <= tol.

(** k rounds of the inner loop *)
Inductive rounds (m n : nat) (S : subproblem XF) (solve : nat -> (nat -> nat -> XF) -> (nat -> XF) -> result (nat -> XF)) (epsi : XF) : nat -> iterate XF -> iterate XF -> Prop :=
| rounds_O it : rounds m n S solve epsi 0 it it
| rounds_S k it1 it2 it3 : inner_step m n S solve epsi it1 = Ok it2 -> rounds m n S solve epsi k it2 it3 -> rounds m n S solve epsi (Datatypes.S k) it1 it3.

(** np.linalg.solve is exact (real numbers) *)
Definition solves_exactly (solve : nat -> (nat -> nat -> RF) -> (nat -> RF) -> result (nat -> RF)) : Prop :=
  forall k A b x, solve k A b = Ok x -> forall i, (i < k)%nat -> sum_n (K := Rops) k (fun j => A i j * x j) = b i.
(** the data and the point are such that no denominator vanishes and all variables are inside *)
Definition real_interior (m n : nat) (T : subproblem RF) (st : state RF) : Prop :=
  (forall j, (j < n)%nat -> low T j < alfa T j /\ alfa T j < vx st j /\ vx st j < beta T j /\ beta T j < upp T j) /\
  (forall j, (j < n)%nat -> 0 <= p0 T j /\ 0 <= q0 T j) /\ (forall k j, (k < m)%nat -> (j < n)%nat -> 0 <= PP T k j /\ 0 <= QQ T k j) /\
  (forall k, (k < m)%nat -> 0 <= dd T k) /\
  (forall k, (k < m)%nat -> 0 < vy st k /\ 0 < vlam st k /\ 0 < vmu st k /\ 0 < vs st k) /\ 0 < vz st /\ 0 < vzet st /\
  (forall j, (j < n)%nat -> 0 < vxsi st j /\ 0 < veta st j).
(** d is the Newton step for the residual of the relaxed optimality conditions: along st + t d every entry r of the residual
    has the derivative - r at t = 0. *)
Definition newton_step (m n : nat) (T : subproblem RF) (e : R) (st d : state RF) : Prop :=
  forall i, (i < length (residu m n T (e : RF) st))%nat ->
    derivable_pt_lim (fun t => nth i (residu m n T (e : RF) (move_by (F := RF) st d t)) 0) 0 (- nth i (residu m n T (e : RF) st) 0).

(** z is y brought into the interval [lo, hi] *)
Definition clamped (lo hi y z : R) : Prop := lo <= z <= hi /\ (lo <= y <= hi -> z = y) /\ (y < lo -> z = lo) /\ (hi < y -> z = hi).
