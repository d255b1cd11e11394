(** Model of applications/serendipity/example.py: the stretched cube of 20-node elements.  Simplifications: real arithmetic; the mesh file is a list of points with three coordinates and a list of cells. *)
From Coq Require Import String List Arith Bool Reals.
From Verif Require Import Num Arr Fe Problem Basis Lagrangian Elastic.
Import ListNotations.
Local Open Scope R_scope.

(** points[:, k] *)
Definition column (k : nat) (pts : list (list Rops)) : list R := map (fun p => nth k p 0) pts.
(** onp.min and onp.max raise on an empty array *)
Definition onp_min (l : list R) : result R := match l with [] => Err ValueErr | x :: l => Ok (fold_left Rmin l x) end.
Definition onp_max (l : list R) : result R := match l with [] => Err ValueErr | x :: l => Ok (fold_left Rmax l x) end.
(** example.py:39, 40, 41 for k = 0, 1, 2 *)
Definition shift_column (k : nat) (pts : list (list Rops)) : result (list (list Rops)) :=
  bind (onp_min (column k pts)) (fun m => Ok (map (upd_nth k (fun x : Rops => (x - m : R))) pts)).
(** example.py:39-41 *)
Definition shifted (pts : list (list Rops)) : result (list (list Rops)) :=
  bind (shift_column 0 pts) (fun pts => bind (shift_column 1 pts) (shift_column 2)).
(** example.py:51-55 *)
Definition sd_left (point : list Rops) : bool := isclose (nth 0 point 0) 0 (/ 10 ^ 5).
Definition sd_right (Lx : R) (point : list Rops) : bool := isclose (nth 0 point 0) Lx (/ 10 ^ 5).
(** example.py:57-66 *)
Definition sd_info (Lx : R) : list (location_fn Rops) * list nat * list (list Rops -> Rops) :=
  let zero_dirichlet_val (_ : list Rops) : Rops := 0 in
  let dirichlet_val (_ : list Rops) : Rops := 1 / 10 * Lx in
  ([Loc1 sd_left; Loc1 sd_left; Loc1 sd_left; Loc1 (sd_right Lx); Loc1 (sd_right Lx); Loc1 (sd_right Lx)], [0; 1; 2; 0; 1; 2]%nat,
   [zero_dirichlet_val; zero_dirichlet_val; zero_dirichlet_val; dirichlet_val; zero_dirichlet_val; zero_dirichlet_val]).
(** example.py:33, 39-45, 68; the quadrature rules and normals are those of the element *)
Definition sd_variable (quad fquad : list (list Rops) * list Rops) (normals : nat -> nat -> Rops) (pts : list (list Rops)) (cls : list (list nat)) : result (fe Rops) :=
  bind (shifted pts) (fun pts => bind (onp_max (column 0 pts)) (fun Lx => fe_init (K := Rops) sqrt "HEX20" quad fquad normals pts cls 3 3 (Some (sd_info Lx)))).
(** example.py:16-26 *)
Definition sd_stress (u_grad : nat -> nat -> Rops) : nat -> nat -> Rops :=
  let E := 70 * 10 ^ 3 in
  let nu := 3 / 10 in
  let mu := E / (2 * (1 + nu)) in
  let lmbda := E * nu / ((1 + nu) * (1 - 2 * nu)) in
  elastic_stress (V := unit) lmbda mu 3 u_grad [].
