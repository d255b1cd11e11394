(** Model of applications/boundary_index/example.py: boundaries selected by coordinates and by node numbers.  Simplifications: real arithmetic. *)
From Coq Require Import String List Arith Bool Reals.
From Verif Require Import Num Arr Fe Problem Mesh Lagrangian.
Import ListNotations.
Local Open Scope R_scope.

(** example.py:28-30 *)
Definition bi_mesh : mesh := rectangle_mesh 2 2 1 1.
(** example.py:53-54 *)
Definition ind_set_right : list nat := [6; 7; 8]%nat.
Definition ind_set_top : list nat := [2; 5; 8]%nat.
(** np.isin for one number *)
Definition isin (ind : nat) (inds : list nat) : bool := existsb (Nat.eqb ind) inds.
(** example.py:57-61, 63-67, 69-70, 72-73 *)
Definition bi_left (point : list Rops) : bool := isclose (nth 0 point 0) 0 (/ 10 ^ 5).
Definition bi_right (point : list Rops) (ind : nat) : bool := isin ind ind_set_right.
Definition bi_bottom (point : list Rops) : bool := isclose (nth 1 point 0) 0 (/ 10 ^ 5).
Definition bi_top (point : list Rops) (ind : nat) : bool := isin ind ind_set_top.
(** example.py:75-84 *)
Definition bi_info : list (location_fn Rops) * list nat * list (list Rops -> Rops) := ([Loc1 bi_left; Loc2 bi_right], [0; 0]%nat, [(fun _ => 0); (fun _ => 0)]).
(** example.py:86 *)
Definition bi_locs : list (location_fn Rops) := [Loc1 bi_bottom; Loc2 bi_top].
(** example.py:16-24 *)
Definition bi_surface (u x : nat -> Rops) (ivs : list unit) (k : nat) : Rops := nth k [- sin (5 * x 0%nat)] 0.
Definition bi_maps : user_maps Rops unit := mkMaps (K := Rops) (Some (fun G _ => G)) None None (Some [bi_surface; bi_surface]) None.
(** example.py:88; the variable f is that of the mesh with bi_info *)
Definition bi_problem (f : fe Rops) : result (problem Rops unit) := bind (get_boundary_conditions_inds f (Some bi_locs)) (fun inds => Ok (mkProblem [f] inds bi_maps [] (map (fun _ => []) inds))).
