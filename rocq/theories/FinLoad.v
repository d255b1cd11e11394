(** Model of the load programs of applications/finite_plasticity/single_cell.py and thin_plate.py: boundary conditions, scales and set_params.
    The material, the loop over the steps and the internal variables are those of FinPlast.v. *)
From Coq Require Import String List Arith Bool Reals.
From Verif Require Import Num Arr Fe Problem Lagrangian Volume.
Import ListNotations.
Local Open Scope R_scope.

(** np.linspace *)
Definition linspace (a b : R) (n : nat) : list R := map (fun i => a + INR i * ((b - a) / INR (n - 1))) (seq 0 n).
(** single_cell.py:61 *)
Definition sc_scales : list R := map (Rmult (1 / 100)) (linspace 0 1 11 ++ linspace 1 0 11).
(** thin_plate.py:65 *)
Definition tp_scales : list R := map (Rmult (2 / 10)) (linspace 0 1 5 ++ linspace 1 0 5).

Definition bc_info := (list (location_fn Rops) * list nat * list (list Rops -> Rops))%type.
Definition fl_zero (point : list Rops) : Rops := 0.

(** single_cell.py:39-50, Lx = Ly = Lz = 1; np.all over the three coordinates *)
Definition sc_top (point : list Rops) : bool := isclose (nth 2 point 0) 1 (/ 10 ^ 5).
Definition sc_bottom (point : list Rops) : bool := isclose (nth 2 point 0) 0 (/ 10 ^ 5).
Definition sc_origin (point : list Rops) : bool := isclose (nth 0 point 0) 0 (/ 10 ^ 5) && (isclose (nth 1 point 0) 0 (/ 10 ^ 5) && isclose (nth 2 point 0) 0 (/ 10 ^ 5)).
Definition sc_x_corner (point : list Rops) : bool := isclose (nth 0 point 0) 1 (/ 10 ^ 5) && (isclose (nth 1 point 0) 0 (/ 10 ^ 5) && isclose (nth 2 point 0) 0 (/ 10 ^ 5)).
(** single_cell.py:52-56 *)
Definition sc_value (scale : R) (point : list Rops) : Rops := scale * 1.
(** single_cell.py:65-68 *)
Definition sc_info (scale : R) : bc_info :=
  ([Loc1 sc_origin; Loc1 sc_origin; Loc1 sc_x_corner; Loc1 sc_bottom; Loc1 sc_top], [0; 1; 1; 2; 2]%nat, [fl_zero; fl_zero; fl_zero; fl_zero; sc_value scale]).

(** thin_plate.py:42-50, Lx = Ly = 10, Lz = 0.25 *)
Definition tp_walls (point : list Rops) : bool :=
  isclose (nth 0 point 0) 0 (/ 10 ^ 5) || isclose (nth 0 point 0) 10 (/ 10 ^ 5) || isclose (nth 1 point 0) 0 (/ 10 ^ 5) || isclose (nth 1 point 0) 10 (/ 10 ^ 5).
Definition tp_top (point : list Rops) : bool := isclose (nth 2 point 0) (1 / 4) (/ 10 ^ 5).
(** thin_plate.py:55-63 *)
Definition tp_value (scale : R) (point : list Rops) : Rops :=
  let x := nth 0 point 0 in let y := nth 1 point 0 in
  let sdf := Rmin (Rabs x) (Rmin (Rabs (10 - x)) (Rmin (Rabs y) (Rabs (10 - y)))) in
  let scaled_sdf := sdf / (1 / 2 * Rmin 10 10) in
  let EPS := / 10 ^ 10 in
  - scale * 10 * (1 / (1 + (1 / (scaled_sdf + EPS) - 1))).
(** thin_plate.py:67-70 *)
Definition tp_info (scale : R) : bc_info :=
  ([Loc1 tp_walls; Loc1 tp_walls; Loc1 tp_walls; Loc1 tp_top], [0; 1; 2; 2]%nat, [fl_zero; fl_zero; fl_zero; tp_value scale]).

(** set_params of both classes (single_cell.py:19-23, thin_plate.py:22-26), the part on the boundary conditions: the information of the variable with its last
    value function replaced is kept and evaluated. *)
Definition set_scale (get_dirichlet_top : R -> list Rops -> Rops) (f : fe Rops) (info : bc_info) (scale : R) : result (bc_info * fe Rops) :=
  let '(locs, vecs, values) := info in
  let info' := (locs, vecs, replace_last values (get_dirichlet_top scale)) in
  bind (update_Dirichlet_boundary_conditions f (Some info')) (fun f' => Ok (info', f')).
(** single_cell.py:76-78, thin_plate.py:77-79: the variable that each step solves with *)
Fixpoint load_steps (get_dirichlet_top : R -> list Rops -> Rops) (f : fe Rops) (info : bc_info) (scales : list R) : result (list (fe Rops)) :=
  match scales with
  | [] => Ok []
  | s :: rest => bind (set_scale get_dirichlet_top f info s) (fun r => bind (load_steps get_dirichlet_top (snd r) (fst r) rest) (fun fs => Ok (snd r :: fs)))
  end.
