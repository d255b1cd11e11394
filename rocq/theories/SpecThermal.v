(** Vocabulary for C72. *)
From Coq Require Import String Reals List Arith Bool.
From Verif Require Import Num Arr Fe Problem Basis SpecFe Init Thermal SpecQuiet.
Import ListNotations.
Local Open Scope R_scope.

(** heat flowing in at a surface point x at temperature T: Gaussian laser beam on the faces at its height, convection everywhere *)
Definition heat_flux (center : nat -> R) (switch : R) (top : bool) (T : R) (x : nat -> R) : R :=
  (if top then 2 * 0.4 * 500 / (PI * 0.001 ^ 2) * exp (- (2) * ((x 0%nat - center 0%nat) ^ 2 + (x 1%nat - center 1%nat) ^ 2) / 0.001 ^ 2) * switch else 0)
  + 50 * (300 - T).
(** heat needed per volume and time to go from T_old to T in dt *)
Definition heat_rate (T T_old dt : R) : R := 8440 * 500 * (T - T_old) / dt.
(** node n belongs to an active cell *)
Definition active_node (cells : list (list nat)) (tab : list bool) (n : nat) : Prop :=
  exists c, (c < length cells)%nat /\ nth c tab false = true /\ In n (nth c cells []).
(** the arguments of example.py:281-285 *)
Definition ambient : list Rops -> Rops := fun _ => 300.
Definition thermal_bc : list (location_fn Rops) * list nat * list (list Rops -> Rops) := ([Loc1 (fun _ => false)], [0%nat], [ambient]).
Definition thermal_var (s : string) (quad fquad : list (list Rops) * list Rops) (normals : nat -> nat -> Rops) (pts : list (list Rops)) (cls : list (list nat)) : var_args Rops :=
  mkVar pts cls 1 s quad fquad normals (Some thermal_bc).
(** the outer faces, in any order *)
Definition outer_faces (f : fe Rops) (tab : list bool) (ext : list (nat * nat)) : Prop :=
  NoDup ext /\ forall c fc, In (c, fc) ext <-> outer_face (cells f) (face_inds f) tab c fc.
(** at the height of the laser *)
Definition at_top (top : list (list R) -> bool) (f : fe Rops) (c fc : nat) : bool :=
  top (map (fun n => nth n (points f) []) (face_nodes (cells f) (face_inds f) c fc)).
(** cell c is active at the start or some pass has it under the beam *)
Definition activated (tab : list bool) (passes : list pass) (c : nat) : bool := nth c tab false || existsb (fun ps => ps_born ps c) passes.
(** [ps] is the last pass in which a cell becomes active *)
Definition last_birth (ncells : nat) (tab : list bool) (passes : list pass) (ps : pass) : Prop :=
  exists before after, passes = before ++ ps :: after /\
    (exists c, (c < ncells)%nat /\ activated tab before c = false /\ ps_born ps c = true) /\
    forall c, (c < ncells)%nat -> activated tab passes c = activated tab (before ++ [ps]) c.
(** the active cells after the passes *)
Definition active_after (ncells : nat) (tab : list bool) (passes : list pass) : list bool := map (activated tab passes) (seq 0 ncells).
(** heat stored per time in the active cells between T_old and T *)
Definition stored_heat (f : fe Rops) (P : list (list Rops)) (tab : list bool) (dt : R) (T T_old : list (list Rops)) : R :=
  sum_n (K := Rops) (length (cells f)) (fun c => if nth c tab false then sum_n (K := Rops) (num_quads f) (fun q =>
    heat_rate (convert_from_dof_to_quad f T c q 0%nat) (convert_from_dof_to_quad f T_old c q 0%nat) dt * get_JxW P f c q) else 0).
(** heat flowing in through the faces ext *)
Definition incoming_heat (sqrtK : Rops -> Rops) (f : fe Rops) (P : list (list Rops)) (top : list (list R) -> bool) (center : nat -> R) (switch : R)
    (T_old : list (list Rops)) (ext : list (nat * nat)) : R :=
  sum_over (K := Rops) ext (fun x => sum_n (K := Rops) (num_face_quads f) (fun q =>
    heat_flux center switch (at_top top f (fst x) (snd x)) (convert_from_dof_to_face_quad f T_old (fst x) (snd x) q 0%nat)
      (get_physical_surface_quad_points P f (fst x) (snd x) q) * nanson_scale sqrtK P f (fst x) (snd x) q)).
