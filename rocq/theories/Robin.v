(** Model of applications/robin_bc/example.py:18-89: a scalar problem written with universal kernels for cells and faces. *)
From Coq Require Import List Arith Reals.
From Verif Require Import Num Arr Fe Problem.
Import ListNotations.

Section Robin.
  Context {K : ops} {V : Type}.
  Open Scope num_scope.
  (** example.py:37-39: the body force at a point *)
  Variable body_val : (nat -> K) -> K.
  (** example.py:66-67 *)
  Variable robin_map : K -> K.
  (** example.py:22-55: universal_kernel; slices [:num_nodes] keep the nodes of the first variable *)
  Definition poisson_kernel (self : problem K V) (ci : cell_in K V) : list K :=
    let f0 := fe0 self in
    let cell_sol := nth 0 (unravel (dof_shapes self) (ci_sol ci)) [] in
    let u_grads q k j := sum_n (num_nodes f0) (fun a => get2 0 cell_sol a k * ci_grads ci q a j) in
    let val a k := sum_n (num_quads f0) (fun q => sum_n (dim f0) (fun j => u_grads q k j * ci_vgJxW ci q a j)) in
    let body a := sum_n (num_quads f0) (fun q => body_val (ci_x ci q) * shape_vals f0 q a * ci_JxW ci 0 q) in
    flat_map (fun a => map (fun k => val a k - body a) (seq 0 (vec f0))) (seq 0 (num_nodes f0)).
  (** example.py:69-87: robin_kernel *)
  Definition robin_kernel (self : problem K V) (fi : face_in K V) : list K :=
    let f0 := fe0 self in
    let cell_sol := nth 0 (unravel (dof_shapes self) (fi_sol fi)) [] in
    let u q k := sum_n (num_nodes f0) (fun a => get2 0 cell_sol a k * fi_vals fi q a) in
    let u_physics q k := robin_map (u q k) in
    flat_map (fun a => map (fun k => sum_n (num_face_quads f0) (fun q => u_physics q k * fi_vals fi q a * fi_nanson fi 0 q)) (seq 0 (vec f0))) (seq 0 (num_nodes f0)).
  (** example.py:18-89: what the class declares.  The kernels read the problem (self.fes, self.unflatten_fn_dof) only through its elements, so
      the problem they are closed over may carry any maps. *)
  Definition robin_maps (self : problem K V) : user_maps K V :=
    mkMaps None None (Some (poisson_kernel self)) None (Some [robin_kernel self; robin_kernel self]).
End Robin.

Local Open Scope R_scope.
(** example.py:36-39 *)
Definition example_body (x : nat -> Rops) : Rops :=
  let dx := x 0%nat - 1 / 2 in let dy := x 1%nat - 1 / 2 in
  x 0%nat * sin (5 * PI * x 1%nat) + 1 * exp (- (dx * dx + dy * dy) / (2 / 100)).
(** example.py:66-67 *)
Definition example_robin (u : Rops) : Rops := 5 * u ^ 2.
