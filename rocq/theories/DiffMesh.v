(** Model of applications/differentiable_mesh/example.py and applications/differentiable_mesh/finite_difference.py: the derivative
    of a function of the solution with respect to the mesh points. *)
From Coq Require Import String List Arith Bool Reals.
From Verif Require Import Num Arr Fe Problem Basis Init Mesh Lagrangian.
Import ListNotations.
Local Open Scope R_scope.

(** example.py:45-62 *)
Definition dm_left (point : list Rops) : bool := isclose (nth 0 point 0) 0 (/ 10 ^ 5).
Definition dm_right (point : list Rops) : bool := isclose (nth 0 point 0) 1 (/ 10 ^ 5).
Definition dm_bottom (point : list Rops) : bool := isclose (nth 1 point 0) 0 (/ 10 ^ 3).
Definition dm_top (point : list Rops) : bool := isclose (nth 1 point 0) 1 (/ 10 ^ 5).
Definition u0 (point : list Rops) : Rops := 0.
Definition u0_top (point : list Rops) : Rops := sin (PI * nth 0 point 0) * 2.
(** example.py:64-65 *)
Definition u_exact_fn (x y : R) : R := sin (PI * x) * (1 + y).
(** example.py:67-70; u is the array of the only variable, (num_total_nodes, 1) *)
Definition objective_sum_u_squared (sol_list : list (list (list Rops))) : R :=
  fold_right Rplus 0 (map (fun u => u ^ 2) (concat (nth 0 sol_list []))).
(** example.py:72-81; None stands for inf *)
Definition fd_distance (p : list Rops) : option R :=
  let on_bottom := isclose (nth 1 p 0) 0 (/ 10 ^ 3) in
  let not_corner := (if Rlt_dec (/ 10 ^ 4) (nth 0 p 0) then true else false) && (if Rlt_dec (nth 0 p 0) (1 - / 10 ^ 4) then true else false) in
  if on_bottom && not_corner then Some ((nth 0 p 0 - 35 / 100) ^ 2 + (nth 1 p 0 - 0) ^ 2) else None.
Definition less (x y : option R) : bool :=
  match x, y with Some a, Some b => if Rlt_dec a b then true else false | Some _, None => true | None, _ => false end.
(** jnp.argmin: the first of the smallest entries; [best] is the position and the value of the smallest so far *)
Fixpoint argmin_from (best : nat * option R) (i : nat) (l : list (option R)) : nat :=
  match l with
  | [] => fst best
  | x :: l => argmin_from (if less x (snd best) then (i, x) else best) (S i) l
  end.
(** argmin of an empty array raises ValueError *)
Definition argmin (l : list (option R)) : result nat := match l with [] => Err ValueErr | x :: l => Ok (argmin_from (0%nat, x) 1 l) end.
Definition pick_fd_node_on_neumann_edge (points : list (list Rops)) : result nat := argmin (map fd_distance points).

(** example.py:84-106: the maps of NonlinearPoisson.  The problem has no internal variables. *)
Definition dm_mass (u x : nat -> R) : nat -> R := fun _ =>
  let sx := sin (PI * x 0%nat) in
  let opy := 1 + x 1%nat in
  let u_ex := sx * opy in
  let lap_u := PI ^ 2 * sx * opy in
  let g := lap_u + u_ex ^ 3 in
  u 0%nat ^ 3 - g.
Definition neumann_flux (u x : nat -> R) : nat -> R := fun _ => sin (PI * x 0%nat).
Definition dm_maps : user_maps Rops unit :=
  mkMaps (K := Rops) (V := unit) (Some (fun grad_u _ => grad_u)) (Some (fun u x _ => dm_mass u x)) None (Some [fun u x _ => neumann_flux u x]) None.

(** example.py:118: the boundary conditions *)
Definition dm_bc : list (location_fn Rops) * list nat * list (list Rops -> Rops) :=
  ([Loc1 dm_left; Loc1 dm_right; Loc1 dm_top], [0; 0; 0]%nat, [u0; u0; u0_top]).
(** example.py:120-127 and finite_difference.py:29-38: a new problem on the points pts.  [quad], [fquad] and [normals] are those of basix. *)
Definition new_problem (quad fquad : list (list Rops) * list Rops) (normals : nat -> nat -> Rops) (cls : list (list nat)) (pts : list (list Rops)) : result (problem Rops unit) :=
  problem_init sqrt 2 [mkVar pts cls 1 "QUAD4" quad fquad normals (Some dm_bc)] (Some [Loc1 dm_bottom]) dm_maps (fun iv ivs => (iv, ivs)).
(** example.py:108-110, set_params: only the geometric quantities are computed again; a problem of the model takes its points where it is evaluated,
    so the parameters are the points given to compute_residual and newton_update. *)
Definition dm_points (pts : list (list Rops)) : list (list (list Rops)) := [pts].

(** pts[node, axis] += t *)
Definition moved (pts : list (list Rops)) (node axis : nat) (t : R) : list (list Rops) := upd_nth node (upd_nth axis (fun x => x + t)) pts.
(** finite_difference.py:7-8; a zero epsilon is not modelled (numpy divides and returns inf or nan) *)
Definition central (J_plus J_minus epsilon : R) : R := (J_plus - J_minus) / (2 * epsilon).
(** finite_difference.py:11-52; [make] builds the problem on the given points, [solver] is jax_fem's.  A negative axis or node is not modelled;
    one beyond the end raises IndexError. *)
Definition gold_fd_two_independent_problems {V : Type} (make : list (list Rops) -> result (problem Rops V)) (solver : problem Rops V -> result (list (list (list Rops))))
    (objective_fn : list (list (list Rops)) -> R) (points0 : list (list Rops)) (perturb_node perturb_axis : nat) (fd_eps : R)
  : result (R * R * R * nat * nat) :=
  if (perturb_node <? length points0)%nat && (perturb_axis <? length (nth perturb_node points0 []))%nat then
    let solve pts := bind (make pts) (fun prob => bind (solver prob) (fun sol => Ok (sol, prob))) in
    bind (solve (moved points0 perturb_node perturb_axis (- fd_eps))) (fun m =>
    bind (solve (moved points0 perturb_node perturb_axis fd_eps)) (fun q =>
    let Jm := objective_fn (fst m) in
    let Jp := objective_fn (fst q) in
    match boundary_inds_list (snd m), boundary_inds_list (snd q) with
    | bm :: _, bp :: _ => Ok (central Jp Jm fd_eps, Jm, Jp, length bm, length bp)
    | _, _ => Err IndexErr
    end))
  else Err IndexErr.
(** example.py:113-165: the problem, the chosen node, the finite difference, and the check of the numbers of faces *)
Definition dm_main (quad fquad : list (list Rops) * list Rops) (normals : nat -> nat -> Rops) (solver : problem Rops unit -> result (list (list (list Rops)))) (Nx Ny : nat) (fd_eps : R)
  : result (problem Rops unit * nat * R) :=
  let M := rectangle_mesh Nx Ny 1 1 in
  bind (new_problem quad fquad normals (m_cells M) (m_points M)) (fun problem =>
  bind (pick_fd_node_on_neumann_edge (m_points M)) (fun node =>
  bind (gold_fd_two_independent_problems (new_problem quad fquad normals (m_cells M)) solver objective_sum_u_squared (m_points M) node 1 fd_eps) (fun r =>
  let '(fd_gold, Jm, Jp, n_neu_m, n_neu_p) := r in
  match boundary_inds_list problem with
  | [] => Err IndexErr
  | b :: _ =>
      if negb (n_neu_m =? length b)%nat || negb (n_neu_p =? length b)%nat then Err RuntimeErr else Ok (problem, node, fd_gold)
  end))).
