(** Model of applications/stokes/example.py: the universal kernel of the Stokes equations in velocity and pressure, and the
    boundary conditions on the interior contour.  The orientation of triangles in the same file is modelled in Wave.v. *)
From Coq Require Import List Arith Bool Reals.
From Verif Require Import Num Arr Fe Problem Wave.
Import ListNotations.

Section Kernel.
  Context {K : ops} {V : Type}.
  Open Scope num_scope.

  (** example.py:20-72.  custom_init makes fe_u, fe_p aliases of fes[0], fes[1].  Arrays are index functions; the kernel of a cell
      is called with the solution of the cell, the gradients of the nodes of both variables in one array, JxW of both variables. *)
  Definition stokes_kernel (self : problem K V) (ci : cell_in K V) : list K :=
    let fe_u := nth 0 (fes self) (fe0 self) in
    let fe_p := nth 1 (fes self) (fe0 self) in
    let cell_sol_list := unravel (dof_shapes self) (ci_sol ci) in
    let cell_sol_u := nth 0 cell_sol_list [] in
    let cell_sol_p := nth 1 cell_sol_list [] in
    let cell_shape_grads_u := nodes_from self 0 (ci_grads ci) in
    let cell_v_grads_JxW_u := nodes_from self 0 (ci_vgJxW ci) in
    let cell_JxW_p q := ci_JxW ci 1 q in
    let u_grads q k j := sum_n (num_nodes fe_u) (fun a => get2 0 cell_sol_u a k * cell_shape_grads_u q a j) in
    let val1 a k := sum_n (num_quads fe_u) (fun q => sum_n (dim fe_u) (fun j => u_grads q k j * cell_v_grads_JxW_u q a j)) in
    let p q := sum_n (num_nodes fe_p) (fun a => get2 0 cell_sol_p a 0 * shape_vals fe_p q a) in
    let div_v := cell_v_grads_JxW_u in
    let val2 a k := sum_n (num_quads fe_u) (fun q => p q * div_v q a k) in
    let div_u q := u_grads q 0%nat 0%nat + u_grads q 1%nat 1%nat in
    let val3 a := sum_n (num_quads fe_p) (fun q => div_u q * shape_vals fe_p q a * cell_JxW_p q) in
    flat_map (fun a => map (fun k => val1 a k + val2 a k) (seq 0 (vec fe_u))) (seq 0 (num_nodes fe_u))
    ++ map val3 (seq 0 (num_nodes fe_p)).
  (** the subclass: get_universal_kernel only.  Of self the kernel uses the variables. *)
  Definition stokes_maps (fs : list (fe K)) : user_maps K V :=
    let self := mkProblem fs [] (mkMaps None None None None None) [] [] in
    mkMaps None None (Some (stokes_kernel self)) None None.
End Kernel.

(** f with these lists of constraints, in place of node_inds_list, vec_inds_list, vals_list *)
Definition set_bc {K : ops} (f : fe K) (ns vs : list (list nat)) (ws : list (list K)) : fe K :=
  mkFe (points f) (cells f) (vec f) (dim f) (num_quads f) (num_nodes f) (num_faces f) (num_face_quads f) (shape_vals f) (shape_grads_ref f)
    (quad_weights f) (face_shape_vals f) (face_shape_grads_ref f) (face_quad_weights f) (face_normals f) (face_inds f) ns vs ws.

(** ** configure_Dirichlet_BC_for_dolphin *)
Section Dolphin.
  (** example.py:80-81: the nodes that onp.unique counts once in the array of all cells *)
  Definition counted_once (cells : list (list nat)) (n : nat) : bool := (count_occ Nat.eq_dec (concat cells) n =? 1)%nat.
  (** example.py:83-90 *)
  Definition ind_map (ind : nat) : result (nat * nat) :=
    match ind with 3 => Ok (0, 1) | 4 => Ok (1, 2) | 5 => Ok (2, 0) | _ => Err AssertionErr end%nat.
  (** example.py:96: onp.argwhere(cell==c)[0, 0], the first position of c *)
  Fixpoint first_pos (cell : list nat) (c : nat) : nat :=
    match cell with [] => 0 | n :: rest => if (n =? c)%nat then 0 else S (first_pos rest c) end%nat.
  (** example.py:94-98, one node of one cell *)
  Definition edge_nodes (cells : list (list nat)) (cell : list nat) (c : nat) : result (list nat) :=
    if counted_once cells c
    then bind (ind_map (first_pos cell c)) (fun e => Ok [c; nth (fst e) cell 0%nat; nth (snd e) cell 0%nat])
    else Ok [].
  (** boundary_inds += ..., over a list; the first exception ends the loop *)
  Fixpoint collect {A B} (g : A -> result (list B)) (l : list A) : result (list B) :=
    match l with [] => Ok [] | a :: l' => bind (g a) (fun x => bind (collect g l') (fun y => Ok (x ++ y))) end.
  (** example.py:92-98 *)
  Definition boundary_inds (cells : list (list nat)) : result (list nat) :=
    collect (fun cell => collect (edge_nodes cells cell) cell) cells.
  (** example.py:101-102.  Simplification: real arithmetic. *)
  Definition between (pts : list (list R)) (n : nat) : bool :=
    let x := nth 0 (gather [] pts n) 0%R in
    if Rlt_dec x (1 - / 100000) then if Rlt_dec (/ 100000) x then true else false else false.
  (** example.py:74-111.  [to_set] stands for list(set(...)), whose order Python does not fix.  An empty list becomes an array of
      floats, with which the array of points cannot be indexed: TypeError. *)
  Definition configure_fe (to_set : list nat -> list nat) (f : fe Rops) : result (fe Rops) :=
    bind (boundary_inds (cells f)) (fun b =>
    match to_set b with
    | [] => Err TypeErr
    | s =>
        let inds := filter (between (points f)) s in
        let vec_inds_1 := map (fun _ => 0%nat) inds in
        let vec_inds_2 := map (fun _ => 1%nat) inds in
        let values := map (fun _ => 0%R) inds in
        Ok (set_bc f (node_inds_list f ++ [inds; inds]) (vec_inds_list f ++ [vec_inds_1; vec_inds_2]) (vals_list f ++ [values; values]))
    end).
  (** the method: self.fes[0] changes in place *)
  Definition configure_Dirichlet_BC_for_dolphin {V} (to_set : list nat -> list nat) (p : problem Rops V) : result (problem Rops V) :=
    match fes p with
    | [] => Err IndexErr
    | f :: rest => bind (configure_fe to_set f) (fun f' =>
        Ok (mkProblem (f' :: rest) (boundary_inds_list p) (maps p) (internal_vars p) (internal_vars_surfaces p)))
    end.
End Dolphin.
