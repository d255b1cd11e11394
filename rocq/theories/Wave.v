(** Model of applications/wave/example.py: the universal kernel of the implicit scheme for the scalar wave equation, its time
    loop, and the orientation of triangles (also applications/stokes/example.py:118-168 and, imported from there, robin_bc). *)
From Coq Require Import String List Arith Bool Reals ZArith.
From Verif Require Import Num Arr Fe Problem.
Import ListNotations.

Section Kernel.
  Context {K : ops}.
  Open Scope num_scope.

  (** problem.py:121: onp.cumsum([0] + [fe.num_nodes for fe in self.fes]) *)
  Definition num_nodes_cumsum {V} (p : problem K V) (i : nat) : nat := fold_right Nat.add 0%nat (map num_nodes (firstn i (fes p))).
  (** example.py:45: x[:, num_nodes_cumsum[i]: num_nodes_cumsum[i+1], :] *)
  Definition nodes_from {V} (p : problem K V) (i : nat) (x : nat -> nat -> nat -> K) (q a j : nat) : K := x q (num_nodes_cumsum p i + a)%nat j.
  (** the n-th internal variable of the kernel at a quadrature point.  Simplification: a missing one, with which the call raises
      TypeError, is zero; set_params always gives two. *)
  Definition internal (ivs : list (nat -> nat -> K)) (n q k : nat) : K := nth n ivs (fun _ _ => 0) q k.

  (** example.py:33-71; [c], [dt] are module globals.  An internal variable at a quadrature point is a (vec,) array. *)
  Definition wave_kernel (c dt : K) (p : problem K (nat -> K)) (ci : cell_in K (nat -> K)) : list K :=
    let f0 := fe0 p in
    let cell_sol := nth 0 (unravel (dof_shapes p) (ci_sol ci)) [] in
    let cell_shape_grads := nodes_from p 0 (ci_grads ci) in
    let cell_v_grads_JxW := nodes_from p 0 (ci_vgJxW ci) in
    let cell_JxW q := ci_JxW ci 0 q in
    let u_grad q k j := sum_n (num_nodes f0) (fun a => get2 0 cell_sol a k * cell_shape_grads q a j) in
    let val1 a k := sum_n (num_quads f0) (fun q => sum_n (dim f0) (fun j => c * c * (dt * dt) * u_grad q k j * cell_v_grads_JxW q a j)) in
    let u q k := sum_n (num_nodes f0) (fun a => get2 0 cell_sol a k * shape_vals f0 q a) in
    let val2 a k := sum_n (num_quads f0) (fun q => u q k * shape_vals f0 q a * cell_JxW q) in
    let val3 a k := sum_n (num_quads f0) (fun q =>
      ((1 + 1) * internal (ci_iv ci) 1 q k - internal (ci_iv ci) 0 q k) * shape_vals f0 q a * cell_JxW q) in
    flat_map (fun a => map (fun k => val1 a k + val2 a k - val3 a k) (seq 0 (vec f0))) (seq 0 (num_nodes f0)).

  (** example.py:26-29 *)
  Definition set_params (p : problem K (nat -> K)) (sol_2dt sol_dt : list (list K)) : result (problem K (nat -> K)) :=
    match fes p with
    | [] => Err IndexErr
    | f :: _ =>
        let at_quads sol := map (fun c q => convert_from_dof_to_quad f sol c q) (seq 0 (num_cells f)) in
        Ok (mkProblem (fes p) (boundary_inds_list p) (maps p) [at_quads sol_2dt; at_quads sol_dt] (internal_vars_surfaces p))
    end.
  (** the subclass: get_universal_kernel only.  The kernel refers to the problem through self, of which it uses the variables
      and nothing that set_params changes. *)
  Definition wave_maps (c dt : K) (fs : list (fe K)) : user_maps K (nat -> K) :=
    let self := mkProblem fs [] (mkMaps None None None None None) [] [] in
    mkMaps None None (Some (wave_kernel c dt self)) None None.

  (** example.py:170-174; [solve i p] stands for solver(problem)[0] in pass i and may raise or give anything.  The list of the
      problems handed to the solver with the solutions. *)
  Fixpoint time_loop (solve : nat -> problem K (nat -> K) -> result (list (list K))) (n i : nat) (p : problem K (nat -> K))
      (sol_2dt sol_dt : list (list K)) : result (list (problem K (nat -> K) * list (list K))) :=
    match n with
    | O => Ok []
    | S n' =>
        bind (set_params p sol_2dt sol_dt) (fun p' =>
        bind (solve i p') (fun sol =>
        bind (time_loop solve n' (S i) p' sol_dt sol) (fun rest => Ok ((p', sol) :: rest))))
    end.
  (** example.py:166-174: two zero states before the first pass *)
  Definition wave_run (solve : nat -> problem K (nat -> K) -> result (list (list K))) (steps : nat) (p : problem K (nat -> K)) (num_points : nat)
    : result (list (problem K (nat -> K) * list (list K))) :=
    time_loop solve steps 0 p (zeros2 0 num_points 1) (zeros2 0 num_points 1).
End Kernel.

(** ** Orientation of triangles *)
Inductive turn := Collinear | Clockwise | Counterclockwise.
(** example.py:84-98; points are pairs.  Real arithmetic, no rounding. *)
Definition orientation (p1 p2 p3 : R * R) : turn :=
  let val := ((snd p2 - snd p1) * (fst p3 - fst p2) - (fst p2 - fst p1) * (snd p3 - snd p2))%R in
  if Rlt_dec 0 val then Clockwise else if Rlt_dec val 0 then Counterclockwise else Collinear.
(** What transform_cells does: new cells, or exit() with a message, or an exception. *)
Inductive outcome (A : Type) := Done (a : A) | Exit | Raised (e : py_error).
Arguments Done {A} a. Arguments Exit {A}. Arguments Raised {A} e.
(** pts[i, 0], pts[i, 1] for pts = points[cell[:3]] *)
Definition corner (points : list (list R)) (cell : list nat) (i : nat) : option (R * R) :=
  match nth_error cell i with
  | None => None
  | Some n => match nth_error points n with
              | Some (x :: y :: _) => Some (x, y)
              | _ => None
              end
  end.
(** cell[[...]]: IndexError if a position does not exist *)
Definition pick_nodes (cell positions : list nat) : option (list nat) :=
  if forallb (fun i => (i <? length cell)%nat) positions then Some (map (fun i => nth i cell 0) positions) else None.
(** example.py:105-127, one cell *)
Definition transform_cell (points : list (list R)) (ele_type : string) (cell : list nat) : outcome (list nat) :=
  match corner points cell 0, corner points cell 1, corner points cell 2 with
  | Some p1, Some p2, Some p3 =>
      match orientation p1 p2 p3 with
      | Collinear => Exit
      | Clockwise =>
          let positions := if string_dec ele_type "TRI3" then Some [0; 2; 1]%nat
                           else if string_dec ele_type "TRI6" then Some [0; 2; 1; 5; 4; 3]%nat else None in
          match positions with
          | None => Exit
          | Some l => match pick_nodes cell l with Some new => Done new | None => Raised IndexErr end
          end
      | Counterclockwise => Done cell
      end
  | _, _, _ => Raised IndexErr
  end.
Fixpoint transform_loop (points : list (list R)) (ele_type : string) (cells : list (list nat)) : outcome (list (list nat)) :=
  match cells with
  | [] => Done []
  | cell :: t =>
      match transform_cell points ele_type cell with
      | Done new => match transform_loop points ele_type t with Done l => Done (new :: l) | Exit => Exit | Raised e => Raised e end
      | Exit => Exit
      | Raised e => Raised e
      end
  end.
(** example.py:100-129; onp.stack of nothing raises ValueError *)
Definition transform_cells (cells : list (list nat)) (points : list (list R)) (ele_type : string) : outcome (list (list nat)) :=
  match transform_loop points ele_type cells with
  | Done [] => Raised ValueErr
  | r => r
  end.
