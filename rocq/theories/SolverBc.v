(** Model of jax_fem/solver.py:286-421 and 466-553: Dirichlet rows, flattening,
    tangent matrix with identity rows, the Newton increment system. *)
From Coq Require Import List Arith Lia Bool.
From Verif Require Import Num Arr Fe Problem.
Import ListNotations.
Local Open Scope num_scope.

Section Bc.
  Context {K : ops} {V : Type}.

  (** The groups visited by [for i in range(len(fe.node_inds_list))]. *)
  Definition bc_groups (f : fe K) : list (list nat * list nat * list K) :=
    map (fun i => (nth i (node_inds_list f) [], nth i (vec_inds_list f) [], nth i (vals_list f) []))
        (seq 0 (length (node_inds_list f))).

  (** The loop body of apply_bc_vec, solver.py:297-300. *)
  Definition apply_bc_group (scale : K) (sol : list (list K)) (res : list (list K))
      (g : list nat * list nat * list K) : list (list K) :=
    let '(ns, vs, vals) := g in
    let res := at_set2 res ns vs (gather2 0 sol ns vs) in
    at_add2 add res ns vs (map (fun b => (- b) * scale) vals).

  (** The pattern shared by the functions below: unflatten, transform the array of each
      variable, flatten (solver.py:291-304, 317-324). *)
  Definition per_fe (p : problem K V) (arrs : list (list (list K)))
      (step : nat -> fe K -> list (list K) -> list (list K)) : list K :=
    ravel (map (fun i => step i (nth i (fes p) (fe0 p)) (nth i arrs [])) (seq 0 (length (fes p)))).

  (** solver.py:289-304 *)
  Definition apply_bc_vec (res_vec dofs : list K) (p : problem K V) (scale : K) : list K :=
    let res_list := unravel (sol_shapes p) res_vec in
    let sol_list := unravel (sol_shapes p) dofs in
    per_fe p res_list (fun i f res => fold_left (apply_bc_group scale (nth i sol_list [])) (bc_groups f) res).

  (** solver.py:307-313 *)
  Definition apply_bc (res_fn : list K -> list K) (p : problem K V) (scale : K) : list K -> list K :=
    fun dofs => apply_bc_vec (res_fn dofs) dofs p scale.

  (** solver.py:316-324 *)
  Definition assign_bc (dofs : list K) (p : problem K V) : list K :=
    per_fe p (unravel (sol_shapes p) dofs) (fun _ f sol =>
      fold_left (fun sol g => at_set2 sol (fst (fst g)) (snd (fst g)) (snd g)) (bc_groups f) sol).
  (** solver.py:327-335; .set(1.) broadcasts the scalar *)
  Definition assign_ones_bc (dofs : list K) (p : problem K V) : list K :=
    per_fe p (unravel (sol_shapes p) dofs) (fun _ f sol =>
      fold_left (fun sol g => at_set2 sol (fst (fst g)) (snd (fst g)) (repeat 1 (length (fst (fst g)))))
                (bc_groups f) sol).
  (** solver.py:338-346 *)
  Definition assign_zeros_bc (dofs : list K) (p : problem K V) : list K :=
    per_fe p (unravel (sol_shapes p) dofs) (fun _ f sol =>
      fold_left (fun sol g => at_set2 sol (fst (fst g)) (snd (fst g)) (repeat 0 (length (fst (fst g)))))
                (bc_groups f) sol).
  (** solver.py:349-363 *)
  Definition copy_bc (dofs : list K) (p : problem K V) : list K :=
    let new_dofs := map (fun _ => 0) dofs in
    let sol_list := unravel (sol_shapes p) dofs in
    per_fe p (unravel (sol_shapes p) new_dofs) (fun i f new_sol =>
      fold_left (fun new_sol g => at_set2 new_sol (fst (fst g)) (snd (fst g))
                                     (gather2 0 (nth i sol_list []) (fst (fst g)) (snd (fst g))))
                (bc_groups f) new_sol).

  (** ** Tangent matrix *)
  (** solver.py:507-514: rows of the constrained dofs, group by group *)
  Definition bc_rows (p : problem K V) : list (list nat) :=
    flat_map (fun i => let f := nth i (fes p) (fe0 p) in
                map (fun g => map2 (fun n c => (n * vec f + c + nth i (p_offset p) 0)%nat)
                                   (fst (fst g)) (snd (fst g))) (bc_groups f))
             (seq 0 (length (fes p))).

  (** PETSc MatSetValuesCOO (duplicates summed, previous values replaced), solver.py:522. *)
  Definition set_values_coo (I J : list nat) (W : list K) : nat -> nat -> K :=
    fun g h => sum_over (combine (combine I J) W)
                 (fun t => if ((fst (fst t) =? g) && (snd (fst t) =? h))%nat then snd t else 0).
  (** PETSc MatZeroRows with the default diagonal value 1, solver.py:524-525. *)
  Definition zero_rows (rows : list nat) (A : nat -> nat -> K) : nat -> nat -> K :=
    fun g h => if existsb (Nat.eqb g) rows then (if (g =? h)%nat then 1 else 0) else A g h.
  (** solver.py:519-526, for up-to-date rows (the caching of the rows is in SolverCache.v) *)
  Definition tangent (p : problem K V) (W : list K) : nat -> nat -> K :=
    fold_left (fun A rows => zero_rows rows A) (bc_rows p) (set_values_coo (p_I p) (p_J p) W).

  (** matrix-vector product of an n x m matrix *)
  Definition matvec (m : nat) (A : nat -> nat -> K) (x : nat -> K) : nat -> K :=
    fun g => sum_n m (fun h => A g h * x h).
  (** np.zeros(n) *)
  Definition zeros (n : nat) : list K := repeat 0 n.
  Definition vsub (x y : list K) : list K := map2 sub x y.
  Definition vadd (x y : list K) : list K := map2 add x y.
  Definition vneg (x : list K) : list K := map opp x.
  Definition vscale (c : K) (x : list K) : list K := map (mul c) x.

  (** newton_step, solver.py:400-409, without P_mat: right-hand side and starting point *)
  Definition newton_rhs (res_vec : list K) : list K := vneg res_vec.
  Definition newton_x0 (p : problem K V) (dofs : list K) : list K :=
    vsub (assign_bc (zeros (num_total_dofs_all_vars p)) p) (copy_bc dofs p).
End Bc.
