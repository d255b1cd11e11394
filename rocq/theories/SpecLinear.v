(** Vocabulary for C80: solver() on problems whose residual is affine in the solution. *)
From Coq Require Import List Arith Bool Reals.
From Verif Require Import Num Arr Fe Problem SpecAssembly SpecBc XNum PyDict LinSolve.
Import ListNotations.

Section Spec.
  Context {V : Type}.
  (** Along every straight line the residual moves on a straight line. *)
  Definition affine_residual (p : problem Rops V) (pts : list (list (list Rops))) : Prop :=
    forall sol dsol t r0 r1 r, sol_ok p sol -> sol_ok p dsol ->
      compute_residual sqrt p pts sol = Ok r0 -> compute_residual sqrt p pts (line3 sol dsol 1%R) = Ok r1 ->
      compute_residual sqrt p pts (line3 sol dsol t) = Ok r ->
      forall g, nth g (ravel r) (@zero Rops) = ((1 - t) * nth g (ravel r0) (@zero Rops) + t * nth g (ravel r1) (@zero Rops))%R.
  (** jax.jvp is right for the kernels of the problem, at every solution. *)
  Definition right_jvp jvp (p : problem Rops V) (pts : list (list (list Rops))) kf : Prop :=
    forall sol, sol_ok p sol ->
      (forall c, c < p_num_cells p -> jvp_correct jvp (cell_fun p pts sol c) (cell_values p sol c)) /\
      (forall s i, s < length (boundary_inds_list p) -> i < num_sel_faces p s ->
         jvp_correct jvp (face_fun sqrt p pts sol kf s i) (cell_values p sol (face_cell p s i))).
  (** The solution takes every prescribed value and has no residual at any other dof. *)
  Definition solves (p : problem Rops V) (pts sol : list (list (list Rops))) : Prop :=
    sol_ok p sol /\ exists res, compute_residual sqrt p pts sol = Ok res /\
      forall v n j, v < length (fes p) -> n < length (points (fe_of p v)) -> j < vec (fe_of p v) ->
        match prescribed (fe_of p v) n j with
        | Some b => get2 (@zero Rops) (nth v sol []) n j = b
        | None => get2 (@zero Rops) (nth v res []) n j = 0%R
        end.
End Spec.

(** A x = b, in the solver's numbers *)
Definition exactly (A : pmat) (b x : list Xops) : Prop :=
  length x = m_cols A /\ forall i, i < m_rows A -> sum_n (m_cols A) (fun j => mul (m_at A i j) (nth j x zero)) = nth i b zero.
Definition finite_rhs (A : pmat) (b : list Xops) : Prop := length b = m_rows A /\ forall y, In y b -> isfinite y = true.
(** The linear solver, called with these options, returns an exact solution of every square system with finite right hand side that has one. *)
Definition exact_linear {O} (B : backends O) (lin : dict O) : Prop :=
  forall t A b x0, m_rows A = m_cols A -> finite_rhs A b -> (exists x, exactly A b x) ->
    exists lo x, linear_solver B t A b x0 lin = (lo, Ok x) /\ exactly A b x.
(** The same of the external methods, each called on its own. *)
Definition exact_backends {O} (B : backends O) : Prop :=
  forall t A b, m_rows A = m_cols A -> finite_rhs A b -> (exists x, exactly A b x) ->
    (forall x0 pc, exists x, b_bicgstab B t A b x0 pc = Ok x /\ exactly A b x) /\
    (forall x0 cfg, exists x, b_amgx B t A b x0 cfg = Ok x /\ exactly A b x) /\
    (exists x, b_spsolve B t A b = Ok x /\ exactly A b x) /\
    (forall ksp pc mumps x0, exists x, b_ksp B t ksp pc mumps A b x0 = (Ok tt, x) /\ exactly A b x) /\
    (forall f x0 lo, exists x, b_custom B t f A b x0 lo = Ok x /\ exactly A b x).
