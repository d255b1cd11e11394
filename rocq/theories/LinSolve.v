(** Model of the linear back-ends of jax_fem/solver.py:63-284.
    The iterative methods and factorisations themselves are oracles: they may return anything,
    differently at every call (first argument: number of the call), or raise. *)
From Coq Require Import String List Arith Bool Reals.
From Verif Require Import Num Arr Fe Problem SolverBc XNum PyDict Options.
Import ListNotations.
Local Open Scope string_scope.

(** A PETSc matrix: numbers of rows and columns, entries.
    Simplification: the stored sparsity pattern is not kept. *)
Record mat (K : ops) := mkMat { m_rows : nat; m_cols : nat; m_at : nat -> nat -> K }.
Arguments mkMat {K}. Arguments m_rows {K}. Arguments m_cols {K}. Arguments m_at {K}.
Notation pmat := (mat Xops).

Section Mat.
  Context {K : ops}.
  (** A @ x; a size mismatch raises *)
  Definition mat_mul_vec (A : mat K) (x : list K) : result (list K) :=
    if (List.length x =? m_cols A)%nat
    then Ok (map (matvec (m_cols A) (m_at A) (fun h => nth h x zero)) (seq 0 (m_rows A)))
    else Err TypeErr.
  (** x + y, x - y on vectors; a size mismatch raises (broadcasting of size-1 arrays is not modelled) *)
  Definition add_vec (x y : list K) : result (list K) :=
    if (List.length x =? List.length y)%nat then Ok (vadd x y) else Err TypeErr.
  Definition sub_vec (x y : list K) : result (list K) :=
    if (List.length x =? List.length y)%nat then Ok (vsub x y) else Err TypeErr.
  (** A.transpose(A_T): A_T is a new matrix, A is unchanged *)
  Definition mat_T (A : mat K) : mat K := mkMat (m_cols A) (m_rows A) (fun i j => m_at A j i).
  (** A.matMult(B) *)
  Definition mat_mul (A B : mat K) : mat K :=
    mkMat (m_rows A) (m_cols B) (fun i j => sum_n (m_cols A) (fun k => mul (m_at A i k) (m_at B k j))).

End Mat.

Section LinSolve.
  Context {O : Type}.
  Definition xvec := list Xops.

  (** The external solvers. *)
  Record backends := mkBackends {
    b_bicgstab : nat -> pmat -> xvec -> option xvec -> (xvec -> option xvec) -> result xvec;
    b_amgx : nat -> pmat -> xvec -> xvec -> pyval O -> result xvec;
    b_spsolve : nat -> pmat -> xvec -> result xvec;
    b_ksp : nat -> pyval O -> pyval O -> bool -> pmat -> xvec -> xvec -> result unit * xvec;
    b_custom : nat -> pyval O -> pmat -> xvec -> option xvec -> dict O -> result xvec;
    b_pyamgx_available : bool
  }.

  Definition one_tenth : xr := Fin (/ 10)%R.

  (** solver.py:69: lambda x: (x * (1. / jacobi) if precond else None) *)
  Definition jax_pc (A : pmat) (precond : pyval O) (x : xvec) : option xvec :=
    if truthy precond
    then Some (map2 mul x (map (fun i => div one (m_at A i i)) (seq 0 (m_rows A))))
    else None.

  (** solver.py:63-92.  CSR/BCOO conversions keep the matrix; complex builds are not modelled. *)
  Definition jax_solve (B : backends) (t : nat) (A : pmat) (b : xvec) (x0 : option xvec) (precond : pyval O)
    : result xvec :=
    bind (b_bicgstab B t A b x0 (jax_pc A precond)) (fun x =>
    bind (mat_mul_vec A x) (fun Ax =>
    bind (sub_vec Ax b) (fun d =>
    let err := xnorm d in
    if xltb err one_tenth
    then Ok (map (fun xi => if xltb err one_tenth then xi else NaN) x)
    else Err AssertionErr))).

  (** solver.py:94-107; the residual is only logged *)
  Definition scipy_spsolve (B : backends) (t : nat) (A : pmat) (b : xvec) : result xvec :=
    b_spsolve B t A b.

  (** solver.py:109-134; x is a vector of len(b) entries that ksp.solve fills *)
  Definition petsc_solve (B : backends) (t : nat) (A : pmat) (b : xvec) (ksp_type pc_type : pyval O)
    : result xvec :=
    let mumps := match ksp_type with VStr s => s =? "tfqmr" | _ => false end in
    let '(st, x) := b_ksp B t ksp_type pc_type mumps A b (zeros (List.length b)) in
    bind st (fun _ =>
    bind (mat_mul_vec A x) (fun y =>
    bind (sub_vec y b) (fun d =>
    let err := xnorm d in
    if xltb err one_tenth then Ok x else Err AssertionErr))).

  (** solver.py:226-258; the host function is modelled in Amgx.v *)
  Definition AMGX_solve (B : backends) (t : nat) (A : pmat) (b : xvec) (x0 : option xvec) (cfg_path : pyval O)
    : result xvec :=
    if b_pyamgx_available B
    then b_amgx B t A b (match x0 with Some x => x | None => zeros (List.length b) end) cfg_path
    else Err RuntimeErr.

  (** solver.py:261-284; also returns the caller's dict after the call *)
  Definition run_call (B : backends) (t : nat) (A : pmat) (b : xvec) (x0 : option xvec) (c : call O) : result xvec :=
    match c with
    | CJax precond => jax_solve B t A b x0 precond
    | CAmgx cfg_path => AMGX_solve B t A b x0 cfg_path
    | CSpsolve => scipy_spsolve B t A b
    | CPetsc ksp pc => petsc_solve B t A b ksp pc
    | CCustom f lo => b_custom B t f A b x0 lo
    end.
  Definition linear_solver (B : backends) (t : nat) (A : pmat) (b : xvec) (x0 : option xvec)
      (linear_options : dict O) : dict O * result xvec :=
    let '(lo, c) := linear_dispatch linear_options in
    (lo, bind c (run_call B t A b x0)).
End LinSolve.
Arguments backends : clear implicits.
