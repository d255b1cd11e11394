(** Model of applications/phase_field_fracture/eigen.py: functions of symmetric matrices by eigenvalues and the derivative rule given for
    them, which is meant to be right for repeated eigenvalues too.  Real arithmetic. *)
From Coq Require Import List Arith Bool Reals.
From Verif Require Import Num Elastic Plasticity.
Import ListNotations.
Local Open Scope R_scope.

Section Eigen.
  (** np.linalg.eigh: eigenvalues and the matrix whose columns are the eigenvectors *)
  Variable eigh : tensor -> (nat -> R) * tensor.
  (** the number of rows of the matrix *)
  Variable dim_ : nat.
  (** eigen.py:14-15, 31-32, 49-51: evecs.T, then M = einsum('bi,bj->bij', evecs, evecs) *)
  Definition projections (x : tensor) (b i j : nat) : R :=
    let evecs := fun k l => snd (eigh x) l k in evecs b i * evecs b j.
  (** eigen.py:29-35 (and the same lines 11-18 of get_eigen_f_jax) *)
  Definition eigen_f (fn : R -> R) (x : tensor) : tensor := fun i j =>
    let evals := fst (eigh x) in let M := projections x in
    sum_n (K := Rops) dim_ (fun b => M b i j * fn (evals b)).
  (** eigen.py:37-73; [grad_fn] is jax.grad(fn) (line 23).  The primal and the tangent result. *)
  Definition f_jvp (fn grad_fn : R -> R) (x v : tensor) : tensor * tensor :=
    let evals := fst (eigh x) in
    let fvals b := fn (evals b) in
    let grads b := grad_fn (evals b) in
    let M := projections x in
    let result := fun i j => sum_n (K := Rops) dim_ (fun b => M b i j * fvals b) in
    let MM b i j k l := M b i j * M b k l in
    let term1 i j k l := sum_n (K := Rops) dim_ (fun b => MM b i j k l * grads b) in
    let G a b i j k l := M a i k * M b j l + M a i l * M b j k in
    let diff_evals a b := evals a - evals b in
    let diff_fvals a b := fvals a - fvals b in
    let diff_grads (a b : nat) := grads a in
    let theta a b := if Req_EM_T (diff_evals a b) 0 then diff_grads a b else diff_fvals a b / diff_evals a b in
    let tmp a b i j k l := G a b i j k l * theta a b in
    let tmp1 i j k l := sum_n (K := Rops) dim_ (fun a => sum_n (K := Rops) dim_ (fun b => tmp a b i j k l)) in
    let tmp2 i j k l := sum_n (K := Rops) dim_ (fun a => tmp a a i j k l) in
    let term2 i j k l := / 2 * (tmp1 i j k l - tmp2 i j k l) in
    let P i j k l := term1 i j k l + term2 i j k l in
    (result, fun i j => sum_n (K := Rops) dim_ (fun k => sum_n (K := Rops) dim_ (fun l => P i j k l * v k l))).
End Eigen.
