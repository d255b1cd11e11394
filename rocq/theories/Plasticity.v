(** Model of the perfect plasticity problem of tests/benchmarks/plasticity/test_plasticity.py:16-86 and its load loop, 131-139. *)
From Coq Require Import List Arith Bool Reals.
From Verif Require Import Num Arr Fe Problem Elastic.
Import ListNotations.
Local Open Scope R_scope.

(** a (dim, dim) array *)
Definition tensor := nat -> nat -> Rops.
(** test_plasticity.py:49-52, 57 *)
Definition E_young : R := 70000.
Definition nu : R := 3 / 10.
Definition mu : R := E_young / (2 * (1 + nu)).
Definition lmbda : R := E_young * nu / ((1 + nu) * (1 - 2 * nu)).
Definition sig0 : R := 250.

(** test_plasticity.py:34-38.  np.sqrt of a negative number is a NaN that np.where does not choose. *)
Definition safe_sqrt (x : R) : R := if Rlt_dec 0 x then sqrt x else 0.
(** test_plasticity.py:40-41, for one entry *)
Definition safe_divide (x y : R) : R := if Req_EM_T y 0 then 0 else x / y.
(** test_plasticity.py:47-53; [elastic_stress] symmetrises its argument, this one does not *)
Definition stress_of (d : nat) (epsilon : tensor) : tensor := fun i j =>
  lmbda * trace d epsilon * (if (i =? j)%nat then 1 else 0) + 2 * mu * epsilon i j.
(** test_plasticity.py:61 *)
Definition deviator (d : nat) (sigma : tensor) : tensor := fun i j =>
  sigma i j - 1 / INR d * trace d sigma * (if (i =? j)%nat then 1 else 0).
(** test_plasticity.py:58-60 *)
Definition trial (d : nat) (u_grad sigma_old epsilon_old : tensor) : tensor := fun i j =>
  stress_of d (fun k l => strain u_grad k l - epsilon_old k l) i j + sigma_old i j.
(** test_plasticity.py:62 *)
Definition s_norm (d : nat) (s_dev : tensor) : R :=
  safe_sqrt (3 / 2 * sum_n (K := Rops) d (fun i => sum_n (K := Rops) d (fun j => s_dev i j * s_dev i j))).
(** test_plasticity.py:55-66 *)
Definition stress_return_map (d : nat) (u_grad sigma_old epsilon_old : tensor) : tensor :=
  let sigma_trial := trial d u_grad sigma_old epsilon_old in
  let s_dev := deviator d sigma_trial in
  let sn := s_norm d s_dev in
  let f_yield := sn - sig0 in
  let f_yield_plus := if Rlt_dec 0 f_yield then f_yield else 0 in
  fun i j => sigma_trial i j - safe_divide (f_yield_plus * s_dev i j) sn.
(** The same with the internal variables of a quadrature point in the order of internal_vars.  Simplification: any other number of
    internal variables, for which Python raises, gives zeros; the constructor and the update always give two. *)
Definition plastic_map (d : nat) (u_grad : tensor) (iv : list tensor) : tensor :=
  match iv with
  | [sigma_old; epsilon_old] => stress_return_map d u_grad sigma_old epsilon_old
  | _ => fun _ _ => 0
  end.

Section Problem.
  Variables (f : fe Rops) (P : list (list Rops)).
  (** test_plasticity.py:22-25: zeros of shape (num_cells, num_quads, vec, dim), twice *)
  Definition initial_vars : list (list (nat -> tensor)) :=
    let zeros := repeat (fun (_ : nat) (_ _ : nat) => 0) (length (cells f)) in [zeros; zeros].
  (** test_plasticity.py:74-79: the cells and quadrature points in turn (jax.vmap twice); sol_to_grad with the points P *)
  Definition update_stress_strain (ivs : list (list (nat -> tensor))) (sol : list (list Rops)) : result (list (list (nat -> tensor))) :=
    match ivs with
    | [sigmas_old; epsilons_old] =>
        if (length sigmas_old =? num_cells f)%nat && (length epsilons_old =? num_cells f)%nat then
          Ok [map (fun c q => stress_return_map (dim f) (sol_to_grad P f sol c q) (nth c sigmas_old (fun _ _ _ => 0) q) (nth c epsilons_old (fun _ _ _ => 0) q)) (seq 0 (num_cells f));
              map (fun c q => strain (sol_to_grad P f sol c q)) (seq 0 (num_cells f))]
        else Err ValueErr
    | _ => Err IndexErr
    end.
  (** test_plasticity.py:81-88 *)
  Definition compute_avg_stress (sigmas_old : list (nat -> tensor)) : tensor := fun i j =>
    let sigma := sum_n (K := Rops) (length sigmas_old) (fun c => sum_n (K := Rops) (num_quads f) (fun q => nth c sigmas_old (fun _ _ _ => 0) q i j * get_JxW P f c q)) in
    let vol := sum_n (K := Rops) (num_cells f) (fun c => sum_n (K := Rops) (num_quads f) (get_JxW P f c)) in
    sigma / vol.
End Problem.

(** the problem with other internal variables *)
Definition with_vars {V : Type} (p : problem Rops V) (ivs : list (list (nat -> V))) : problem Rops V :=
  mkProblem (fes p) (boundary_inds_list p) (maps p) ivs (internal_vars_surfaces p).

(** test_plasticity.py:131-139.  [solve k p] is update_Dirichlet_boundary_conditions followed by solver(problem) in step k: any
    function of the step and of the problem with its internal variables.  The problems after each step, in turn. *)
Fixpoint load_loop (f : fe Rops) (P : list (list Rops)) (solve : nat -> problem Rops tensor -> result (list (list Rops)))
    (num_steps k : nat) (p : problem Rops tensor) : result (list (list (list Rops) * problem Rops tensor)) :=
  match num_steps with
  | O => Ok []
  | S n => bind (solve k p) (fun sol => bind (update_stress_strain f P (internal_vars p) sol) (fun ivs =>
      bind (load_loop f P solve n (S k) (with_vars p ivs)) (fun rest => Ok ((sol, with_vars p ivs) :: rest))))
  end.
