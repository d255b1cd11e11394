(** Model of Problem.__post_init__ (jax_fem/problem.py:56-128). *)
From Coq Require Import String List Arith Bool.
From Verif Require Import Num Arr Fe Problem Basis.
Import ListNotations.

Section Init.
  Context {K : ops} {V : Type}.

  (** The per-variable arguments (problem.py:46-53, 67-73), after the wrapping of scalar arguments
      into one-element lists (problem.py:58-64).  [va_quad], [va_fquad] and [va_normals] stand for
      basix's quadrature rule and reference facet normals. *)
  Record var_args := mkVar {
    va_points : list (list K);
    va_cells : list (list nat);
    va_vec : nat;
    va_ele_type : string;
    va_quad : list (list K) * list K;
    va_fquad : list (list K) * list K;
    va_normals : nat -> nat -> K;
    va_bc : option (list (location_fn K) * list nat * list (list K -> K))
  }.

  (** problem.py:67-74 *)
  Definition make_fes (sqrtK : K -> K) (dim_ : nat) (vars : list var_args) : result (list (fe K)) :=
    mapM (fun a => fe_init sqrtK (va_ele_type a) (va_quad a) (va_fquad a) (va_normals a)
                           (va_points a) (va_cells a) (va_vec a) dim_ (va_bc a)) vars.

  (** problem.py:56-128.  [m] lists the maps the subclass defines; [custom_init] is the user's
      hook (problem.py:127), of which only the internal variables it leaves are modelled: it
      receives the defaults of problem.py:125-126.
      fes[0] of an empty mesh list raises IndexError (problem.py:79); jax.vmap over the cells of all
      variables raises ValueError if the numbers of cells differ (problem.py:95). *)
  Definition problem_init (sqrtK : K -> K) (dim_ : nat) (vars : list var_args)
      (location_fns : option (list (location_fn K))) (m : user_maps K V)
      (custom_init : list (list (nat -> V)) -> list (list (list (nat -> V))) ->
                     list (list (nat -> V)) * list (list (list (nat -> V)))) : result (problem K V) :=
    bind (make_fes sqrtK dim_ vars) (fun fs =>
    match fs with
    | [] => Err IndexErr
    | f0 :: _ =>
        bind (get_boundary_conditions_inds f0 location_fns) (fun bil =>
        if forallb (fun f => (num_cells f =? num_cells f0)%nat) fs then
          let iv := custom_init [] (map (fun _ => []) bil) in
          let p := mkProblem fs bil m (fst iv) (snd iv) in
          bind (pre_jit_check p) (fun _ => Ok p)
        else Err ValueErr)
    end).
End Init.
Arguments var_args : clear implicits.
