(** Model of the explicit time stepping of applications/explicit_dynamics/example.py. *)
From Coq Require Import List Arith Bool Reals.
From Verif Require Import Num Arr Fe Problem.
Import ListNotations.

Section Dynamics.
  Context {V : Type}.
  Variables (sqrtK : Rops -> Rops) (p : problem Rops V) (f : fe Rops) (P : list (list Rops)) (rho dt : R).
  Local Notation field := (list (list Rops)).

  (** example.py:76: rho * einsum("qi,eq->ei", fe.shape_vals, fe.JxW); JxW of the points P *)
  Definition element_mass (e i : nat) : Rops :=
    (rho * sum_n (K := Rops) (num_quads f) (fun q => shape_vals f q i * get_JxW P f e q))%R.
  (** x.at[is].add(vs) for a 1-d x *)
  Definition at_add1 (x : list Rops) (is_ : list nat) (vs : list Rops) : list Rops :=
    fold_left (fun acc u => upd_nth (fst u) (fun y => (y + snd u)%R) acc) (combine is_ vs) x.
  (** example.py:77-78 *)
  Definition nodal_mass : list Rops :=
    at_add1 (repeat 0%R (num_total_nodes f)) (concat (cells f))
      (flat_map (fun e => map (element_mass e) (seq 0 (num_nodes f))) (seq 0 (num_cells f))).
  (** example.py:79: np.repeat(nodal_mass[:, None], 3, axis=1); 3 is the vec of that problem *)
  Definition mass : field := map (fun m => repeat m (vec f)) nodal_mass.

  (** example.py:81-83 *)
  Definition fixed : list (list bool) :=
    fold_left (fun acc nv => at_set2 acc (fst nv) (snd nv) (repeat true (length (fst nv))))
      (combine (node_inds_list f) (vec_inds_list f)) (zeros2 false (num_total_nodes f) (vec f)).
  (** np.where(fixed, 0.0, x) *)
  Definition where_free (x : field) : field := map2 (map2 (fun (b : bool) y => if b then 0%R else y)) fixed x.

  (** example.py:97-99 *)
  Definition acceleration (u : field) : result field :=
    bind (compute_residual sqrtK p [P] [u]) (fun r =>
      match r with
      | [] => Err IndexErr
      | internal_force :: _ => Ok (where_free (map2 (map2 (fun r m => (- r / m)%R)) internal_force mass))
      end).
  (** example.py:102-103 *)
  Definition start (u0 v0 : field) : result field :=
    bind (acceleration u0) (fun a =>
      Ok (where_free (map2 (map2 (fun x y => (x + / 2 * (dt * dt) * y)%R)) (map2 (map2 (fun u v => (u - dt * v)%R)) u0 v0) a))).
  (** example.py:105-109; the new state *)
  Definition step (u_previous u : field) : result field :=
    bind (acceleration u) (fun a =>
      Ok (where_free (map2 (map2 (fun x y => (x + dt * dt * y)%R)) (map2 (map2 (fun u up => (2 * u - up)%R)) u u_previous) a))).
  (** jax.lax.scan of example.py:111: the states in turn *)
  Fixpoint scan (num_steps : nat) (u_previous u : field) : result (list field) :=
    match num_steps with
    | O => Ok []
    | S n => bind (step u_previous u) (fun u_next => bind (scan n u u_next) (fun h => Ok (u_next :: h)))
    end.
  (** example.py:102-112 *)
  Definition history (num_steps : nat) (u0 v0 : field) : result (list field) :=
    bind (start u0 v0) (fun u_previous => bind (scan num_steps u_previous u0) (fun h => Ok (u0 :: h))).
End Dynamics.
