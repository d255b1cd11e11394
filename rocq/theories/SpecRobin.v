(** Vocabulary for C96: the same problem written with get_tensor_map, get_mass_map and get_surface_maps. *)
From Coq Require Import List Arith.
From Verif Require Import Num Arr Fe Problem SpecAssembly SpecWeak.
Import ListNotations.
Local Open Scope num_scope.

Section Spec.
  Context {K : ops} {V : Type}.
  (** a problem with other maps *)
  Definition with_maps (p : problem K V) (m : user_maps K V) : problem K V :=
    mkProblem (fes p) (boundary_inds_list p) m (internal_vars p) (internal_vars_surfaces p).
  (** stress = gradient, source = - body force, the same traction on both surfaces: the alternative given in the comment of example.py:59-64 *)
  Definition plain_maps (body_val : (nat -> K) -> K) (robin_map : K -> K) : user_maps K V :=
    mkMaps (Some (fun g _ => g)) (Some (fun _ x _ _ => - body_val x)) None
      (Some [fun u _ _ k => robin_map (u k); fun u _ _ k => robin_map (u k)]) None.
  (** int grad u . grad phi_a - f phi_a over cell c, and int g(u) phi_a over face e of surface s, by quadrature *)
  Definition poisson_term (body_val : (nat -> K) -> K) (f : fe K) (P sol : list (list K)) (c a k : nat) : K :=
    sum_n (num_quads f) (fun q =>
      (sum_n (dim f) (fun j => sol_to_grad P f sol c q k j * get_shape_grads P f c q a j) - body_val (get_physical_quad_points P f c q) * shape_vals f q a) * get_JxW P f c q).
  Definition robin_term (robin_map : K -> K) (sqrtK : K -> K) (f : fe K) (P sol : list (list K)) (cf : nat * nat) (a k : nat) : K :=
    sum_n (num_face_quads f) (fun q =>
      robin_map (convert_from_dof_to_face_quad f sol (fst cf) (snd cf) q k) * face_shape_vals f (snd cf) q a * nanson_scale sqrtK P f (fst cf) (snd cf) q).
End Spec.
