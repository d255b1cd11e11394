(** Vocabulary for C80: the same problem over two kinds of numbers (the reals of the mathematical
    statements, and the extended reals the solver loop computes with). *)
From Coq Require Import List Arith Bool.
From Verif Require Import Num Arr Fe Problem.
Import ListNotations.

(** h maps numbers of K1 to numbers of K2 and respects arithmetic; division only by non-zero numbers. *)
Record hom (K1 K2 : ops) (h : K1 -> K2) : Prop := {
  hom0 : h zero = zero;
  hom1 : h one = one;
  hom_add : forall a b, h (add a b) = add (h a) (h b);
  hom_mul : forall a b, h (mul a b) = mul (h a) (h b);
  hom_sub : forall a b, h (sub a b) = sub (h a) (h b);
  hom_opp : forall a, h (opp a) = opp (h a);
  hom_div : forall a b, b <> zero -> h (div a b) = div (h a) (h b)
}.

Section Lift.
  Context {K1 K2 : ops} {V : Type} (h : K1 -> K2).

  Definition lift1 (l : list K1) : list K2 := map h l.
  Definition lift2 (l : list (list K1)) : list (list K2) := map lift1 l.
  Definition lift3 (l : list (list (list K1))) : list (list (list K2)) := map lift2 l.

  (** the finite element with every number replaced by its image *)
  Definition lift_fe (f : fe K1) : fe K2 :=
    mkFe (lift2 (points f)) (cells f) (vec f) (dim f) (num_quads f) (num_nodes f) (num_faces f) (num_face_quads f)
      (fun q a => h (shape_vals f q a)) (fun q a i => h (shape_grads_ref f q a i)) (fun q => h (quad_weights f q))
      (fun fc q a => h (face_shape_vals f fc q a)) (fun fc q a i => h (face_shape_grads_ref f fc q a i))
      (fun fc q => h (face_quad_weights f fc q)) (fun fc i => h (face_normals f fc i)) (face_inds f)
      (node_inds_list f) (vec_inds_list f) (lift2 (vals_list f)).
  (** the problem; the user's functions over K2 are given, see [maps_agree] *)
  Definition lift_problem (m2 : user_maps K2 V) (p : problem K1 V) : problem K2 V :=
    mkProblem (map lift_fe (fes p)) (boundary_inds_list p) m2 (internal_vars p) (internal_vars_surfaces p).

  (** the same inputs of a cell kernel (shape gradients at the nq quadrature points) and of a face kernel *)
  Definition same_cell (nq : nat) (ci1 : cell_in K1 V) (ci2 : cell_in K2 V) : Prop :=
    ci_sol ci2 = lift1 (ci_sol ci1) /\
    (forall q i, ci_x ci2 q i = h (ci_x ci1 q i)) /\
    (forall q A i, q < nq -> ci_grads ci2 q A i = h (ci_grads ci1 q A i)) /\
    (forall v q, ci_JxW ci2 v q = h (ci_JxW ci1 v q)) /\
    (forall q A i, q < nq -> ci_vgJxW ci2 q A i = h (ci_vgJxW ci1 q A i)) /\
    ci_iv ci2 = ci_iv ci1.
  Definition same_face (nq : nat) (fi1 : face_in K1 V) (fi2 : face_in K2 V) : Prop :=
    fi_sol fi2 = lift1 (fi_sol fi1) /\
    (forall q i, fi_x fi2 q i = h (fi_x fi1 q i)) /\
    (forall q A, fi_vals fi2 q A = h (fi_vals fi1 q A)) /\
    (forall q A i, q < nq -> fi_grads fi2 q A i = h (fi_grads fi1 q A i)) /\
    (forall v q, q < nq -> fi_nanson fi2 v q = h (fi_nanson fi1 v q)) /\
    fi_iv fi2 = fi_iv fi1.

  Definition both {A B} (R : A -> B -> Prop) (x : option A) (y : option B) : Prop :=
    match x, y with Some a, Some b => R a b | None, None => True | _, _ => False end.
  (** two functions of (u, x, internal variables) with c components *)
  Definition same_map (c : nat) (f1 : (nat -> K1) -> (nat -> K1) -> list V -> nat -> K1)
      (f2 : (nat -> K2) -> (nat -> K2) -> list V -> nat -> K2) : Prop :=
    forall u x u' x' iv, (forall k, u' k = h (u k)) -> (forall i, x' i = h (x i)) ->
      forall k, k < c -> f2 u' x' iv k = h (f1 u x iv k).
  (** The user's functions over K2 compute on images what those over K1 compute. *)
  Definition maps_agree (f : fe K1) (m1 : user_maps K1 V) (m2 : user_maps K2 V) : Prop :=
    both (fun t1 t2 => forall g g' iv, (forall k j, g' k j = h (g k j)) ->
            forall k j, k < vec f -> j < dim f -> t2 g' iv k j = h (t1 g iv k j))
         (tensor_map m1) (tensor_map m2) /\
    both (same_map (vec f)) (mass_map m1) (mass_map m2) /\
    both (fun u1 u2 => forall ci1 ci2, same_cell (num_quads f) ci1 ci2 -> u2 ci2 = lift1 (u1 ci1))
         (universal_kernel m1) (universal_kernel m2) /\
    both (Forall2 (same_map (vec f))) (surface_maps m1) (surface_maps m2) /\
    both (Forall2 (fun u1 u2 => forall fi1 fi2, same_face (num_face_quads f) fi1 fi2 -> u2 fi2 = lift1 (u1 fi1)))
         (universal_kernels_surface m1) (universal_kernels_surface m2).

  (** jax.jvp over K2 of a function that on images computes what f1 computes *)
  Definition jvp_agree (jvp1 : (list K1 -> list K1) -> list K1 -> list K1 -> list K1)
      (jvp2 : (list K2 -> list K2) -> list K2 -> list K2 -> list K2) : Prop :=
    forall f1 f2 x v, (forall y, f2 (lift1 y) = lift1 (f1 y)) -> jvp2 f2 (lift1 x) (lift1 v) = lift1 (jvp1 f1 x v).
  (** the square roots of sums of squares *)
  Definition sqrt_agree (s1 : K1 -> K1) (s2 : K2 -> K2) : Prop :=
    forall n (r : nat -> K1), s2 (h (sum_n n (fun j => mul (r j) (r j)))) = h (s1 (sum_n n (fun j => mul (r j) (r j)))).

  (** No quadrature point of a cell or of a selected face has a singular Jacobian. *)
  Definition regular_mesh (p : problem K1 V) (pts : list (list (list K1))) : Prop :=
    (forall f P c q, In (f, P) (combine (fes p) pts) -> c < p_num_cells p -> q < num_quads (fe0 p) ->
       det (dim f) (jacobian_dx_deta P f c q) <> zero) /\
    (forall f P b c fc q, In (f, P) (combine (fes p) pts) -> In b (boundary_inds_list p) -> In (c, fc) b ->
       q < num_face_quads (fe0 p) -> det (dim f) (face_jacobian P f c fc q) <> zero).

  Definition map_result {A B} (g : A -> B) (r : result A) : result B :=
    match r with Ok a => Ok (g a) | Err e => Err e end.
End Lift.
