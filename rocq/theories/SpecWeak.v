(** Vocabulary for C18, C51-C54: the weak form of a one-variable problem. *)
From Coq Require Import List Arith Bool.
From Verif Require Import Num Arr Fe Problem SpecAssembly.
Import ListNotations.
Local Open Scope num_scope.

Section Spec.
  Context {K : ops} {V : Type}.
  (** internal variables at quadrature point q of cell c, and of selected face e of surface s *)
  Definition iv_at (p : problem K V) (c q : nat) : list V :=
    flat_map (fun iv => match nth_error iv c with Some x => [x q] | None => [] end) (internal_vars p).
  Definition iv_face_at (p : problem K V) (s e q : nat) : list V :=
    flat_map (fun iv => match nth_error iv e with Some x => [x q] | None => [] end)
             (nth s (internal_vars_surfaces p) []).

  (** The user's maps look only at the entries of their (vec, dim), (vec,) and (dim,) arrays. *)
  Definition tensor_map_ok (nvec d : nat) (tm : (nat -> nat -> K) -> list V -> nat -> nat -> K) : Prop :=
    forall g g' iv, (forall k j, (k < nvec)%nat -> (j < d)%nat -> g k j = g' k j) ->
    forall k j, (k < nvec)%nat -> (j < d)%nat -> tm g iv k j = tm g' iv k j.
  Definition value_map_ok (nvec d : nat) (mm : (nat -> K) -> (nat -> K) -> list V -> nat -> K) : Prop :=
    forall u u' x x' iv, (forall k, (k < nvec)%nat -> u k = u' k) -> (forall i, (i < d)%nat -> x i = x' i) ->
    forall k, (k < nvec)%nat -> mm u x iv k = mm u' x' iv k.
  Definition maps_ok (nvec d : nat) (m : user_maps K V) : Prop :=
    (forall tm, tensor_map m = Some tm -> tensor_map_ok nvec d tm) /\
    (forall mm, mass_map m = Some mm -> value_map_ok nvec d mm) /\
    (forall sms sm, surface_maps m = Some sms -> In sm sms -> value_map_ok nvec d sm).

  (** stress, source and traction at a quadrature point; an absent map contributes nothing *)
  Definition stress (p : problem K V) (f : fe K) (P sol : list (list K)) (c q k j : nat) : K :=
    match tensor_map (maps p) with
    | None => 0
    | Some tm => tm (sol_to_grad P f sol c q) (iv_at p c q) k j
    end.
  Definition source (p : problem K V) (f : fe K) (P sol : list (list K)) (c q k : nat) : K :=
    match mass_map (maps p) with
    | None => 0
    | Some mm => mm (convert_from_dof_to_quad f sol c q) (get_physical_quad_points P f c q) (iv_at p c q) k
    end.
  Definition traction (p : problem K V) (f : fe K) (P sol : list (list K)) (s e q k : nat) : K :=
    let c := fst (nth e (nth s (boundary_inds_list p) []) (0%nat, 0%nat)) in
    let fc := snd (nth e (nth s (boundary_inds_list p) []) (0%nat, 0%nat)) in
    match surface_maps (maps p) with
    | None => 0
    | Some sms =>
        match nth_error sms s with
        | None => 0
        | Some sm => sm (convert_from_dof_to_face_quad f sol c fc q) (get_physical_surface_quad_points P f c fc q)
                        (iv_face_at p s e q) k
        end
    end.

  (** The declared maps are the documented ones: one variable, no universal kernels, at least one
      volume map, one surface map per surface. *)
  Definition standard_problem (p : problem K V) (f : fe K) : Prop :=
    fes p = [f] /\ universal_kernel (maps p) = None /\ universal_kernels_surface (maps p) = None /\
    (tensor_map (maps p) <> None \/ mass_map (maps p) <> None) /\
    match surface_maps (maps p) with
    | None => boundary_inds_list p = []
    | Some sms => length sms = length (boundary_inds_list p)
    end.

  (** the scalar field A.x + b in dimension d *)
  Definition linear_form (d : nat) (A : nat -> K) (b : K) (x : nat -> K) : K :=
    sum_n d (fun m => A m * x m) + b.
  (** sol' = sol moved by the same vector t at every node *)
  Definition moved_by (nvec : nat) (t : nat -> K) (sol sol' : list (list K)) : Prop :=
    List.length sol' = List.length sol /\
    forall n k, (n < List.length sol)%nat -> (k < nvec)%nat -> nth k (nth n sol' []) 0 = nth k (nth n sol []) 0 + t k.

  (** Element integrals against shape function a, component k. *)
  Definition volume_term (p : problem K V) (f : fe K) (P sol : list (list K)) (c a k : nat) : K :=
    sum_n (num_quads f) (fun q =>
      (sum_n (dim f) (fun j => stress p f P sol c q k j * get_shape_grads P f c q a j)
       + source p f P sol c q k * shape_vals f q a) * get_JxW P f c q).
  Definition surface_term (sqrtK : K -> K) (p : problem K V) (f : fe K) (P sol : list (list K)) (s e a k : nat) : K :=
    let c := fst (nth e (nth s (boundary_inds_list p) []) (0%nat, 0%nat)) in
    let fc := snd (nth e (nth s (boundary_inds_list p) []) (0%nat, 0%nat)) in
    sum_n (num_face_quads f) (fun q =>
      traction p f P sol s e q k * face_shape_vals f fc q a * nanson_scale sqrtK P f c fc q).
End Spec.
