(** Vocabulary for C81: linear problems with exactly one solution. *)
From Coq Require Import String List Arith Bool Reals.
From Verif Require Import Num Arr Fe Problem SpecAssembly SpecBc SpecWeak SpecEnergy SpecLinear.
Import ListNotations.
Local Open Scope R_scope.

Section Spec.
  Context {V : Type}.
  (** Two lists of (nodes, vec) arrays with the same entries at every dof of the problem. *)
  Definition same_fields (p : problem Rops V) (x y : list (list (list Rops))) : Prop :=
    forall v n j, (v < length (fes p))%nat -> (n < length (points (fe_of p v)))%nat -> (j < vec (fe_of p v))%nat ->
      get2 (@zero Rops) (nth v x []) n j = get2 (@zero Rops) (nth v y []) n j.
  (** Exactly one solution. *)
  Definition one_solution (p : problem Rops V) (pts : list (list (list Rops))) : Prop :=
    exists x, solves p pts x /\ forall y, solves p pts y -> y = x.
  (** No change goes unnoticed: a change of a field that is zero at every prescribed dof and leaves the residual of every other
      dof as it was, is zero at every dof. *)
  Definition no_free_change (p : problem Rops V) (pts : list (list (list Rops))) : Prop :=
    forall x d rx ry, sol_ok p x -> sol_ok p d -> compute_residual sqrt p pts x = Ok rx -> compute_residual sqrt p pts (line3 x d 1) = Ok ry ->
      (forall v n j, (v < length (fes p))%nat -> (n < length (points (fe_of p v)))%nat -> (j < vec (fe_of p v))%nat ->
         match prescribed (fe_of p v) n j with
         | Some _ => get2 (@zero Rops) (nth v d []) n j = 0
         | None => get2 (@zero Rops) (nth v ry []) n j = get2 (@zero Rops) (nth v rx []) n j
         end) ->
      forall v n j, (v < length (fes p))%nat -> (n < length (points (fe_of p v)))%nat -> (j < vec (fe_of p v))%nat -> get2 (@zero Rops) (nth v d []) n j = 0.
End Spec.

(** ** Maps that are affine in the solution *)
Section Affine.
  Context {V : Type}.
  (** Along every line the stress, the source and the tractions change at a constant rate: the tangents D, the same at every solution. *)
  Definition affine_maps (p : problem Rops V) (f : fe Rops) (P : list (list Rops)) (D : tangents) : Prop :=
    forall x v t, sol_ok p [x] -> sol_ok p [v] ->
    (forall c q k j, (c < p_num_cells p)%nat -> (q < num_quads f)%nat -> (k < vec f)%nat -> (j < dim f)%nat ->
       stress p f P (along (K := Rops) x v t) c q k j = stress p f P x c q k j + t * t_stress D c q (sol_to_grad P f v c q) k j) /\
    (forall c q k, (c < p_num_cells p)%nat -> (q < num_quads f)%nat -> (k < vec f)%nat ->
       source p f P (along (K := Rops) x v t) c q k = source p f P x c q k + t * t_source D c q (convert_from_dof_to_quad f v c q) k) /\
    (forall s e q k, (s < length (boundary_inds_list p))%nat -> (e < num_sel_faces p s)%nat -> (q < num_face_quads f)%nat -> (k < vec f)%nat ->
       let c := fst (nth e (nth s (boundary_inds_list p) []) (0%nat, 0%nat)) in
       let fc := snd (nth e (nth s (boundary_inds_list p) []) (0%nat, 0%nat)) in
       traction p f P (along (K := Rops) x v t) s e q k = traction p f P x s e q k + t * t_traction D s e q (convert_from_dof_to_face_quad f v c fc q) k).
  (** zero at every prescribed dof *)
  Definition held_zero (f : fe Rops) (d : list (list Rops)) : Prop :=
    forall n k b, (n < length (points f))%nat -> (k < vec f)%nat -> prescribed f n k = Some b -> get2 (@zero Rops) d n k = 0.
  (** Only the zero field has no energy. *)
  Definition definite (p : problem Rops V) (f : fe Rops) (P : list (list Rops)) (D : tangents) : Prop :=
    forall d, sol_ok p [d] -> held_zero f d -> tangent_form sqrt p f P D d d = 0 ->
    forall n k, (n < length (points f))%nat -> (k < vec f)%nat -> get2 (@zero Rops) d n k = 0.

  (** ** Diffusion with reaction and Robin conditions *)
  (** Flux kappa * grad u, source alpha * u + load, flux through surface s beta * u + load; kappa of the internal variables, alpha and beta
      of the point too.  A missing map is zero. *)
  Definition diffusion_maps (kappa : list V -> R) (alpha : (nat -> R) -> list V -> R) (beta : nat -> (nat -> R) -> list V -> R) (m : user_maps Rops V) : Prop :=
    match tensor_map m with
    | None => forall iv, kappa iv = 0
    | Some tm => forall G iv k j, tm G iv k j = kappa iv * G k j
    end /\
    match mass_map m with
    | None => forall x iv, alpha x iv = 0
    | Some mm => forall u u' x iv k, mm u x iv k - mm u' x iv k = alpha x iv * (u k - u' k)
    end /\
    (forall sms s sm, surface_maps m = Some sms -> nth_error sms s = Some sm ->
       forall u u' x iv k, sm u x iv k - sm u' x iv k = beta s x iv * (u k - u' k)).
  (** alpha at a quadrature point, beta at a quadrature point of a selected face *)
  Definition alpha_at (alpha : (nat -> R) -> list V -> R) (p : problem Rops V) (f : fe Rops) (P : list (list Rops)) (c q : nat) : R :=
    alpha (get_physical_quad_points P f c q) (iv_at p c q).
  Definition beta_at (beta : nat -> (nat -> R) -> list V -> R) (p : problem Rops V) (f : fe Rops) (P : list (list Rops)) (s e q : nat) : R :=
    let c := fst (nth e (nth s (boundary_inds_list p) []) (0%nat, 0%nat)) in
    let fc := snd (nth e (nth s (boundary_inds_list p) []) (0%nat, 0%nat)) in
    beta s (get_physical_surface_quad_points P f c fc q) (iv_face_at p s e q).
  (** No free field: a field that is zero at every prescribed dof, has no gradient where kappa > 0, and is zero at the quadrature points where
      alpha > 0 or beta > 0, is zero at every node. *)
  Definition no_free_field (kappa : list V -> R) (alpha : (nat -> R) -> list V -> R) (beta : nat -> (nat -> R) -> list V -> R)
      (p : problem Rops V) (f : fe Rops) (P : list (list Rops)) : Prop :=
    forall d, sol_ok p [d] -> held_zero f d ->
      (forall c q k j, (c < p_num_cells p)%nat -> (q < num_quads f)%nat -> (k < vec f)%nat -> (j < dim f)%nat -> 0 < kappa (iv_at p c q) -> sol_to_grad P f d c q k j = 0) ->
      (forall c q k, (c < p_num_cells p)%nat -> (q < num_quads f)%nat -> (k < vec f)%nat -> 0 < alpha_at alpha p f P c q -> convert_from_dof_to_quad f d c q k = 0) ->
      (forall s e q k, (s < length (boundary_inds_list p))%nat -> (e < num_sel_faces p s)%nat -> (q < num_face_quads f)%nat -> (k < vec f)%nat -> 0 < beta_at beta p f P s e q ->
         let c := fst (nth e (nth s (boundary_inds_list p) []) (0%nat, 0%nat)) in
         let fc := snd (nth e (nth s (boundary_inds_list p) []) (0%nat, 0%nat)) in
         convert_from_dof_to_face_quad f d c fc q k = 0) ->
      forall n k, (n < length (points f))%nat -> (k < vec f)%nat -> get2 (@zero Rops) d n k = 0.
  (** nonnegative coefficients at the quadrature points of the problem, and positive measures where they are not zero *)
  Definition diffusive (kappa : list V -> R) (alpha : (nat -> R) -> list V -> R) (beta : nat -> (nat -> R) -> list V -> R)
      (p : problem Rops V) (f : fe Rops) (P : list (list Rops)) : Prop :=
    (forall c q, (c < p_num_cells p)%nat -> (q < num_quads f)%nat -> 0 <= kappa (iv_at p c q) /\ 0 <= alpha_at alpha p f P c q /\
       (0 < kappa (iv_at p c q) \/ 0 < alpha_at alpha p f P c q -> 0 < get_JxW P f c q)) /\
    (forall s e q, (s < length (boundary_inds_list p))%nat -> (e < num_sel_faces p s)%nat -> (q < num_face_quads f)%nat ->
       let c := fst (nth e (nth s (boundary_inds_list p) []) (0%nat, 0%nat)) in
       let fc := snd (nth e (nth s (boundary_inds_list p) []) (0%nat, 0%nat)) in
       0 <= beta_at beta p f P s e q /\ (0 < beta_at beta p f P s e q -> 0 < nanson_scale sqrt P f c fc q)).
  (** The rule contains a 2 x 2 (x 2) grid: any tensor rule with two points per axis or more. *)
  Definition full_grid (d : nat) (pts : list (list Rops)) : Prop :=
    exists a b : R, a <> b /\ forall x, length x = d -> (forall i, (i < d)%nat -> nth i x 0 = a \/ nth i x 0 = b) -> In x pts.
End Affine.

(** Two nodes are linked if a chain of cells joins them. *)
Inductive linked (cells : list (list nat)) : nat -> nat -> Prop :=
| linked_refl n : linked cells n n
| linked_step n m l cell : In cell cells -> In n cell -> In m cell -> linked cells m l -> linked cells n l.
(** Each component of each node is linked to a node where that component is prescribed. *)
Definition anchored (f : fe Rops) : Prop :=
  forall n k, (n < length (points f))%nat -> (k < vec f)%nat -> exists m b, (m < length (points f))%nat /\ prescribed f m k = Some b /\ linked (cells f) n m.
(** The rules that see every change of a first-order element: two points per axis on quadrilaterals and hexahedra, one point on simplices. *)
Definition sharp_rule (s : string) (pts : list (list Rops)) : Prop :=
  (s = "HEX8"%string /\ full_grid 3 pts) \/ (s = "QUAD4"%string /\ full_grid 2 pts) \/ ((s = "TRI3"%string \/ s = "TET4"%string) /\ pts <> []).
(** Each component is prescribed at one node at least. *)
Definition some_held (f : fe Rops) : Prop := forall k, (k < vec f)%nat -> exists n b, (n < length (points f))%nat /\ prescribed f n k = Some b.
