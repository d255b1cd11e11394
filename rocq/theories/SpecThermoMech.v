(** Vocabulary for C83: transient thermoelasticity. *)
From Coq Require Import String List Arith Bool Reals.
From Verif Require Import Num Arr Fe Problem SpecAssembly SpecBc SpecWeak SpecFe SpecEnergy SpecLinear SpecPosed Elastic Wave Stokes SpecStokes ThermoMech.
Import ListNotations.
Local Open Scope R_scope.

(** A problem of the class thermal_mechanical_full: as many displacements as coordinates, scalar temperature change, the same cells and
    quadrature points for both. *)
Definition tm_problem (M : material) (p : problem Rops (nat -> nat -> Rops)) (fu fT : fe Rops) : Prop :=
  fes p = [fu; fT] /\ maps p = tm_maps M [fu; fT] /\ boundary_inds_list p = [] /\ internal_vars_surfaces p = [] /\
  vec fu = dim fu /\ vec fT = 1%nat /\ dim fT = dim fu /\ num_quads fT = num_quads fu.
(** stiffness, heat capacity, conductivity and ambient temperature are positive; the coupling may be anything *)
Definition physical (M : material) : Prop := 0 <= lmbda M /\ 0 < mu M /\ 0 < T0 M /\ 0 < C M /\ 0 < k_cond M.

Section Spec.
  Variables (M : material) (p : problem Rops (nat -> nat -> Rops)) (fu fT : fe Rops).
  Local Notation grad_u u c q := (sol_to_grad (points fu) fu u c q).
  Local Notation grad_T w c q := (sol_to_grad (points fT) fT w c q).
  Definition temperature (w : list (list Rops)) (c q : nat) : R := convert_from_dof_to_quad fT w c q 0.
  Definition dilation (u : list (list Rops)) (c q : nat) : R := trace (dim fu) (grad_u u c q).
  (** integral of (elastic stress - kappa T I) : grad v *)
  Definition mech_work (u w v : list (list Rops)) : R :=
    over_cells (K := Rops) p fu (points fu) (fun c q =>
      dot2 (K := Rops) (dim fu) (dim fu) (elastic_stress (V := unit) (lmbda M) (mu M) (dim fu) (grad_u u c q) []) (grad_u v c q)
      - kappa M * temperature w c q * dilation v c q).
  (** integral of (C (T - T_old) / dt + kappa T0 (div u - div u_old) / dt) z + k grad T . grad z *)
  Definition heat_work (u_old w_old : list (list Rops)) (dt : R) (u w z : list (list Rops)) : R :=
    over_cells (K := Rops) p fT (points fT) (fun c q =>
      (C M * (temperature w c q - temperature w_old c q) / dt + kappa M * T0 M * (dilation u c q - dilation u_old c q) / dt) * temperature z c q
      + k_cond M * dot2 (K := Rops) 1 (dim fT) (grad_T w c q) (grad_T z c q)).
  (** strain energy - kappa theta div u + C / (2 T0) (T - theta)^2 *)
  Definition free_energy (theta : R) (u w : list (list Rops)) : R :=
    over_cells (K := Rops) p fu (points fu) (fun c q =>
      strain_energy_density (lmbda M) (mu M) (dim fu) (grad_u u c q) - kappa M * theta * dilation u c q
      + C M / (2 * T0 M) * (temperature w c q - theta) ^ 2).
  (** what a step loses: heat conduction, and the jumps of strain and temperature *)
  Definition step_loss (u_old w_old : list (list Rops)) (dt : R) (u w : list (list Rops)) : R :=
    over_cells (K := Rops) p fu (points fu) (fun c q =>
      dt * k_cond M / T0 M * dot2 (K := Rops) 1 (dim fT) (grad_T w c q) (grad_T w c q)
      + strain_energy_density (lmbda M) (mu M) (dim fu) (fun k j => grad_u u c q k j - grad_u u_old c q k j)
      + C M / (2 * T0 M) * (temperature w c q - temperature w_old c q) ^ 2).
  (** heat content: integral of C T + kappa T0 div u *)
  Definition heat_content (u w : list (list Rops)) : R :=
    over_cells (K := Rops) p fu (points fu) (fun c q => C M * temperature w c q + kappa M * T0 M * dilation u c q).
  Definition volume : R := over_cells (K := Rops) p fu (points fu) (fun _ _ => 1).
  (** sum of the losses of a run *)
  Fixpoint run_loss (u w : list (list Rops)) (dts : list R) (l : list (problem Rops (nat -> nat -> Rops) * (list (list Rops) * list (list Rops)))) : R :=
    match dts, l with
    | dt :: dts', (_, (u', w')) :: l' => step_loss u w dt u' w' + run_loss u' w' dts' l'
    | _, _ => 0
    end.
End Spec.

(** the state after a run from (u, w) *)
Definition final_state (u w : list (list Rops)) (l : list (problem Rops (nat -> nat -> Rops) * (list (list Rops) * list (list Rops)))) : list (list Rops) * list (list Rops) :=
  last (map snd l) (u, w).
(** every pass gave a solution of the problem it was given *)
Definition all_solved (fu fT : fe Rops) (l : list (problem Rops (nat -> nat -> Rops) * (list (list Rops) * list (list Rops)))) : Prop :=
  forall p u w, In (p, (u, w)) l -> solves p [points fu; points fT] [u; w].

(** Both variables integrate in the same way, with positive weights. *)
Definition same_measure (p : problem Rops (nat -> nat -> Rops)) (fu fT : fe Rops) : Prop :=
  forall c q, (c < p_num_cells p)%nat -> (q < num_quads fu)%nat -> get_JxW (points fT) fT c q = get_JxW (points fu) fu c q /\ 0 < get_JxW (points fu) fu c q.
(** A displacement that is zero where values are prescribed and has no strain at any quadrature point is zero at every node. *)
Definition no_free_strain (p : problem Rops (nat -> nat -> Rops)) (f : fe Rops) : Prop :=
  forall d, shaped (List.length (points f)) (vec f) d -> held_zero f d ->
    (forall c q i j, (c < p_num_cells p)%nat -> (q < num_quads f)%nat -> (i < dim f)%nat -> (j < dim f)%nat -> strain (sol_to_grad (points f) f d c q) i j = 0) ->
    forall n k, (n < List.length (points f))%nat -> (k < vec f)%nat -> get2 (@zero Rops) d n k = 0.
(** A temperature that is zero where values are prescribed and vanishes with its gradient at every quadrature point is zero at every node. *)
Definition temperature_seen (p : problem Rops (nat -> nat -> Rops)) (f : fe Rops) : Prop :=
  forall d, shaped (List.length (points f)) 1 d -> held_zero f d ->
    (forall c q, (c < p_num_cells p)%nat -> (q < num_quads f)%nat ->
       convert_from_dof_to_quad f d c q 0 = 0 /\ forall j, (j < dim f)%nat -> sol_to_grad (points f) f d c q 0%nat j = 0) ->
    forall n, (n < List.length (points f))%nat -> get2 (@zero Rops) d n 0 = 0.
(** The shape functions represent constants. *)
Definition constants_exact (p : problem Rops (nat -> nat -> Rops)) (f : fe Rops) : Prop :=
  forall c q, (c < p_num_cells p)%nat -> (q < num_quads f)%nat ->
    sum_n (K := Rops) (num_nodes f) (fun a => shape_vals f q a) = 1 /\
    forall j, (j < dim f)%nat -> sum_n (K := Rops) (num_nodes f) (fun a => get_shape_grads (points f) f c q a j) = 0.
(** the field has the prescribed values *)
Definition meets (f : fe Rops) (u : list (list Rops)) : Prop :=
  forall n k b, (n < List.length (points f))%nat -> (k < vec f)%nat -> prescribed f n k = Some b -> get2 (@zero Rops) u n k = b.

(** ** Triangles held by rollers *)
(** cells that share two nodes *)
Definition share_edge (l1 l2 : list nat) : Prop := exists n m, n <> m /\ In n l1 /\ In m l1 /\ In n l2 /\ In m l2.
Inductive edge_linked (cs : list (list nat)) : list nat -> list nat -> Prop :=
| edge_refl l : edge_linked cs l l
| edge_step l1 l2 l3 : In l2 cs -> share_edge l1 l2 -> edge_linked cs l2 l3 -> edge_linked cs l1 l3.
(** Three-node triangles for both variables on the same mesh, positively oriented, any two linked through edges, every node in one. *)
Definition tm_triangles (quad : list (list Rops) * list Rops) (fu fT : fe Rops) : Prop :=
  element_of "TRI3" quad fu /\ element_of "TRI3" quad fT /\ points fT = points fu /\ cells fT = cells fu /\
  fst quad <> [] /\ (forall q, (q < List.length (fst quad))%nat -> 0 < nth q (snd quad) 0) /\
  (forall c, (c < num_cells fu)%nat -> 0 < area2 (points fu) fu c) /\
  (forall l1 l2, In l1 (cells fu) -> In l2 (cells fu) -> edge_linked (cells fu) l1 l2) /\
  (forall n, (n < List.length (points fu))%nat -> exists l, In l (cells fu) /\ In n l).
(** The first component is held at two nodes of different height, the second at one node. *)
Definition rollers (f : fe Rops) : Prop :=
  (exists n m b b', (n < List.length (points f))%nat /\ (m < List.length (points f))%nat /\ prescribed f n 0 = Some b /\ prescribed f m 0 = Some b' /\
     nth 1 (nth n (points f) []) 0 <> nth 1 (nth m (points f) []) 0) /\
  exists n b, (n < List.length (points f))%nat /\ prescribed f n 1 = Some b.
