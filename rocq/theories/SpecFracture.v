(** Vocabulary for C86, C87, C88. *)
From Coq Require Import List Arith Bool Reals.
From Verif Require Import Num Arr Fe Problem SpecAssembly SpecBc SpecWeak SpecEnergy Elastic Plasticity SpecPlasticity SpecEigen SpecLinear SpecPosed XNum Fracture.
Import ListNotations.
Local Open Scope R_scope.

(** ** Matrices *)
(** v . A v >= 0 for all v: no shortening in any direction; and the opposite *)
Definition tensile (d : nat) (A : tensor) : Prop := forall v : nat -> R, 0 <= sum_n (K := Rops) d (fun i => sum_n (K := Rops) d (fun j => v i * A i j * v j)).
Definition compressive (d : nat) (A : tensor) : Prop := forall v : nat -> R, sum_n (K := Rops) d (fun i => sum_n (K := Rops) d (fun j => v i * A i j * v j)) <= 0.
(** the eigenvalues found are different from each other *)
Definition distinct (d : nat) (eigh : tensor -> (nat -> R) * tensor) (x : tensor) : Prop :=
  forall a b, (a < d)%nat -> (b < d)%nat -> a <> b -> fst (eigh x) a <> fst (eigh x) b.
(** a derivative routine that returns the gradient wherever there is one and the eigenvalues are different *)
Definition grad_ok (d : nat) (eigh : tensor -> (nat -> R) * tensor) (grad : (tensor -> R) -> tensor -> tensor) : Prop :=
  forall psi x S, distinct d eigh x -> gradient2 d d psi x S -> gradient2 d d psi x (grad psi x).
(** the energy of a damaged solid: only the tensile part is lost *)
Definition damaged_energy (s : solid) (eigh : tensor -> (nat -> R) * tensor) (dim_ : nat) (d : R) (epsilon : tensor) : R :=
  (1 - d) * (1 - d) * psi_plus s eigh dim_ epsilon + psi_minus s eigh dim_ epsilon.

(** ** Problems *)
(** the displacement problem after set_params, with the first or second stress function; one internal variable, the damage *)
Definition damage_at (p : problem Rops R) (c q : nat) : R := nth 0 (iv_at p c q) 0.
Definition is_problem_u (stress_fn : tensor -> R -> tensor) (p : problem Rops R) (f : fe Rops) : Prop :=
  standard_problem p f /\ vec f = dim f /\ maps p = fracture_u_maps stress_fn /\ length (internal_vars p) = 1%nat /\ boundary_inds_list p = [] /\ wf_problem p /\ ivs_ok p /\
  (0 < p_num_cells p)%nat.
Definition is_problem_d (s : solid) (p : problem Rops R) (f : fe Rops) : Prop :=
  standard_problem p f /\ vec f = 1%nat /\ maps p = fracture_d_maps s /\ length (internal_vars p) = 1%nat /\ boundary_inds_list p = [] /\ wf_problem p /\ ivs_ok p /\
  (0 < p_num_cells p)%nat.
Definition positive_weights {V} (p : problem Rops V) (f : fe Rops) (P : list (list Rops)) : Prop :=
  forall c q, (c < p_num_cells p)%nat -> (q < num_quads f)%nat -> 0 < get_JxW P f c q.
(** the energy stored in the solid, by quadrature *)
Definition solid_energy (s : solid) (eigh : tensor -> (nat -> R) * tensor) (p : problem Rops R) (f : fe Rops) (P u : list (list Rops)) : R :=
  over_cells (K := Rops) p f P (fun c q => damaged_energy s eigh (dim f) (damage_at p c q) (strain (sol_to_grad P f u c q))).
(** the energy that the phase field minimises, for a history H *)
Definition crack_energy (s : solid) (p : problem Rops R) (f : fe Rops) (P d : list (list Rops)) : R :=
  over_cells (K := Rops) p f P (fun c q =>
    f_Gc s * (f_l s / 2 * dot2 (K := Rops) 1 (dim f) (sol_to_grad P f d c q) (sol_to_grad P f d c q) + convert_from_dof_to_quad f d c q 0%nat * convert_from_dof_to_quad f d c q 0%nat / (2 * f_l s))
    + (1 - convert_from_dof_to_quad f d c q 0%nat) * (1 - convert_from_dof_to_quad f d c q 0%nat) * nth 0 (iv_at p c q) 0).

(** ** The loop *)
(** two finite elements with the same mesh and rule; the number of components and the boundary conditions may differ *)
Definition same_rule (f f' : fe Rops) : Prop :=
  points f' = points f /\ cells f' = cells f /\ dim f' = dim f /\ num_quads f' = num_quads f /\ num_nodes f' = num_nodes f /\
  shape_vals f' = shape_vals f /\ shape_grads_ref f' = shape_grads_ref f /\ quad_weights f' = quad_weights f.
(** psi_plus of a displacement at a quadrature point *)
Definition drive (s : solid) (eigh : tensor -> (nat -> R) * tensor) (f : fe Rops) (P u : list (list Rops)) (c q : nat) : R :=
  psi_plus s eigh (dim f) (strain (sol_to_grad P f u c q)).
Definition history_at (h : list (nat -> R)) (c q : nat) : R := nth c h (fun _ => 0) q.
(** The two fields changed little, relative to their size, or one of the two is zero and was zero before: then NaN stops the loop whatever the other did. *)
Definition stops (u u_old d d_old : list (list Rops)) : Prop :=
  (norm2 u <> 0 /\ norm2 d <> 0 /\ norm2 (sub2 u u_old) <= frac_tol * norm2 u /\ norm2 (sub2 d d_old) <= frac_tol * norm2 d) \/
  (norm2 u = 0 /\ norm2 (sub2 u u_old) = 0) \/ (norm2 d = 0 /\ norm2 (sub2 d d_old) = 0).
(** problem_u for a damage field and a load: f has the conditions of info with the last value replaced, and the damage at the quadrature points *)
Definition posed_u (p0 : problem Rops R) (info : list (location_fn Rops) * list nat * list (list Rops -> Rops)) (d : list (list Rops)) (disp : R) (p : problem Rops R) : Prop :=
  exists f rest f' vals, fes p0 = f :: rest /\ fes p = f' :: rest /\ length vals = length (snd info) /\ snd info <> [] /\
    (forall i x, nth_error vals i = Some x -> if (S i =? length vals)%nat then x = (fun _ => disp) else nth_error (snd info) i = Some x) /\
    update_Dirichlet_boundary_conditions f (Some (fst info, vals)) = Ok f' /\
    boundary_inds_list p = boundary_inds_list p0 /\ maps p = maps p0 /\ internal_vars_surfaces p = internal_vars_surfaces p0 /\
    exists h, internal_vars p = [h] /\ length h = num_cells f /\ forall c q, (c < num_cells f)%nat -> history_at h c q = convert_from_dof_to_quad f d c q 0%nat.
(** elastic and surface energy, by quadrature *)
Definition fracture_energy (s : solid) (eigh : tensor -> (nat -> R) * tensor) (f : fe Rops) (P u d : list (list Rops)) : R :=
  sum_n (K := Rops) (num_cells f) (fun c => sum_n (K := Rops) (num_quads f) (fun q =>
    (damaged_energy s eigh (dim f) (convert_from_dof_to_quad f d c q 0%nat) (strain (sol_to_grad P f u c q)) +
     f_Gc s * (f_l s / 2 * dot2 (K := Rops) 1 (dim f) (sol_to_grad P f d c q) (sol_to_grad P f d c q)
               + convert_from_dof_to_quad f d c q 0%nat * convert_from_dof_to_quad f d c q 0%nat / (2 * f_l s))) * get_JxW P f c q)).
