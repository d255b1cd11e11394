(** Vocabulary for C73, C74: work of the residual in a field, energies, tangents. *)
From Coq Require Import List Arith Bool Reals.
From Verif Require Import Num Arr Fe Problem SpecAssembly SpecWeak.
Import ListNotations.
Local Open Scope num_scope.

Section Spec.
  Context {K : ops} {V : Type}.
  (** sum over the entries of a (vec, dim) array, of a (vec,) array *)
  Definition dot2 (m d : nat) (A B : nat -> nat -> K) : K := sum_n m (fun k => sum_n d (fun j => A k j * B k j)).
  Definition dot1 (m : nat) (a b : nat -> K) : K := sum_n m (fun k => a k * b k).
  (** product of two (nodes, vec) arrays *)
  Definition work (n m : nat) (v r : list (list K)) : K := sum_n n (fun i => sum_n m (fun k => get2 0 v i k * get2 0 r i k)).

  (** integral over the mesh and over the selected faces, by quadrature *)
  Definition over_cells (p : problem K V) (f : fe K) (P : list (list K)) (g : nat -> nat -> K) : K :=
    sum_n (p_num_cells p) (fun c => sum_n (num_quads f) (fun q => g c q * get_JxW P f c q)).
  (** g surface face cell local-face face-quadrature-point *)
  Definition over_faces (sqrtK : K -> K) (p : problem K V) (f : fe K) (P : list (list K)) (g : nat -> nat -> nat -> nat -> nat -> K) : K :=
    sum_n (List.length (boundary_inds_list p)) (fun s => sum_n (num_sel_faces p s) (fun e =>
      let c := fst (nth e (nth s (boundary_inds_list p) []) (0%nat, 0%nat)) in
      let fc := snd (nth e (nth s (boundary_inds_list p) []) (0%nat, 0%nat)) in
      sum_n (num_face_quads f) (fun q => g s e c fc q * nanson_scale sqrtK P f c fc q))).

  (** sol + t v, array by array *)
  Definition along (sol v : list (list K)) (t : K) : list (list K) := map2 (map2 (fun a b => a + t * b)) sol v.
End Spec.

Section Energy.
  Context {V : Type}.
  (** Densities: stored energy of a gradient, potential of the body load at a value and a point,
      potential of the tractions of each surface. *)
  Record densities := mkDensities {
    stored : (nat -> nat -> R) -> list V -> R;
    load : (nat -> R) -> (nat -> R) -> list V -> R;
    pull : nat -> (nat -> R) -> (nat -> R) -> list V -> R
  }.
  (** they look only at the entries of their arrays *)
  Definition densities_ok (m d : nat) (E : densities) : Prop :=
    (forall G G' iv, (forall k j, (k < m)%nat -> (j < d)%nat -> G k j = G' k j) -> stored E G iv = stored E G' iv) /\
    (forall u u' x iv, (forall k, (k < m)%nat -> u k = u' k) -> load E u x iv = load E u' x iv) /\
    (forall s u u' x iv, (forall k, (k < m)%nat -> u k = u' k) -> pull E s u x iv = pull E s u' x iv).
  (** the gradient of a function of an array, as a directional derivative in every direction *)
  Definition gradient2 (m d : nat) (psi : (nat -> nat -> R) -> R) (G S : nat -> nat -> R) : Prop :=
    forall H, derivable_pt_lim (fun t => psi (fun k j => G k j + t * H k j)%R) 0 (dot2 (K := Rops) m d S H).
  Definition gradient1 (m : nat) (psi : (nat -> R) -> R) (u s : nat -> R) : Prop :=
    forall h, derivable_pt_lim (fun t => psi (fun k => u k + t * h k)%R) 0 (dot1 (K := Rops) m s h).

  (** At the given solution the stress, the source and the tractions are the gradients of the densities. *)
  Definition derives_from (p : problem Rops V) (f : fe Rops) (P sol : list (list Rops)) (E : densities) : Prop :=
    (forall c q, (c < p_num_cells p)%nat -> (q < num_quads f)%nat ->
       gradient2 (vec f) (dim f) (fun G => stored E G (iv_at p c q)) (sol_to_grad P f sol c q) (stress p f P sol c q)) /\
    (forall c q, (c < p_num_cells p)%nat -> (q < num_quads f)%nat ->
       gradient1 (vec f) (fun u => load E u (get_physical_quad_points P f c q) (iv_at p c q))
                 (convert_from_dof_to_quad f sol c q) (source p f P sol c q)) /\
    (forall s e q, (s < length (boundary_inds_list p))%nat -> (e < num_sel_faces p s)%nat -> (q < num_face_quads f)%nat ->
       let c := fst (nth e (nth s (boundary_inds_list p) []) (0%nat, 0%nat)) in
       let fc := snd (nth e (nth s (boundary_inds_list p) []) (0%nat, 0%nat)) in
       gradient1 (vec f) (fun u => pull E s u (get_physical_surface_quad_points P f c fc q) (iv_face_at p s e q))
                 (convert_from_dof_to_face_quad f sol c fc q) (traction p f P sol s e q)).
  (** the total energy of a solution *)
  Definition total_energy (sqrtK : Rops -> Rops) (p : problem Rops V) (f : fe Rops) (P : list (list Rops)) (E : densities) (sol : list (list Rops)) : R :=
    over_cells (K := Rops) p f P (fun c q => (stored E (sol_to_grad P f sol c q) (iv_at p c q)
        + load E (convert_from_dof_to_quad f sol c q) (get_physical_quad_points P f c q) (iv_at p c q))%R)
    + over_faces (K := Rops) sqrtK p f P (fun s e c fc q =>
        pull E s (convert_from_dof_to_face_quad f sol c fc q) (get_physical_surface_quad_points P f c fc q) (iv_face_at p s e q)).

  (** Tangents of the stress, the source and the tractions at the given solution. *)
  Record tangents := mkTangents {
    t_stress : nat -> nat -> (nat -> nat -> R) -> nat -> nat -> R;       (* cell quad H k j *)
    t_source : nat -> nat -> (nat -> R) -> nat -> R;                     (* cell quad h k *)
    t_traction : nat -> nat -> nat -> (nat -> R) -> nat -> R             (* surface face quad h k *)
  }.
  (** the derivative of the user's maps in every direction *)
  Definition tangents_of (p : problem Rops V) (f : fe Rops) (P sol : list (list Rops)) (D : tangents) : Prop :=
    (forall c q v k j, (c < p_num_cells p)%nat -> (q < num_quads f)%nat -> (k < vec f)%nat -> (j < dim f)%nat ->
       sol_ok p [v] ->
       derivable_pt_lim (fun t => stress p f P (along sol v t) c q k j) 0 (t_stress D c q (sol_to_grad P f v c q) k j)) /\
    (forall c q v k, (c < p_num_cells p)%nat -> (q < num_quads f)%nat -> (k < vec f)%nat -> sol_ok p [v] ->
       derivable_pt_lim (fun t => source p f P (along sol v t) c q k) 0 (t_source D c q (convert_from_dof_to_quad f v c q) k)) /\
    (forall s e q v k, (s < length (boundary_inds_list p))%nat -> (e < num_sel_faces p s)%nat -> (q < num_face_quads f)%nat ->
       (k < vec f)%nat -> sol_ok p [v] ->
       let c := fst (nth e (nth s (boundary_inds_list p) []) (0%nat, 0%nat)) in
       let fc := snd (nth e (nth s (boundary_inds_list p) []) (0%nat, 0%nat)) in
       derivable_pt_lim (fun t => traction p f P (along sol v t) s e q k) 0 (t_traction D s e q (convert_from_dof_to_face_quad f v c fc q) k)).
  (** the bilinear form of the tangents *)
  Definition tangent_form (sqrtK : Rops -> Rops) (p : problem Rops V) (f : fe Rops) (P : list (list Rops)) (D : tangents) (v w : list (list Rops)) : R :=
    over_cells (K := Rops) p f P (fun c q =>
        (dot2 (K := Rops) (vec f) (dim f) (t_stress D c q (sol_to_grad P f v c q)) (sol_to_grad P f w c q)
         + dot1 (K := Rops) (vec f) (t_source D c q (convert_from_dof_to_quad f v c q)) (convert_from_dof_to_quad f w c q))%R)
    + over_faces (K := Rops) sqrtK p f P (fun s e c fc q =>
        dot1 (K := Rops) (vec f) (t_traction D s e q (convert_from_dof_to_face_quad f v c fc q)) (convert_from_dof_to_face_quad f w c fc q)).
  (** symmetric tangents: the Hessians of energies are *)
  Definition symmetric_tangents (p : problem Rops V) (f : fe Rops) (D : tangents) : Prop :=
    (forall c q G H, dot2 (K := Rops) (vec f) (dim f) (t_stress D c q G) H = dot2 (K := Rops) (vec f) (dim f) (t_stress D c q H) G) /\
    (forall c q g h, dot1 (K := Rops) (vec f) (t_source D c q g) h = dot1 (K := Rops) (vec f) (t_source D c q h) g) /\
    (forall s e q g h, dot1 (K := Rops) (vec f) (t_traction D s e q g) h = dot1 (K := Rops) (vec f) (t_traction D s e q h) g).
  Definition nonnegative_tangents (p : problem Rops V) (f : fe Rops) (D : tangents) : Prop :=
    (forall c q G, 0 <= dot2 (K := Rops) (vec f) (dim f) (t_stress D c q G) G)%R /\
    (forall c q g, 0 <= dot1 (K := Rops) (vec f) (t_source D c q g) g)%R /\
    (forall s e q g, 0 <= dot1 (K := Rops) (vec f) (t_traction D s e q g) g)%R.
  (** entry (g, h) of the matrix *)
  Definition quadratic_form (p : problem Rops V) (W : list Rops) (v w : list (list Rops)) : R :=
    sum_n (K := Rops) (all_dofs (global_shapes p)) (fun g => sum_n (K := Rops) (all_dofs (global_shapes p)) (fun h =>
      (nth g (concat w) 0 * coo_entry (K := Rops) (p_I p) (p_J p) W g h * nth h (concat v) 0)%R)).
End Energy.
Arguments densities V : clear implicits.
