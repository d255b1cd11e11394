(** Vocabulary for C103. *)
From Coq Require Import String Reals List Arith Bool.
From Verif Require Import Num Arr Fe Problem SpecAssembly SpecWeak Elastic Plasticity SpecEigen SpecEnergy HyperElastic SpecHyper Contact.
Import ListNotations.
Local Open Scope R_scope.

(** symmetric with positive quadratic form *)
Definition positive_definite (d : nat) (U : tensor) : Prop := same d U (transposed U) /\
  forall x : nat -> R, (exists i, (i < d)%nat /\ x i <> 0) -> 0 < sum_n (K := Rops) d (fun i => sum_n (K := Rops) d (fun j => x i * U i j * x j)).
(** F = R U with R a rotation and U symmetric and positive *)
Definition polar (d : nat) (F Rm : tensor) : Prop := is_rotation d Rm /\ exists U, positive_definite d U /\ same d F (product d Rm U).
(** the matrix [[c, -s], [s, c]] of the plane, the third axis kept *)
Definition spin (c s : R) : tensor := fun i j => match i, j with 0%nat, 0%nat => c | 0%nat, 1%nat => - s | 1%nat, 0%nat => s | 1%nat, 1%nat => c | 2%nat, 2%nat => 1 | _, _ => 0 end.
(** length, cosine and sine of the vector (F00 + F11, F10 - F01) *)
Definition swing (F : tensor) : R := sqrt ((F 0%nat 0%nat + F 1%nat 1%nat)^2 + (F 1%nat 0%nat - F 0%nat 1%nat)^2).
Definition swing_cos (F : tensor) : R := (F 0%nat 0%nat + F 1%nat 1%nat) / swing F.
Definition swing_sin (F : tensor) : R := (F 1%nat 0%nat - F 0%nat 1%nat) / swing F.
(** moduli for E = 1, nu = 0.4, and the constants of the medium *)
Definition bulk_K : R := / (3 * (1 - 2 * (4 / 10))).
Definition shear_G : R := / (2 * (1 + 4 / 10)).
Definition stiff_R : R := 1 / 100.
Definition faint : R := 1 / 10 ^ 6.
Definition norm_sq (F : tensor) : R := F 0%nat 0%nat ^ 2 + F 0%nat 1%nat ^ 2 + F 1%nat 0%nat ^ 2 + F 1%nat 1%nat ^ 2.
(** energies of plane strain: change of shape, change of volume; and of turning away from the matrix spin r0 r1 *)
Definition shape_energy (F : tensor) : R := shear_G / 2 * (Rpower (det (K := Rops) 2 F) (- (2) / 3) * (norm_sq F + 1) - 3).
Definition volume_energy (F : tensor) : R := bulk_K / 2 * ln (det (K := Rops) 2 F) ^ 2.
Definition turning_energy (r0 r1 : R) (F : tensor) : R := stiff_R * ((swing_cos F - r0) ^ 2 + (swing_sin F - r1) ^ 2).
(** their gradients *)
Definition shape_stress (F : tensor) : tensor := fun i j => shear_G * Rpower (det (K := Rops) 2 F) (- (2) / 3) * (F i j - (norm_sq F + 1) / 3 * inv_mat (K := Rops) 2 F j i).
Definition volume_stress (F : tensor) : tensor := fun i j => bulk_K * ln (det (K := Rops) 2 F) * inv_mat (K := Rops) 2 F j i.
(** 2 k sin(angle between) / |swing|, times the rotation of F turned by a quarter *)
Definition turning_stress (r0 r1 : R) (F : tensor) : tensor := fun i j =>
  2 * stiff_R * (swing_sin F * r0 - swing_cos F * r1) / swing F *
  match i, j with 0%nat, 0%nat => - swing_sin F | 0%nat, 1%nat => - swing_cos F | 1%nat, 0%nat => swing_cos F | 1%nat, 1%nat => - swing_sin F | _, _ => 0 end.
(** energy and stress: solid (theta > 0.5) or medium *)
Definition contact_energy (solid : bool) (r0 r1 : R) (F : tensor) : R := if solid then volume_energy F + shape_energy F else faint * shape_energy F + turning_energy r0 r1 F.
Definition contact_law (solid : bool) (r0 r1 : R) (F : tensor) : tensor := fun i j =>
  if solid then volume_stress F i j + shape_stress F i j else faint * shape_stress F i j + turning_stress r0 r1 F i j.
Definition is_solid (theta : R) : bool := if Rlt_dec (1 / 2) theta then true else false.
(** the three eigenvalues of F^T F (with the third axis kept, where it is 1) are different: what jax's derivative of eigh needs *)
Definition simple_spectrum (F : tensor) : Prop := let C := product 2 (transposed F) F in
  (C 0%nat 0%nat - C 1%nat 1%nat) ^ 2 + 4 * C 0%nat 1%nat ^ 2 <> 0 /\ (C 0%nat 0%nat - 1) * (C 1%nat 1%nat - 1) - C 0%nat 1%nat ^ 2 <> 0.
(** jax.grad: the gradient wherever it exists and the spectrum is simple; only the four entries count *)
Definition contact_grad_correct (eigh : tensor -> (nat -> R) * tensor) (grad : (tensor -> R) -> tensor -> tensor) : Prop :=
  (forall theta r0 r1 R_old F, same 3 R_old (spin r0 r1) -> 0 < det (K := Rops) 2 F -> simple_spectrum F -> gradient2 2 2 (contact_psi eigh theta R_old) F (grad (contact_psi eigh theta R_old) F)) /\
  (forall theta R_old F F', same 2 F F' -> same 2 (grad (contact_psi eigh theta R_old) F) (grad (contact_psi eigh theta R_old) F')).

(** ** Problems *)
(** the deformation gradient, with the random diagonal, at quadrature point q of cell c *)
Definition strained (noise : tensor) (P : list (list Rops)) (f : fe Rops) (u : list (list Rops)) (c q : nat) : tensor := fun i j => sol_to_grad P f u c q i j + noise i j + identity i j.
Definition average (n : nat) (g : nat -> R) : R := sum_n (K := Rops) n g / INR n.
(** a problem with this stress; theta, r0, r1 give the two internal variables *)
Definition contact_problem (eigh : tensor -> (nat -> R) * tensor) (grad : (tensor -> R) -> tensor -> tensor) (noise : tensor) (p : problem Rops cval) (f : fe Rops) (theta r0 r1 : nat -> nat -> R) : Prop :=
  standard_problem p f /\ vec f = 2%nat /\ dim f = 2%nat /\ maps p = contact_maps eigh grad noise /\
  forall c q, (c < p_num_cells p)%nat -> (q < num_quads f)%nat -> exists Rm, iv_at p c q = [CNum (theta c q); CTen Rm] /\ same 3 Rm (spin (r0 c q) (r1 c q)).
(** every quadrature point strained without inversion, with simple spectrum *)
Definition regular_state (noise : tensor) (p : problem Rops cval) (f : fe Rops) (P u : list (list Rops)) : Prop :=
  forall c q, (c < p_num_cells p)%nat -> (q < num_quads f)%nat -> 0 < det (K := Rops) 2 (strained noise P f u c q) /\ simple_spectrum (strained noise P f u c q).
(** the energy of bodies and medium *)
Definition contact_total (noise : tensor) (p : problem Rops cval) (f : fe Rops) (P : list (list Rops)) (theta r0 r1 : nat -> nat -> R) (u : list (list Rops)) : R :=
  over_cells (K := Rops) p f P (fun c q => contact_energy (is_solid (theta c q)) (r0 c q) (r1 c q) (strained noise P f u c q)).
(** the quadrature points of the reference square have the mean (1/2, 1/2) *)
Definition centred (quad : list (list Rops)) : Prop := quad <> [] /\ forall k, (k < 2)%nat -> average (length quad) (fun q => nth k (nth q quad []) 0) = 1 / 2.
(** the C: cell (i, j) of the grid of (20 k + 1) x (10 k) squares *)
Definition in_solid (k i j : nat) : bool := ((i <? 20 * k) && ((i <? 2 * k) || (8 * k <=? j) || (j <? 2 * k)))%nat.
(** what the boundary conditions of one pass prescribe at component m of node (i, j) *)
Definition prescribed (k : nat) (scale : R) (i j m : nat) : option R :=
  if (i =? 0)%nat then Some 0 else if ((i =? 20 * k) && (j =? 10 * k) && (m =? 1))%nat then Some (- scale * 500) else None.
(** the boundary conditions of a pass with the factor scale *)
Definition bc_values (scale : R) : list (list Rops -> Rops) := [fun _ => 0; fun _ => 0; fun _ => - scale * 500].
Definition bc_locs : list (location_fn Rops) := [Loc1 left_side; Loc1 left_side; Loc1 rightmost_node].
(** what a pass with this factor makes of the old solution: it solves, from the old solution on, the problem with these conditions and with the mean rotations of the old solution *)
Definition pass_of (eigh : tensor -> (nat -> R) * tensor) (noise : tensor) (solve : problem Rops cval -> list (list Rops) -> result (list (list Rops))) (P : list (list Rops)) (f : fe Rops) (thetas : list (nat -> cval)) (p0 : problem Rops cval)
    (scale : R) (old : list (list Rops)) (s' : contact_state) (u : list (list Rops)) : Prop :=
  exists f', update_Dirichlet_boundary_conditions f (Some (bc_locs, [0; 1; 1]%nat, bc_values scale)) = Ok f' /\
  ct_problem s' = mkProblem [f'] (boundary_inds_list p0) (maps p0) [thetas; contact_post eigh noise P f old] (internal_vars_surfaces p0) /\ solve (ct_problem s') old = Ok u.
