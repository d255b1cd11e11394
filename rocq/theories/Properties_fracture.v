(** C86, C87, C88: phase-field fracture. *)
From Coq Require Import String Reals List Arith Lia Lra Bool.
From Verif Require Import Num Arr Fe Problem SpecAssembly Basis SpecFe SpecBc SpecWeak SpecEnergy Elastic Plasticity SpecPlasticity Eigen SpecEigen EigenMore SpecLinear SpecSolve SpecPosed SpecMonotone XNum Mesh
  Fracture SpecFracture FractureFacts FractureMore FractureMain FractureLoop FractureUse.
Import ListNotations.
Local Open Scope R_scope.

(** C86. The two parts of the energy add up to the elastic energy, and none is negative. *)
Theorem C86_split : forall s d eigh, eigh_ok d eigh ->
  (forall G, psi_plus s eigh d (strain G) + psi_minus s eigh d (strain G) = strain_energy_density (f_lmbda s) (f_mu s) d G) /\
  (0 <= f_lmbda s -> 0 <= f_mu s -> forall x, 0 <= psi_plus s eigh d x /\ 0 <= psi_minus s eigh d x).
Proof. intros s d eigh EO. split; [exact (split_sum s d eigh EO)|]. intros L M x. split; [exact (psi_plus_nn s d eigh x L M)|exact (psi_minus_nn s d eigh x L M)]. Qed.
Print Assumptions C86_split.

(** Which eigenvectors the routine returns, and in which order, makes no difference. *)
Theorem C86_any_eigh : forall s d eigh eigh', eigh_ok d eigh -> eigh_ok d eigh' -> forall G dd,
  psi_plus s eigh d G = psi_plus s eigh' d G /\ psi_minus s eigh d G = psi_minus s eigh' d G /\ same_on d (stress_fn_opt2 s eigh d G dd) (stress_fn_opt2 s eigh' d G dd).
Proof. intros s d eigh eigh' EO EO' G dd. exact (any_eigh s d eigh EO eigh' G dd EO'). Qed.
Print Assumptions C86_any_eigh.

(** The stress is the gradient of the energy (1 - d)^2 psi_plus + psi_minus, also where eigenvalues are repeated or zero. *)
Theorem C86_stress_gradient : forall s d eigh, eigh_ok d eigh -> forall G dd,
  gradient2 d d (fun H => damaged_energy s eigh d dd (strain H)) G (stress_fn_opt2 s eigh d G dd).
Proof. exact stress_gradient. Qed.
Print Assumptions C86_stress_gradient.

(** Without damage it is linear elasticity; its work on the strain is twice the energy. *)
Theorem C86_undamaged : forall s d eigh, eigh_ok d eigh -> forall G,
  same_on d (stress_fn_opt2 s eigh d G 0) (elastic_stress (f_lmbda s) (f_mu s) d G (@nil R)) /\
  forall dd, ddot d (stress_fn_opt2 s eigh d G dd) (strain G) = 2 * damaged_energy s eigh d dd (strain G).
Proof. intros s d eigh EO G. split; [exact (undamaged s d eigh EO R G nil)|exact (stress_work s d eigh EO G)]. Qed.
Print Assumptions C86_undamaged.

(** Damage does not change the stress of a strain that shortens every direction, and scales that of a strain that stretches every direction. *)
Theorem C86_one_sided : forall s d eigh, eigh_ok d eigh -> forall G dd i j,
  (compressive d (strain G) -> psi_plus s eigh d (strain G) = 0 /\ stress_fn_opt2 s eigh d G dd i j = stress_fn_opt2 s eigh d G 0 i j) /\
  (tensile d (strain G) -> psi_minus s eigh d (strain G) = 0 /\ stress_fn_opt2 s eigh d G dd i j = (1 - dd) * (1 - dd) * stress_fn_opt2 s eigh d G 0 i j).
Proof.
  intros s d eigh EO G dd i j. split; intros H; split.
  - exact (compressive_psi s d eigh EO G H). - exact (compressive_stress s d eigh EO G dd i j H).
  - exact (tensile_psi s d eigh EO G H). - exact (tensile_stress s d eigh EO G dd i j H).
Qed.
Print Assumptions C86_one_sided.

(** The law is isotropic. *)
Theorem C86_isotropic : forall s d eigh, eigh_ok d eigh -> forall T G dd, orthonormal d T ->
  same_on d (stress_fn_opt2 s eigh d (turned d T G) dd) (turned d T (stress_fn_opt2 s eigh d G dd)) /\
  psi_plus s eigh d (strain (turned d T G)) = psi_plus s eigh d (strain G) /\ psi_minus s eigh d (strain (turned d T G)) = psi_minus s eigh d (strain G).
Proof. intros s d eigh EO T G dd H. split; [exact (turned_stress s d eigh EO T G dd H)|exact (turned_psi s d eigh EO T G H)]. Qed.
Print Assumptions C86_isotropic.

(** The stress grows with the strain at least as fast as 2 mu times the smaller of 1 and (1 - d)^2. *)
Theorem C86_grows : forall s d eigh, eigh_ok d eigh -> forall dd k M, 0 <= f_lmbda s -> 0 <= f_mu s -> k <= (1 - dd) * (1 - dd) -> k <= 1 -> (1 - dd) * (1 - dd) <= M -> 1 <= M ->
  stress_grows d (fun G => stress_fn_opt2 s eigh d G dd) (2 * f_mu s * k) (sqrt (2 * (INR d * INR d * (f_lmbda s * f_lmbda s) + 4 * (f_mu s * f_mu s))) * M).
Proof. exact stress_growth. Qed.
Print Assumptions C86_grows.

(** The first option, automatic differentiation of the energies at a strain with noise on its diagonal, is the second option at that strain when the
    eigenvalues differ, and then as close to the second option at the strain itself as the noise is small. *)
Theorem C86_noise : forall s d eigh, eigh_ok d eigh -> forall grad, grad_ok d eigh grad -> forall noise G dd,
  let shifted := fun i j => strain G i j + (if (i =? j)%nat then noise i j else 0) in
  distinct d eigh shifted ->
  same_on d (stress_fn_opt1 s eigh d grad noise G dd) (stress_fn_opt2 s eigh d shifted dd) /\
  forall M, 0 <= f_lmbda s -> 0 <= f_mu s -> (1 - dd) * (1 - dd) <= M -> 1 <= M ->
    let diff := minus (stress_fn_opt1 s eigh d grad noise G dd) (stress_fn_opt2 s eigh d G dd) in
    ddot d diff diff <= 2 * (INR d * INR d * (f_lmbda s * f_lmbda s) + 4 * (f_mu s * f_mu s)) * (M * M) * sum_n (K := Rops) d (fun i => noise i i * noise i i).
Proof.
  intros s d eigh EO grad GO noise G dd sh DI. split; [exact (opt1_is s d eigh EO grad GO noise G dd DI)|]. intros M L0 M0 G1 G2. exact (opt1_close s d eigh EO grad GO noise G dd M L0 M0 G1 G2 DI).
Qed.
Print Assumptions C86_noise.

(** The hypotheses are met: in two dimensions by a routine for eigenvalues, by partial derivatives; a shear, whose strain has eigenvalues of both signs;
    the constants of the example. *)
Example C86_nonvacuous : eigh_ok 2 eigh2 /\ grad_ok 2 eigh2 partials /\
  (exists x, distinct 2 eigh2 x) /\ (exists G, tensile 2 (strain G) /\ strain G 0%nat 0%nat = 1) /\ (exists G, compressive 2 (strain G) /\ strain G 0%nat 0%nat = -1) /\
  0 < f_lmbda example_solid /\ 0 < f_mu example_solid /\ 0 < f_Gc example_solid /\ 0 < f_l example_solid.
Proof.
  split; [exact eigh2_ok|]. split; [exact (partials_ok 2 eigh2)|]. split.
  - exists (fun i j => if (i =? j)%nat then INR i else 0). intros a b Ha Hb NE. unfold eigh2. cbv zeta.
    match goal with |- context [Req_EM_T ?u ?v] => destruct (Req_EM_T u v) as [E|E] end; [|exfalso; apply E; unfold strain; cbn; lra].
    cbn [fst]. destruct a as [|[|a]], b as [|[|b]]; try lia; intros E2; cbn in E2; lra.
  - split.
    + exists (fun i j => if (i =? j)%nat then 1 else 0). split; [|unfold strain; cbn; lra]. intros v. unfold strain. cbn.
      pose proof (Rle_0_sqr (v 0%nat)). pose proof (Rle_0_sqr (v 1%nat)). unfold Rsqr in *. lra.
    + split; [|unfold example_solid; cbn; lra]. exists (fun i j => if (i =? j)%nat then -1 else 0). split; [|unfold strain; cbn; lra]. intros v. unfold strain. cbn.
      pose proof (Rle_0_sqr (v 0%nat)). pose proof (Rle_0_sqr (v 1%nat)). unfold Rsqr in *. lra.
Qed.
Print Assumptions C86_nonvacuous.

(** C87. While no point is fully damaged the displacement problem has exactly one solution, and it has the least energy of all displacements with the
    prescribed values. *)
Theorem C87_displacement : forall s eigh (p : problem Rops R) f P, eigh_ok (dim f) eigh -> is_problem_u (stress_fn_opt2 s eigh (dim f)) p f ->
  0 <= f_lmbda s -> 0 < f_mu s -> positive_weights p f P ->
  (no_free_motion p f P -> (forall c q, (c < p_num_cells p)%nat -> (q < num_quads f)%nat -> damage_at p c q <> 1) -> one_solution p [P]) /\
  forall x y, solves p [P] [x] -> sol_ok p [y] -> meets_bcs f y -> solid_energy s eigh p f P x <= solid_energy s eigh p f P y.
Proof.
  intros s eigh p f P EO IS L M PW. split; [exact (u_one s eigh p f P EO IS L M PW)|exact (u_minimum s eigh p f P EO IS L (Rlt_le _ _ M) PW)].
Qed.
Print Assumptions C87_displacement.

(** On any mesh of first-order elements the phase-field problem is linear and has exactly one solution, whatever the history; it minimises the energy. *)
Theorem C87_phase : forall s (p : problem Rops R) f P el sqrtK quad fquad normals pts cls v dir,
  is_problem_d s p f -> 0 < f_Gc s -> 0 < f_l s -> (forall c q, (c < p_num_cells p)%nat -> (q < num_quads f)%nat -> 0 <= nth 0 (iv_at p c q) 0) -> positive_weights p f P ->
  fe_init (K := Rops) sqrtK el quad fquad normals pts cls v (element_dim el) dir = Ok f -> mesh_ok f -> sharp_rule el (fst quad) ->
  (forall n, (n < List.length (points f))%nat -> exists cell, In cell (cells f) /\ In n cell) ->
  affine_residual p [P] /\ one_solution p [P] /\
  forall x y, solves p [P] [x] -> sol_ok p [y] -> meets_bcs f y -> crack_energy s p f P x <= crack_energy s p f P y.
Proof.
  intros s p f P el sqrtK quad fquad normals pts cls v dir IS GC LL HN PW B MO SH COV. destruct (d_one s p f P IS GC LL HN PW el sqrtK quad fquad normals pts cls v dir B MO SH COV) as (A & _ & O).
  split; [exact A|]. split; [exact O|exact (d_minimum s p f P IS GC LL HN PW)].
Qed.
Print Assumptions C87_phase.

(** Where nothing is prescribed, the resistance and the driving force of the phase field balance over the body; without driving force there is no damage. *)
Theorem C87_balance : forall s (p : problem Rops R) f P el sqrtK quad fquad normals pts cls v dir,
  is_problem_d s p f -> 0 < f_Gc s -> 0 < f_l s -> (forall c q, (c < p_num_cells p)%nat -> (q < num_quads f)%nat -> 0 <= nth 0 (iv_at p c q) 0) -> positive_weights p f P ->
  fe_init (K := Rops) sqrtK el quad fquad normals pts cls v (element_dim el) dir = Ok f -> mesh_ok f -> sharp_rule el (fst quad) ->
  (forall n, (n < List.length (points f))%nat -> exists cell, In cell (cells f) /\ In n cell) ->
  (forall n k, (n < List.length (points f))%nat -> (k < vec f)%nat -> prescribed f n k = None) -> List.length P = List.length (points f) ->
  forall x, solves p [P] [x] ->
  over_cells (K := Rops) p f P (fun c q => f_Gc s / f_l s * convert_from_dof_to_quad f x c q 0%nat) =
    over_cells (K := Rops) p f P (fun c q => 2 * (1 - convert_from_dof_to_quad f x c q 0%nat) * nth 0 (iv_at p c q) 0) /\
  ((forall c q, (c < p_num_cells p)%nat -> (q < num_quads f)%nat -> nth 0 (iv_at p c q) 0 = 0) -> forall n, (n < List.length (points f))%nat -> get2 (@zero Rops) x n 0 = 0).
Proof.
  intros s p f P el sqrtK quad fquad normals pts cls v dir IS GC LL HN PW B MO SH COV NP PL x SX. split.
  - exact (d_balance s p f P IS el sqrtK quad fquad normals pts cls v dir B MO SH NP PL x SX).
  - exact (d_intact s p f P IS GC LL HN PW el sqrtK quad fquad normals pts cls v dir B MO SH COV NP PL x SX).
Qed.
Print Assumptions C87_balance.

(** The traction of an affine displacement and constant damage is the stress on (0, 1) times the measure of the selected faces. *)
Theorem C87_traction : forall s eigh el (f : fe Rops) P A b sol_u sol_d dv sqrtK inds k,
  eigh_ok 2 eigh -> built_element el 2 f -> vec f = 2%nat -> List.length P = List.length (points f) -> samples (K := Rops) 2 2 A b P sol_u ->
  (forall c a, (c < num_cells f)%nat -> (a < num_nodes f)%nat -> cell_sol_at f sol_d c a 0 = dv) -> (k < 2)%nat ->
  (forall e q, (e < List.length inds)%nat -> (q < num_face_quads f)%nat ->
     (fst (nth e inds (0%nat, 0%nat)) < num_cells f)%nat /\ nanson_scale (K := Rops) sqrtK P f (fst (nth e inds (0%nat, 0%nat))) (snd (nth e inds (0%nat, 0%nat))) q <> 0) ->
  compute_traction sqrtK (stress_fn_opt2 s eigh (dim f)) f P inds sol_u sol_d k =
  stress_fn_opt2 s eigh 2 A dv k 1%nat *
    sum_n (K := Rops) (List.length inds) (fun e => sum_n (K := Rops) (num_face_quads f) (fun q => nanson_scale (K := Rops) sqrtK P f (fst (nth e inds (0%nat, 0%nat))) (snd (nth e inds (0%nat, 0%nat))) q)).
Proof. exact traction_affine. Qed.
Print Assumptions C87_traction.

(** C88. In every run the history after a step is the largest driving energy of all displacements returned so far, and of the history at the start. *)
Theorem C88_history : forall s eigh solve_u solve_d P passes disps st f rest sts, fes (fs_pu st) = f :: rest -> fs_u_old st = fs_u st -> fs_d_old st = fs_d st ->
  frac_steps s eigh solve_u solve_d P passes disps st = Finished sts ->
  forall k stk, nth_error sts k = Some stk -> forall c q, (c < num_cells f)%nat ->
    history_at (fs_history_old st) c q <= history_at (fs_history stk) c q /\
    (forall i sti, (i <= k)%nat -> nth_error sts i = Some sti -> drive s eigh f P (fs_u sti) c q <= history_at (fs_history stk) c q) /\
    (history_at (fs_history stk) c q = history_at (fs_history_old st) c q \/
     exists i sti, (i <= k)%nat /\ nth_error sts i = Some sti /\ history_at (fs_history stk) c q = drive s eigh f P (fs_u sti) c q).
Proof.
  intros s eigh solve_u solve_d P passes disps st f rest sts F0 OU OD H.
  exact (history_max s eigh solve_u solve_d P (fs_pu st) (fs_pd st) (fs_info st) f rest F0 passes disps st sts (starts (fs_pu st) (fs_pd st) (fs_info st) f rest F0 st eq_refl eq_refl eq_refl) (conj OU OD) H).
Qed.
Print Assumptions C88_history.

(** What a run returns for step k: a displacement found for load k and some damage, the damage found for the history of that displacement, and the last
    pass changed the two by at most a part in 10^5 (or one of the two is zero and was zero before). *)
Theorem C88_steps : forall s eigh solve_u solve_d P passes disps st f rest sts, fes (fs_pu st) = f :: rest -> fs_u_old st = fs_u st -> fs_d_old st = fs_d st ->
  frac_steps s eigh solve_u solve_d P passes disps st = Finished sts ->
  List.length sts = List.length disps /\
  forall k stk disp, nth_error sts k = Some stk -> nth_error disps k = Some disp ->
    exists u_old d_old, posed_u (fs_pu st) (fs_info st) d_old disp (fs_pu stk) /\ solve_u (fs_pu stk) = Ok (fs_u stk) /\
      fs_pd stk = with_vars (fs_pd st) [fs_history stk] /\ solve_d (fs_pd stk) = Ok (fs_d stk) /\ stops (fs_u stk) u_old (fs_d stk) d_old.
Proof.
  intros s eigh solve_u solve_d P passes disps st f rest sts F0 OU OD H.
  destruct (steps_spec s eigh solve_u solve_d P (fs_pu st) (fs_pd st) (fs_info st) f rest F0 passes disps st sts (starts (fs_pu st) (fs_pd st) (fs_info st) f rest F0 st eq_refl eq_refl eq_refl) (conj OU OD) H) as (L & N).
  split; [exact L|]. intros k stk disp E1 E2. destruct (N k stk disp E1 E2) as (_ & (uo & do & A & B & C & D & _ & _ & S)). exists uo, do. auto.
Qed.
Print Assumptions C88_steps.

(** The test of the loop, with NaN and infinities: it stops exactly then. *)
Theorem C88_test : forall u u_old d d_old, xltb (Fin frac_tol) (xmax (change u u_old) (change d d_old)) = false <-> stops u u_old d d_old.
Proof. exact stop_iff. Qed.
Print Assumptions C88_test.

(** A pass that leaves the damage as it was has found a fixed point: further passes change nothing. *)
Theorem C88_fixed_point : forall s eigh solve_u solve_d P disp st f rest st1 err1 st2 err2, fes (fs_pu st) = f :: rest ->
  stagger_pass s eigh solve_u solve_d P disp st = Ok (st1, err1) -> fs_d st1 = fs_d st -> stagger_pass s eigh solve_u solve_d P disp st1 = Ok (st2, err2) ->
  fs_u st2 = fs_u st1 /\ fs_d st2 = fs_d st1 /\ fs_history st2 = fs_history st1.
Proof.
  intros s eigh solve_u solve_d P disp st f rest st1 err1 st2 err2 F0.
  exact (fixed_point s eigh solve_u solve_d P (fs_pu st) (fs_pd st) (fs_info st) f rest disp st st1 err1 st2 err2 (starts (fs_pu st) (fs_pd st) (fs_info st) f rest F0 st eq_refl eq_refl eq_refl)).
Qed.
Print Assumptions C88_fixed_point.

(** With exact solutions of the two problems, each half of a pass lowers the energy of the cracked solid, or leaves it: the first half if the
    displacement before has the new prescribed values, the second if no driving energy is below its history. *)
Theorem C88_descent : forall s eigh solve_u solve_d P disp st f fd st' err, eigh_ok (dim f) eigh -> 0 <= f_lmbda s -> 0 <= f_mu s -> 0 < f_Gc s -> 0 < f_l s ->
  is_problem_u (stress_fn_opt2 s eigh (dim f)) (fs_pu st) f -> is_problem_d s (fs_pd st) fd -> same_rule f fd ->
  (forall c q, (c < num_cells f)%nat -> (q < num_quads f)%nat -> 0 < get_JxW P f c q) ->
  stagger_pass s eigh solve_u solve_d P disp st = Ok (st', err) ->
  (solves (fs_pu st') [P] [fs_u st'] -> sol_ok (fs_pu st) [fs_u st] -> meets_bcs (fe0 (fs_pu st')) (fs_u st) ->
     fracture_energy s eigh f P (fs_u st') (fs_d st) <= fracture_energy s eigh f P (fs_u st) (fs_d st)) /\
  (solves (fs_pd st') [P] [fs_d st'] -> sol_ok (fs_pd st) [fs_d st] -> meets_bcs fd (fs_d st) ->
     (forall c q, (c < num_cells f)%nat -> (q < num_quads f)%nat -> history_at (fs_history_old st) c q <= drive s eigh f P (fs_u st') c q) ->
     fracture_energy s eigh f P (fs_u st') (fs_d st') <= fracture_energy s eigh f P (fs_u st') (fs_d st)).
Proof.
  intros s eigh solve_u solve_d P disp st f fd st' err EO L M GC LL IU ID SR PW PS.
  assert (F0 : fes (fs_pu st) = [f]) by exact (proj1 (proj1 IU)).
  exact (pass_descends s eigh solve_u solve_d P (fs_pu st) (fs_pd st) (fs_info st) f fd EO L M GC LL IU ID SR PW disp st st' err (starts (fs_pu st) (fs_pd st) (fs_info st) f [] F0 st eq_refl eq_refl eq_refl) PS).
Qed.
Print Assumptions C88_descent.

(** The hypotheses are met: on every rectangle that is held at its left end and pulled at its right end, the two problems of the first pass have exactly one
    solution each, everything C87 and C88 assume holds, and a run with these two answers returns. *)
Example C88_nonvacuous : forall s Nx Ny Lx Ly stretch sqrtK fquad normals, (0 < Nx)%nat -> (0 < Ny)%nat -> 0 < Lx -> 0 < Ly ->
  0 <= f_lmbda s -> 0 < f_mu s -> 0 < f_Gc s -> 0 < f_l s ->
  let M := rectangle_mesh Nx Ny Lx Ly in let P := m_points M in
  exists pu pd fu fd st st' err (u d : list (list Rops)),
    is_problem_u (stress_fn_opt2 s eigh2 (dim fu)) pu fu /\ is_problem_d s pd fd /\ same_rule fu fd /\ eigh_ok (dim fu) eigh2 /\
    (forall c q, (c < num_cells fu)%nat -> (q < num_quads fu)%nat -> 0 < get_JxW P fu c q) /\
    fs_pu st = pu /\ fs_pd st = pd /\ fs_u_old st = fs_u st /\ fs_d_old st = fs_d st /\
    stagger_pass s eigh2 (fun _ => Ok u) (fun _ => Ok d) P 0 st = Ok (st', err) /\ solves (fs_pu st') [P] [fs_u st'] /\ solves (fs_pd st') [P] [fs_d st'] /\
    one_solution (fs_pu st') [P] /\ one_solution (fs_pd st') [P] /\
    sol_ok pu [fs_u st] /\ meets_bcs (fe0 (fs_pu st')) (fs_u st) /\ sol_ok pd [fs_d st] /\ meets_bcs fd (fs_d st) /\
    (forall c q, (c < num_cells fu)%nat -> (q < num_quads fu)%nat -> history_at (fs_history_old st) c q <= drive s eigh2 fu P (fs_u st') c q) /\
    (forall n, (n < List.length P)%nat -> nth 0 (nth n P []) (@zero Rops) = Lx -> get2 (@zero Rops) (fs_u st') n 0 = stretch * Lx) /\
    fe_init (K := Rops) sqrtK "QUAD4" two_by_two fquad normals P (m_cells M) 1 2 None = Ok fd /\ mesh_ok fd /\ sharp_rule "QUAD4" (fst two_by_two) /\
    exists sts, frac_steps s eigh2 (fun _ => Ok u) (fun _ => Ok d) P 2 [0] st = Finished sts.
Proof. intros s Nx Ny Lx Ly stretch sqrtK fquad normals HX HY LX LY L0 M0 GC LL. exact (specimen s Nx Ny Lx Ly stretch sqrtK fquad normals HX HY LX LY L0 M0 GC LL). Qed.
Print Assumptions C88_nonvacuous.
