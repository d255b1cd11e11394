(** C98: implicit solver for dendritic solidification. *)
From Coq Require Import String Reals List Arith Lia Lra Bool ZArith.
From Verif Require Import Num Arr ArrFacts Fe Problem SpecAssembly Basis SpecBasis SpecFe FeFacts GeomFacts SolverBc SpecBc SpecWeak SpecEnergy Elastic Wave Stokes SpecStokes ThermoMech SpecThermoMech XNum Options LinSolve Newton SpecNewton ArcLength DynRelax Solver
  SpecLift SpecLinear SpecPosed PosedFacts Mesh Dendrite SpecDendrite DendriteFacts DendriteMain DendriteRun DendriteAngle PosedMain FractureUse.
From Verif Require Import PyDict.
Import ListNotations.
Local Open Scope R_scope.
Local Notation V := (nat -> nat -> Rops).

(** C98. After set_params([sol_p, sol_T, chi]) the residuals of phase field u and temperature w, paired with any test fields v and z, are the two
    integrals of the implicit step: the width of the interface at the direction of the old gradient, the reaction at the old state, latent heat from
    the change of the new phase field. *)
Theorem C98_weak_form : forall P (p p' : problem Rops V) fp fT u_old w_old chi, dn_problem P p fp fT -> wf_problem p -> (0 < p_num_cells p)%nat ->
  List.length chi = p_num_cells p -> dn_set_params p u_old w_old chi = Ok p' ->
  forall sqrtK u w v z, sol_ok p' [u; w] -> sol_ok p' [v; z] -> exists r0 r1, compute_residual sqrtK p' [points fp; points fT] [u; w] = Ok [r0; r1] /\
    work (K := Rops) (List.length (points fp)) 1 v r0 = phase_work P p fp fT u_old w_old chi u v /\
    work (K := Rops) (List.length (points fT)) 1 z r1 = heat_flow P p fp fT u_old w_old u w z.
Proof.
  intros P p p' fp fT uo wo chi DP WF NC LN SP. rewrite (dn_set P p fp fT uo wo chi DP) in SP. injection SP as <-. exact (step_weak P fp fT chi p uo wo (conj DP (conj WF (conj NC LN)))).
Qed.
Print Assumptions C98_weak_form.

(** u and w solve the step if and only if they have the prescribed values and satisfy both equations for all test fields that are zero where values are
    prescribed. *)
Theorem C98_solves : forall P (p p' : problem Rops V) fp fT u_old w_old chi, dn_problem P p fp fT -> wf_problem p -> (0 < p_num_cells p)%nat ->
  List.length chi = p_num_cells p -> dn_set_params p u_old w_old chi = Ok p' ->
  forall u w, solves p' [points fp; points fT] [u; w] <->
    sol_ok p' [u; w] /\ meets fp u /\ meets fT w /\
    (forall v, shaped (List.length (points fp)) 1 v -> held_zero fp v -> phase_work P p fp fT u_old w_old chi u v = 0) /\
    (forall z, shaped (List.length (points fT)) 1 z -> held_zero fT z -> heat_flow P p fp fT u_old w_old u w z = 0).
Proof.
  intros P p p' fp fT uo wo chi DP WF NC LN SP. rewrite (dn_set P p fp fT uo wo chi DP) in SP. injection SP as <-. exact (step_solves P fp fT chi p uo wo (conj DP (conj WF (conj NC LN)))).
Qed.
Print Assumptions C98_solves.

(** A step has exactly one solution, for every time step, however steep the old fields and strong the anisotropy (below 1), and whatever the latent heat. *)
Theorem C98_one_solution : forall P (p p' : problem Rops V) fp fT u_old w_old chi, dn_problem P p fp fT -> wf_problem p -> (0 < p_num_cells p)%nat ->
  List.length chi = p_num_cells p -> dn_set_params p u_old w_old chi = Ok p' -> dn_physical P ->
  same_measure p fp fT -> bcs_ok p -> temperature_seen p fp -> temperature_seen p fT ->
  no_free_change p' [points fp; points fT] /\ affine_residual p' [points fp; points fT] /\ one_solution p' [points fp; points fT].
Proof.
  intros P p p' fp fT uo wo chi DP WF NC LN SP PH. rewrite (dn_set P p fp fT uo wo chi DP) in SP. injection SP as <-. exact (step_one P fp fT chi PH p uo wo (conj DP (conj WF (conj NC LN)))).
Qed.
Print Assumptions C98_one_solution.

(** The linear system of every Newton step has exactly one solution for every right-hand side, *)
Theorem C98_regular : forall P (p p' : problem Rops V) fp fT u_old w_old chi, dn_problem P p fp fT -> wf_problem p -> (0 < p_num_cells p)%nat ->
  List.length chi = p_num_cells p -> dn_set_params p u_old w_old chi = Ok p' -> dn_physical P ->
  same_measure p fp fT -> bcs_ok p -> temperature_seen p fp -> temperature_seen p fT ->
  forall jvp kf, (forall f, In f (fes p') -> bc_in_range f) -> right_jvp jvp p' [points fp; points fT] kf ->
  forall sol r0 W, sol_ok p' sol -> newton_update jvp sqrt p' [points fp; points fT] sol = Ok (r0, W) -> let n := all_dofs (global_shapes p') in
  forall b : nat -> Rops, exists x : nat -> Rops, (forall g, (g < n)%nat -> matvec (K := Rops) n (tangent p' W) x g = b g) /\
    forall y : nat -> Rops, (forall g, (g < n)%nat -> matvec (K := Rops) n (tangent p' W) y g = b g) -> forall g, (g < n)%nat -> y g = x g.
Proof.
  intros P p p' fp fT uo wo chi DP WF NC LN SP PH SM BC S0 S1 jvp kf RNG RJ. rewrite (dn_set P p fp fT uo wo chi DP) in SP. injection SP as <-.
  pose proof (conj DP (conj WF (conj NC LN)) : dn_ok P fp fT chi p) as RO. destruct (step_one P fp fT chi PH p uo wo RO SM BC S0 S1) as (NF & AFF & _). destruct (at_ok P fp fT chi p uo wo RO) as ((_ & _ & _ & _ & VP & VT & D0 & D1 & QE) & WF' & NC' & LN').
  exact (free_regular _ [points fp; points fT] kf WF' NC' (d_ivs_ok P fp fT uo wo chi WF' LN') (d_kernels P fp fT uo wo chi VP VT D0 D1 QE NC' LN' kf) (at_bcs P fp fT chi p uo wo RO BC) AFF jvp RNG RJ NF).
Qed.
Print Assumptions C98_regular.

(** and solver() returns the solution (or the initial guess if that meets the tolerances). *)
Theorem C98_solver : forall (O : Type) ravel_obj obj_of_sol (B : backends O) jvp1 jvp2 P (p p' : problem Rops V) fp fT u_old w_old chi m2 kf,
  dn_problem P p fp fT -> wf_problem p -> (0 < p_num_cells p)%nat ->
  List.length chi = p_num_cells p -> dn_set_params p u_old w_old chi = Ok p' -> dn_physical P ->
  same_measure p fp fT -> bcs_ok p -> temperature_seen p fp -> temperature_seen p fT -> (forall f, In f (fes p') -> bc_in_range f) ->
  right_jvp jvp1 p' [points fp; points fT] kf ->
  maps_agree Fin (fe0 p') (maps p') m2 -> jvp_agree (K1 := Rops) (K2 := Xops) Fin jvp1 jvp2 -> regular_mesh p' [points fp; points fT] ->
  let pX := lift_problem Fin m2 p' in
  exists x, solves p' [points fp; points fT] x /\ (forall y, solves p' [points fp; points fT] y -> y = x) /\
  forall cb mk lk nk so m fuel (cfg : dict O) lin tol rtol (u0 : list Rops),
  resolve_solver_options mk lk nk so = Ok (m, cfg) -> m <> "arc_length"%string -> m <> "dynamic_relax"%string -> exact_linear B lin ->
  (lookup cfg "linear" = None /\ lin = [] \/ lookup cfg "linear" = Some (VDict lin)) ->
  option_value cfg "tol" (/ 10 ^ 6) tol -> 0 <= tol -> option_value cfg "rel_tol" (/ 10 ^ 8) rtol ->
  starts_from ravel_obj pX None cfg (lift1 Fin u0) -> List.length u0 = all_dofs (global_shapes p') ->
  solver ravel_obj obj_of_sol B jvp2 pX (lift3 Fin [points fp; points fT]) None cb mk lk nk (S fuel) so = Done (Ok (SolOnly (lift3 Fin x))) \/
  solver ravel_obj obj_of_sol B jvp2 pX (lift3 Fin [points fp; points fT]) None cb mk lk nk (S fuel) so = Done (Ok (SolOnly (lift3 Fin (unravel (sol_shapes p') u0)))) /\
    exists r x, newton_residual pX (lift3 Fin [points fp; points fT]) None (lift1 Fin u0) r /\ xnorm r = Fin x /\ (x <= tol \/ x <= rtol * x).
Proof.
  intros O ravel_obj obj_of_sol B jvp1 jvp2 P p p' fp fT uo wo chi m2 kf DP WF NC LN SP PH SM BC S0 S1 RNG RJ MA JA RM. rewrite (dn_set P p fp fT uo wo chi DP) in SP. injection SP as <-.
  pose proof (conj DP (conj WF (conj NC LN)) : dn_ok P fp fT chi p) as RO. destruct (step_one P fp fT chi PH p uo wo RO SM BC S0 S1) as (NF & AFF & _). destruct (at_ok P fp fT chi p uo wo RO) as ((_ & _ & _ & _ & VP & VT & D0 & D1 & QE) & WF' & NC' & LN').
  exact (posed_solver O V ravel_obj obj_of_sol B jvp1 jvp2 _ m2 [points fp; points fT] kf WF' NC' (d_ivs_ok P fp fT uo wo chi WF' LN') (d_kernels P fp fT uo wo chi VP VT D0 D1 QE NC' LN' kf) (at_bcs P fp fT chi p uo wo RO BC) RNG AFF NF RJ MA JA RM).
Qed.
Print Assumptions C98_solver.

(** ** Runs *)
(** For all numbers of steps and initial fields the time loop has a run in which every pass solves its step, and only one. *)
Theorem C98_runs : forall P (p : problem Rops V) fp fT chi, dn_problem P p fp fT -> wf_problem p -> (0 < p_num_cells p)%nat -> List.length chi = p_num_cells p -> dn_physical P ->
  same_measure p fp fT -> bcs_ok p -> temperature_seen p fp -> temperature_seen p fT ->
  forall n u w, (exists solve l, dn_loop solve chi n 0 p u w = Ok l /\ all_solved fp fT l) /\
  forall solve1 solve2 l1 l2, dn_loop solve1 chi n 0 p u w = Ok l1 -> dn_loop solve2 chi n 0 p u w = Ok l2 -> all_solved fp fT l1 -> all_solved fp fT l2 -> l1 = l2.
Proof.
  intros P p fp fT chi DP WF NC LN PH SM BC S0 S1 n u w. pose proof (conj DP (conj WF (conj NC LN)) : dn_ok P fp fT chi p) as RO. split.
  - destruct (dn_run_exists P fp fT chi PH n 0 p u w RO SM BC S0 S1) as (res & l & _ & E & AS). eauto.
  - intros s1 s2 l1 l2. exact (dn_run_unique P fp fT chi PH n s1 s2 0 0 p u w l1 l2 RO SM BC S0 S1).
Qed.
Print Assumptions C98_runs.

(** No heat is lost or made: if no temperature is prescribed, the integral of T - K p is the same after every step of every run, with noise and whatever the
    time step. *)
Theorem C98_heat_balance : forall P (p : problem Rops V) fp fT chi, dn_problem P p fp fT -> wf_problem p -> (0 < p_num_cells p)%nat -> List.length chi = p_num_cells p -> dn_physical P ->
  same_measure p fp fT -> constants_exact p fT -> (forall m, (m < List.length (points fT))%nat -> prescribed fT m 0 = None) ->
  forall solve n u w l, dn_loop solve chi n 0 p u w = Ok l -> all_solved fp fT l ->
  List.length l = n /\ forall p0 u0 w0, In (p0, (u0, w0)) l -> enthalpy P p fp fT u0 w0 = enthalpy P p fp fT u w.
Proof.
  intros P p fp fT chi DP WF NC LN PH SM CE FR solve n u w l. exact (dn_run_balance P fp fT chi PH solve n FR 0 p u w l (conj DP (conj WF (conj NC LN))) SM CE).
Qed.
Print Assumptions C98_heat_balance.

(** All liquid or all solid at one temperature, undercooled or not: nothing ever happens, noise or no noise. *)
Theorem C98_steady : forall P (p : problem Rops V) fp fT chi, dn_problem P p fp fT -> wf_problem p -> (0 < p_num_cells p)%nat -> List.length chi = p_num_cells p -> dn_physical P ->
  same_measure p fp fT -> bcs_ok p -> temperature_seen p fp -> temperature_seen p fT -> constants_exact p fp -> constants_exact p fT ->
  forall x y, x = 0 \/ x = 1 -> let u := constant (List.length (points fp)) x in let w := constant (List.length (points fT)) y in meets fp u -> meets fT w ->
  forall solve n l, dn_loop solve chi n 0 p u w = Ok l -> all_solved fp fT l -> forall p0 u0 w0, In (p0, (u0, w0)) l -> u0 = u /\ w0 = w.
Proof.
  intros P p fp fT chi DP WF NC LN PH SM BC S0 S1 C0 C1 x y X u w MU MW solve n l. exact (dn_run_steady P fp fT chi PH solve n x y X MU MW 0 p l (conj DP (conj WF (conj NC LN))) SM BC S0 S1 C0 C1).
Qed.
Print Assumptions C98_steady.

(** ** The anisotropy *)
(** safe_arctan2(y, x) is the angle of (x, y) in (-pi, pi], also at the origin (where it is 0); *)
Theorem C98_angle : forall x y, let th := safe_arctan2 y x in let r := sqrt (x ^ 2 + y ^ 2) in
  x = r * cos th /\ y = r * sin th /\ - PI < th <= PI /\ safe_arctan2 0 0 = 0.
Proof.
  intros x y th r. unfold th. rewrite safe_same. destruct (arctan2_polar x y) as [A B]. split; [exact A|]. split; [exact B|]. split; [apply arctan2_range|].
  unfold safe_arctan2. destruct (Req_EM_T 0 0); [reflexivity|contradiction].
Qed.
Print Assumptions C98_angle.

(** the width of the interface has the derivative the kernel uses, the same values after 1/J of a turn and in the mirror x -> -x, and stays positive; *)
Theorem C98_anisotropy : forall P, (forall th, derivable_pt_lim (eps_fn P) th (eps_grad P th)) /\
  (forall th, eps_fn P (PI - th) = eps_fn P th) /\ (forall th, J_mode P <> 0 -> eps_fn P (th + 2 * PI / J_mode P) = eps_fn P th) /\
  (0 < eps_bar P -> -1 < delta P < 1 -> forall th, eps_bar P * (1 - Rabs (delta P)) <= eps_fn P th <= eps_bar P * (1 + Rabs (delta P)) /\ 0 < eps_fn P th).
Proof.
  intros P. split; [exact (eps_derivative P)|]. split; [exact (eps_mirror P)|]. split; [exact (eps_turn P)|]. intros E D th. unfold eps_fn. pose proof (COS_bound (J_mode P * (th - PI / 2))) as B. set (c := cos _) in *.
  assert (Q : - Rabs (delta P) <= delta P * c <= Rabs (delta P)).
  { unfold Rabs. destruct (Rcase_abs (delta P)); nra. }
  assert (Rabs (delta P) < 1) by (apply Rabs_def1; lra). split; [split; apply Rmult_le_compat_l; lra|]. apply Rmult_lt_0_compat; lra.
Qed.
Print Assumptions C98_anisotropy.

(** and for a whole number J the flux is the derivative of the energy eps(theta(grad p))^2 |grad p|^2 / 2 of the interface with respect to grad p, at every
    gradient but zero, also across the cut of the angle. *)
Theorem C98_flux : forall P (j : Z) gx gy hx hy, J_mode P = IZR j -> gx <> 0 \/ gy <> 0 ->
  let th := arctan2 gy gx in let fl := interface_flux (eps_fn P th) (eps_grad P th) gx gy in
  derivable_pt_lim (fun t => let x := gx + t * hx in let y := gy + t * hy in / 2 * (eps_fn P (arctan2 y x)) ^ 2 * (x ^ 2 + y ^ 2)) 0 (fst fl * hx + snd fl * hy).
Proof. intros P j gx gy hx hy J NZ. exact (flux_derivative P j gx gy hx hy J NZ). Qed.
Print Assumptions C98_flux.

(** ** The mesh and the parameters of the example meet the hypotheses *)
Theorem C98_rectangle : forall P Nx Ny Lx Ly sqrtK quad fquad normals, (0 < Nx)%nat -> (0 < Ny)%nat -> 0 < Lx -> 0 < Ly ->
  full_grid 2 (fst quad) -> (forall q, (q < List.length (fst quad))%nat -> 0 < nth q (snd quad) 0) ->
  let M := rectangle_mesh Nx Ny Lx Ly in
  exists f, fe_init (K := Rops) sqrtK "QUAD4" quad fquad normals (m_points M) (m_cells M) 1 2 None = Ok f /\
    let p : problem Rops V := mkProblem [f; f] [] (dn_maps P [f; f]) [] [] in
    dn_problem P p f f /\ wf_problem p /\ p_num_cells p = (Nx * Ny)%nat /\ points f = m_points M /\ same_measure p f f /\ bcs_ok p /\ temperature_seen p f /\ constants_exact p f /\
    forall n, (n < List.length (points f))%nat -> prescribed f n 0 = None.
Proof.
  intros P Nx Ny Lx Ly sqrtK quad fquad normals HX HY LX LY FG WP M.
  destruct (fe_init (K := Rops) sqrtK "QUAD4" quad fquad normals (m_points M) (m_cells M) 1 2 None) as [f|e] eqn:B; [|discriminate].
  exists f. split; [reflexivity|]. exact (rect_dendrite P Nx Ny Lx Ly sqrtK quad fquad normals HX HY LX LY FG WP f B).
Qed.
Print Assumptions C98_rectangle.

(** The example: its parameters, its seed, temperature 0 and one noise array for all passes, on every rectangle mesh.  The run exists, is the only one, and after
    every step the integral of T is K times what the integral of p has grown. *)
Theorem C98_example : forall Nx Ny hx hy sqrtK fquad normals, (0 < Nx)%nat -> (0 < Ny)%nat -> 0 < hx -> 0 < hy ->
  let P := dn_example in let M := rectangle_mesh Nx Ny (INR Nx * hx) (INR Ny * hy) in
  exists f, fe_init (K := Rops) sqrtK "QUAD4" two_by_two fquad normals (m_points M) (m_cells M) 1 2 None = Ok f /\
    let p : problem Rops V := mkProblem [f; f] [] (dn_maps P [f; f]) [] [] in
    forall chi n, List.length chi = (Nx * Ny)%nat ->
    exists solve l, dn_run solve chi n p (m_points M) Nx Ny hx hy = Ok l /\ all_solved f f l /\ List.length l = n /\
      (forall solve' l', dn_run solve' chi n p (m_points M) Nx Ny hx hy = Ok l' -> all_solved f f l' -> l' = l) /\
      forall p0 u w, In (p0, (u, w)) l ->
        over_cells (K := Rops) p f (points f) (fun c q => temp f w c q) =
        16 / 10 * (over_cells (K := Rops) p f (points f) (fun c q => phase f u c q) - over_cells (K := Rops) p f (points f) (fun c q => phase f (dn_seed (m_points M) Nx Ny hx hy) c q)).
Proof.
  intros Nx Ny hx hy sqrtK fquad normals HX HY LX LY P M. assert (0 < INR Nx) by (apply lt_0_INR; lia). assert (0 < INR Ny) by (apply lt_0_INR; lia).
  assert (FG : full_grid 2 (fst two_by_two)) by exact two_grid_points.
  destruct (C98_rectangle P Nx Ny (INR Nx * hx) (INR Ny * hy) sqrtK two_by_two fquad normals HX HY ltac:(nra) ltac:(nra) FG two_weights) as (f & B & H1). exists f. split; [exact B|].
  intros p chi n LN. destruct H1 as (DP & WF & NC & PF & SM & BC & TS & CE & FR). assert (NC' : (0 < p_num_cells p)%nat) by (unfold p; rewrite NC; nia).
  assert (LN' : List.length chi = p_num_cells p) by (unfold p; rewrite NC; exact LN). assert (PH : dn_physical P) by (unfold P, dn_example, dn_physical; cbn; lra).
  destruct (C98_runs P p f f chi DP WF NC' LN' PH SM BC TS TS n (dn_seed (m_points M) Nx Ny hx hy) (zeros2 (@zero Rops) (List.length (m_points M)) 1)) as ((solve & l & E & AS) & UN).
  destruct (C98_heat_balance P p f f chi DP WF NC' LN' PH SM CE FR solve n _ _ l E AS) as (LL & HB).
  exists solve, l. split; [exact E|]. split; [exact AS|]. split; [exact LL|]. split; [intros s' l' E' AS'; exact (UN s' solve l' l E' E AS' AS)|].
  intros p0 u w I. specialize (HB p0 u w I). exact (enthalpy_zero P p f f (List.length (m_points M)) u w _ HB).
Qed.
Print Assumptions C98_example.
