(** C83: transient thermoelasticity. *)
From Coq Require Import String Reals List Arith Lia Lra Bool.
From Verif Require Import Num Arr ArrFacts Fe Problem SpecAssembly Basis SpecBasis SpecFe FeFacts GeomFacts SolverBc SpecBc SpecWeak SpecEnergy Elastic Wave Stokes SpecStokes ThermoMech SpecThermoMech XNum Options LinSolve Newton SpecNewton ArcLength DynRelax Solver
  SpecLift SpecLinear SpecPosed PosedFacts Init StokesEnd ThermoMechFacts ThermoMechMain ThermoMechRun ThermoMechTri ThermoMechEnd PosedMain.
From Verif Require Import PyDict.
Import ListNotations.
Local Open Scope R_scope.
Local Notation V := (nat -> nat -> Rops).

(** C83. After set_params(sol_u_old, sol_dT_old, dt) the residuals of displacement u and temperature change w, paired with any test fields v and z,
    are the integrals of (sigma(u) - kappa w I) : grad v and of (C (w - w_old) / dt + kappa T0 (div u - div u_old) / dt) z + k grad w . grad z. *)
Theorem C83_weak_form : forall M (p p' : problem Rops V) fu fT u_old w_old dt, tm_problem M p fu fT -> wf_problem p -> (0 < p_num_cells p)%nat -> dt <> 0 ->
  tm_set_params p u_old w_old dt = Ok p' ->
  forall sqrtK u w v z, sol_ok p' [u; w] -> sol_ok p' [v; z] -> exists r0 r1, compute_residual sqrtK p' [points fu; points fT] [u; w] = Ok [r0; r1] /\
    work (K := Rops) (List.length (points fu)) (vec fu) v r0 = mech_work M p fu fT u w v /\
    work (K := Rops) (List.length (points fT)) 1 z r1 = heat_work M p fu fT u_old w_old dt u w z.
Proof.
  intros M p p' fu fT uo wo dt TP WF NC _ SP sqrtK u w v z SU SV. pose proof (sp_cells M p p' fu fT uo wo dt TP SP) as PC.
  pose proof (tm_weak M p' fu fT uo wo dt (sp_tp M p p' fu fT uo wo dt TP SP) (sp_pa M p p' fu fT uo wo dt TP SP) (sp_wf M p p' fu fT uo wo dt TP SP WF) ltac:(rewrite PC; exact NC) sqrtK u w v z SU SV) as W.
  unfold mech_work, heat_work, over_cells in *. rewrite PC in W. exact W.
Qed.
Print Assumptions C83_weak_form.

(** u and w solve the problem if and only if they have the prescribed values and satisfy both equations for all test fields that are zero where
    values are prescribed. *)
Theorem C83_solves : forall M (p p' : problem Rops V) fu fT u_old w_old dt, tm_problem M p fu fT -> wf_problem p -> (0 < p_num_cells p)%nat -> dt <> 0 ->
  tm_set_params p u_old w_old dt = Ok p' ->
  forall u w, solves p' [points fu; points fT] [u; w] <->
    sol_ok p' [u; w] /\ meets fu u /\ meets fT w /\
    (forall v, shaped (List.length (points fu)) (vec fu) v -> held_zero fu v -> mech_work M p fu fT u w v = 0) /\
    (forall z, shaped (List.length (points fT)) 1 z -> held_zero fT z -> heat_work M p fu fT u_old w_old dt u w z = 0).
Proof.
  intros M p p' fu fT uo wo dt TP WF NC _ SP u w. pose proof (sp_cells M p p' fu fT uo wo dt TP SP) as PC.
  pose proof (tm_solves M p' fu fT uo wo dt (sp_tp M p p' fu fT uo wo dt TP SP) (sp_pa M p p' fu fT uo wo dt TP SP) (sp_wf M p p' fu fT uo wo dt TP SP WF) ltac:(rewrite PC; exact NC) u w) as W.
  unfold mech_work, heat_work, over_cells in *. rewrite PC in W. exact W.
Qed.
Print Assumptions C83_solves.

(** A step has exactly one solution, for all positive time steps, whatever the coupling, if displacements without strain and temperatures without
    value and gradient are seen; *)
Theorem C83_one_solution : forall M (p p' : problem Rops V) fu fT u_old w_old dt, tm_problem M p fu fT -> wf_problem p -> (0 < p_num_cells p)%nat -> physical M -> 0 < dt ->
  tm_set_params p u_old w_old dt = Ok p' -> same_measure p fu fT -> bcs_ok p -> no_free_strain p fu -> temperature_seen p fT ->
  no_free_change p' [points fu; points fT] /\ affine_residual p' [points fu; points fT] /\ one_solution p' [points fu; points fT].
Proof.
  intros M p p' fu fT uo wo dt TP WF NC PH DT SP SM BC NF TS.
  exact (tm_one M p' fu fT uo wo dt (sp_tp M p p' fu fT uo wo dt TP SP) (sp_pa M p p' fu fT uo wo dt TP SP) (sp_wf M p p' fu fT uo wo dt TP SP WF)
    ltac:(rewrite (sp_cells M p p' fu fT uo wo dt TP SP); exact NC) PH DT (sp_measure M p p' fu fT uo wo dt TP SP SM) (sp_bcs M p p' fu fT uo wo dt TP SP BC)
    (sp_strain M p p' fu fT uo wo dt TP SP fu NF) (sp_seen M p p' fu fT uo wo dt TP SP fT TS)).
Qed.
Print Assumptions C83_one_solution.

(** and they are on any mesh of three-node triangles linked through edges that stands on rollers. *)
Theorem C83_triangles : forall M (p : problem Rops V) quad fu fT, tm_problem M p fu fT -> wf_problem p -> tm_triangles quad fu fT ->
  same_measure p fu fT /\ constants_exact p fT /\ temperature_seen p fT /\ (rollers fu -> no_free_strain p fu).
Proof.
  intros M p quad fu fT TP WF TR. split; [exact (m_measure M p quad fu fT TP WF TR)|]. split; [exact (m_const p quad fu fT TR)|].
  split; [exact (m_seen M p quad fu fT TP WF TR)|exact (m_strain M p quad fu fT TP WF TR)].
Qed.
Print Assumptions C83_triangles.

(** Then the linear system of every Newton step has exactly one solution for every right-hand side, *)
Theorem C83_regular : forall M (p p' : problem Rops V) quad fu fT u_old w_old dt, tm_problem M p fu fT -> wf_problem p -> (0 < p_num_cells p)%nat -> physical M -> 0 < dt ->
  tm_set_params p u_old w_old dt = Ok p' -> tm_triangles quad fu fT -> rollers fu -> bcs_ok p ->
  forall jvp kf, (forall f, In f (fes p') -> bc_in_range f) -> right_jvp jvp p' [points fu; points fT] kf ->
  forall sol r0 W, sol_ok p' sol -> newton_update jvp sqrt p' [points fu; points fT] sol = Ok (r0, W) -> let n := all_dofs (global_shapes p') in
  forall b : nat -> Rops, exists x : nat -> Rops, (forall g, (g < n)%nat -> matvec (K := Rops) n (tangent p' W) x g = b g) /\
    forall y : nat -> Rops, (forall g, (g < n)%nat -> matvec (K := Rops) n (tangent p' W) y g = b g) -> forall g, (g < n)%nat -> y g = x g.
Proof.
  intros M p p' quad fu fT uo wo dt TP WF NC PH DT SP TR RO BC jvp kf RNG RJ. destruct (C83_triangles M p quad fu fT TP WF TR) as (SM & _ & TS & NS).
  destruct (C83_one_solution M p p' fu fT uo wo dt TP WF NC PH DT SP SM BC (NS RO) TS) as (NF & AFF & _).
  pose proof (sp_tp M p p' fu fT uo wo dt TP SP) as TP'. pose proof (sp_pa M p p' fu fT uo wo dt TP SP) as PA. pose proof (sp_wf M p p' fu fT uo wo dt TP SP WF) as WF'.
  assert (NC' : (0 < p_num_cells p')%nat) by (rewrite (sp_cells M p p' fu fT uo wo dt TP SP); exact NC).
  exact (free_regular p' [points fu; points fT] kf WF' NC' (tm_ivs_ok M p' fu fT uo wo dt TP' PA WF') (tm_kernels M p' fu fT uo wo dt TP' PA WF' NC' kf) (sp_bcs M p p' fu fT uo wo dt TP SP BC) AFF jvp RNG RJ NF).
Qed.
Print Assumptions C83_regular.

(** and solver() returns the solution (or the initial guess if that meets the tolerances). *)
Theorem C83_solver : forall (O : Type) ravel_obj obj_of_sol (B : backends O) jvp1 jvp2 M (p p' : problem Rops V) quad fu fT u_old w_old dt m2 kf,
  tm_problem M p fu fT -> wf_problem p -> (0 < p_num_cells p)%nat -> physical M -> 0 < dt ->
  tm_set_params p u_old w_old dt = Ok p' -> tm_triangles quad fu fT -> rollers fu -> bcs_ok p -> (forall f, In f (fes p') -> bc_in_range f) ->
  right_jvp jvp1 p' [points fu; points fT] kf ->
  maps_agree Fin (fe0 p') (maps p') m2 -> jvp_agree (K1 := Rops) (K2 := Xops) Fin jvp1 jvp2 -> regular_mesh p' [points fu; points fT] ->
  let pX := lift_problem Fin m2 p' in
  exists x, solves p' [points fu; points fT] x /\ (forall y, solves p' [points fu; points fT] y -> y = x) /\
  forall cb mk lk nk so m fuel (cfg : dict O) lin tol rtol (u0 : list Rops),
  resolve_solver_options mk lk nk so = Ok (m, cfg) -> m <> "arc_length"%string -> m <> "dynamic_relax"%string -> exact_linear B lin ->
  (lookup cfg "linear" = None /\ lin = [] \/ lookup cfg "linear" = Some (VDict lin)) ->
  option_value cfg "tol" (/ 10 ^ 6) tol -> 0 <= tol -> option_value cfg "rel_tol" (/ 10 ^ 8) rtol ->
  starts_from ravel_obj pX None cfg (lift1 Fin u0) -> List.length u0 = all_dofs (global_shapes p') ->
  solver ravel_obj obj_of_sol B jvp2 pX (lift3 Fin [points fu; points fT]) None cb mk lk nk (S fuel) so = Done (Ok (SolOnly (lift3 Fin x))) \/
  solver ravel_obj obj_of_sol B jvp2 pX (lift3 Fin [points fu; points fT]) None cb mk lk nk (S fuel) so = Done (Ok (SolOnly (lift3 Fin (unravel (sol_shapes p') u0)))) /\
    exists r x, newton_residual pX (lift3 Fin [points fu; points fT]) None (lift1 Fin u0) r /\ xnorm r = Fin x /\ (x <= tol \/ x <= rtol * x).
Proof.
  intros O ravel_obj obj_of_sol B jvp1 jvp2 M p p' quad fu fT uo wo dt m2 kf TP WF NC PH DT SP TR RO BC RNG RJ MA JA RM. destruct (C83_triangles M p quad fu fT TP WF TR) as (SM & _ & TS & NS).
  destruct (C83_one_solution M p p' fu fT uo wo dt TP WF NC PH DT SP SM BC (NS RO) TS) as (NF & AFF & _).
  pose proof (sp_tp M p p' fu fT uo wo dt TP SP) as TP'. pose proof (sp_pa M p p' fu fT uo wo dt TP SP) as PA. pose proof (sp_wf M p p' fu fT uo wo dt TP SP WF) as WF'.
  assert (NC' : (0 < p_num_cells p')%nat) by (rewrite (sp_cells M p p' fu fT uo wo dt TP SP); exact NC).
  exact (posed_solver O V ravel_obj obj_of_sol B jvp1 jvp2 p' m2 [points fu; points fT] kf WF' NC' (tm_ivs_ok M p' fu fT uo wo dt TP' PA WF') (tm_kernels M p' fu fT uo wo dt TP' PA WF' NC' kf) (sp_bcs M p p' fu fT uo wo dt TP SP BC) RNG AFF NF RJ MA JA RM).
Qed.
Print Assumptions C83_solver.

(** ** Runs of the time loop *)
(** For all lists of positive time steps the loop has a run in which every pass solves its problem, and only one. *)
Theorem C83_runs : forall M (p : problem Rops V) fu fT, tm_problem M p fu fT -> wf_problem p -> (0 < p_num_cells p)%nat -> physical M ->
  same_measure p fu fT -> bcs_ok p -> no_free_strain p fu -> temperature_seen p fT ->
  forall dts u w, (forall dt, In dt dts -> 0 < dt) ->
  (exists solve l, tm_loop solve dts 0 p u w = Ok l /\ all_solved fu fT l) /\
  forall solve1 solve2 l1 l2, tm_loop solve1 dts 0 p u w = Ok l1 -> tm_loop solve2 dts 0 p u w = Ok l2 -> all_solved fu fT l1 -> all_solved fu fT l2 -> l1 = l2.
Proof.
  intros M p fu fT TP WF NC PH SM BC NF TS dts u w POS. pose proof (conj TP (conj WF (conj NC SM)) : run_ok M fu fT p) as RO. split.
  - destruct (run_exists M fu fT PH dts POS 0 p u w RO BC NF TS) as (res & l & _ & E & AS). eauto.
  - intros s1 s2 l1 l2. exact (run_unique M fu fT PH dts POS s1 s2 0 0 p u w l1 l2 RO BC NF TS).
Qed.
Print Assumptions C83_runs.

(** If all prescribed temperatures are theta, a run of any length loses exactly the energy that conduction and the jumps of strain and temperature use, *)
Theorem C83_energy : forall M (p : problem Rops V) fu fT, tm_problem M p fu fT -> wf_problem p -> (0 < p_num_cells p)%nat -> physical M ->
  same_measure p fu fT -> constants_exact p fT ->
  forall theta solve dts u w l, (forall dt, In dt dts -> 0 < dt) -> (forall n b, (n < List.length (points fT))%nat -> prescribed fT n 0 = Some b -> b = theta) ->
  shaped (List.length (points fu)) (vec fu) u -> shaped (List.length (points fT)) 1 w -> meets fu u ->
  tm_loop solve dts 0 p u w = Ok l -> all_solved fu fT l ->
  List.length l = List.length dts /\
  free_energy M p fu fT theta (fst (final_state u w l)) (snd (final_state u w l)) + run_loss M p fu fT u w dts l = free_energy M p fu fT theta u w /\
  0 <= run_loss M p fu fT u w dts l.
Proof.
  intros M p fu fT TP WF NC PH SM CE theta solve dts u w l POS T1 Su Sw MU. exact (run_energy M fu fT PH theta solve dts POS T1 0 p u w l (conj TP (conj WF (conj NC SM))) CE (conj Su (conj Sw MU))).
Qed.
Print Assumptions C83_energy.

(** so the temperature stays bounded at every time of the run: for the example's plate, three-node triangles that start at rest with zero prescribed
    displacements and theta prescribed, by a number that depends on the material, theta and the volume only. *)
Theorem C83_bounded : forall M (p : problem Rops V) quad fu fT, physical M -> tm_problem M p fu fT -> wf_problem p -> (0 < p_num_cells p)%nat -> tm_triangles quad fu fT ->
  let N := List.length (points fu) in
  forall theta solve dts l, (forall dt, In dt dts -> 0 < dt) -> (forall n k b, (n < N)%nat -> (k < 2)%nat -> prescribed fu n k = Some b -> b = 0) ->
  (forall n b, (n < N)%nat -> prescribed fT n 0 = Some b -> b = theta) -> tm_run solve dts p N = Ok l -> all_solved fu fT l ->
  List.length l = List.length dts /\ forall k, let z2 := zeros2 (@zero Rops) N 2 in let z1 := zeros2 (@zero Rops) N 1 in
  C M / (2 * T0 M) * over_cells (K := Rops) p fu (points fu) (fun c q => (temperature fT (snd (final_state z2 z1 (firstn k l))) c q - theta) ^ 2)
    + run_loss M p fu fT z2 z1 (firstn k dts) (firstn k l)
  <= (C M / (2 * T0 M) + (kappa M) ^ 2 / (2 * (lmbda M + mu M))) * theta ^ 2 * volume p fu.
Proof. intros M p quad fu fT PH TP WF NC TR N. exact (plate_bounded M fu fT p quad PH TP WF NC TR). Qed.
Print Assumptions C83_bounded.

(** If no temperature is prescribed, the heat content stays. *)
Theorem C83_balance : forall M (p : problem Rops V) fu fT, tm_problem M p fu fT -> wf_problem p -> (0 < p_num_cells p)%nat ->
  same_measure p fu fT -> constants_exact p fT ->
  forall solve dts u w l, (forall dt, In dt dts -> 0 < dt) -> (forall n, (n < List.length (points fT))%nat -> prescribed fT n 0 = None) ->
  tm_loop solve dts 0 p u w = Ok l -> all_solved fu fT l ->
  forall p0 u0 w0, In (p0, (u0, w0)) l -> heat_content M p fu fT u0 w0 = heat_content M p fu fT u w.
Proof. intros M p fu fT TP WF NC SM CE solve dts u w l POS FR. exact (run_balance M fu fT solve dts POS FR 0 p u w l (conj TP (conj WF (conj NC SM))) CE). Qed.
Print Assumptions C83_balance.

(** The constants of the example are physical. *)
Theorem C83_material : physical aluminium /\ 0 < kappa aluminium.
Proof. exact aluminium_ok. Qed.
Print Assumptions C83_material.

(** The hypotheses are met: the unit square in two triangles, rollers on the left and the lower side, ten degrees at a corner.  A run of any number of
    steps exists. *)
Example C83_nonvacuous : exists fu fT (p : problem Rops V),
  tm_problem aluminium p fu fT /\ wf_problem p /\ (0 < p_num_cells p)%nat /\ tm_triangles rule3 fu fT /\ rollers fu /\ bcs_ok p /\ prescribed fT 0 0 = Some 10 /\
  (forall n k b, (n < 4)%nat -> (k < 2)%nat -> prescribed fu n k = Some b -> b = 0) /\ (forall n b, (n < 4)%nat -> prescribed fT n 0 = Some b -> b = 10) /\
  forall dts, (forall dt, In dt dts -> 0 < dt) -> exists solve l, tm_run solve dts p 4 = Ok l /\ all_solved fu fT l /\ List.length l = List.length dts.
Proof.
  set (fquad := ([], []) : list (list Rops) * list Rops). set (normals := fun _ _ : nat => @zero Rops). destruct (plate_built fquad normals) as (f0 & g0 & BU & BT).
  exists (plate_u f0), (plate_T g0), (plate_problem f0 g0 aluminium).
  pose proof (pl_problem fquad normals f0 g0 aluminium BU BT) as TP. pose proof (pl_wf fquad normals f0 g0 aluminium BU BT) as WF. pose proof (pl_cells fquad normals f0 g0 aluminium BU) as NC.
  pose proof (pl_triangles fquad normals f0 g0 BU BT) as TR. pose proof (pl_rollers fquad normals f0 BU) as RO. pose proof (pl_bcs f0 g0 aluminium) as BC.
  assert (L4 : List.length (points (plate_u f0)) = 4%nat) by (cbn; now rewrite (built_points _ _ _ _ _ _ _ _ _ _ _ BU)).
  pose proof (pl_held fquad normals f0 BU) as HU. pose proof (pl_heat fquad normals f0 g0 BU) as HT. rewrite L4 in HU, HT.
  repeat (split; [assumption|]). split; [reflexivity|]. split; [exact HU|]. split; [exact HT|]. intros dts POS. destruct (C83_triangles _ _ _ _ _ TP WF TR) as (SM & CE & TS & NS).
  destruct (C83_runs aluminium _ _ _ TP WF NC (proj1 aluminium_ok) SM BC (NS RO) TS dts (zeros2 (@zero Rops) 4 2) (zeros2 (@zero Rops) 4 1) POS) as ((solve & l & E & AS) & _). exists solve, l.
  split; [exact E|]. split; [exact AS|]. refine (proj1 (C83_bounded aluminium _ _ _ _ (proj1 aluminium_ok) TP WF NC TR 10 solve dts l POS _ _ _ AS)); rewrite L4; auto.
Qed.
Print Assumptions C83_nonvacuous.
