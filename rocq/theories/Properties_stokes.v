(** C82: Stokes flow. *)
From Coq Require Import String Reals List Arith Lia Lra Bool.
From Verif Require Import Num Arr ArrFacts Fe Problem SpecAssembly Basis SpecBasis SpecFe FeFacts GeomFacts SolverBc SpecBc SpecWeak SpecEnergy Wave Stokes SpecStokes XNum Options LinSolve Newton SpecNewton ArcLength DynRelax Solver
  SpecLift SpecLinear SpecPosed PosedFacts Init StokesFacts StokesMain StokesBc StokesEnd PosedMain.
From Verif Require Import PyDict.
Import ListNotations.

(** C82. The residuals of the velocity u and the pressure w, paired with any test fields v and z, are the integrals of
    grad u : grad v + w div v and of z div u; over every commutative ring. *)
Theorem C82_weak_form : forall (K : ops) (V : Type), ring_laws K -> forall sqrtK (p : problem K V) fu fp Pu Pp, stokes_problem p fu fp -> wf_problem p -> 0 < p_num_cells p ->
  forall u w v z, sol_ok p [u; w] -> sol_ok p [v; z] -> exists r0 r1, compute_residual sqrtK p [Pu; Pp] [u; w] = Ok [r0; r1] /\
    work (List.length (points fu)) 2 v r0 = momentum p fu fp Pu u w v /\ work (List.length (points fp)) 1 z r1 = continuity p fu fp Pu Pp u z.
Proof. intros K V KR sqrtK p fu fp Pu Pp ST WF NC. exact (stokes_weak KR p fu fp ST sqrtK Pu Pp WF NC). Qed.
Print Assumptions C82_weak_form.

Local Open Scope R_scope.
(** u and w solve the problem if and only if they have the prescribed values and satisfy both equations for all test fields that are zero where
    values are prescribed. *)
Theorem C82_solves : forall (V : Type) (Pu Pp : list (list Rops)) fu fp (p : problem Rops V), stokes_problem p fu fp -> wf_problem p -> (0 < p_num_cells p)%nat ->
  forall u w, solves p [Pu; Pp] [u; w] <->
    sol_ok p [u; w] /\
    (forall n k b, (n < List.length (points fu))%nat -> (k < 2)%nat -> prescribed fu n k = Some b -> get2 (@zero Rops) u n k = b) /\
    (forall n b, (n < List.length (points fp))%nat -> prescribed fp n 0 = Some b -> get2 (@zero Rops) w n 0 = b) /\
    (forall v, shaped (List.length (points fu)) 2 v -> held_zero fu v -> momentum (K := Rops) p fu fp Pu u w v = 0) /\
    (forall z, shaped (List.length (points fp)) 1 z -> held_zero fp z -> continuity (K := Rops) p fu fp Pu Pp u z = 0).
Proof. intros V Pu Pp fu fp p ST WF NC. exact (stokes_solves Pu Pp fu fp p ST WF NC). Qed.
Print Assumptions C82_solves.

(** With quadratic velocities and linear pressures on the same triangles and a rule exact for degree two, the form is symmetric, *)
Theorem C82_symmetric : forall (V : Type) (Pu Pp : list (list Rops)) fu fp (p : problem Rops V), stokes_problem p fu fp -> wf_problem p ->
  forall quad u w v z, taylor_hood quad Pu Pp fu fp ->
  momentum (K := Rops) p fu fp Pu u w v + continuity (K := Rops) p fu fp Pu Pp u z = momentum (K := Rops) p fu fp Pu v z u + continuity (K := Rops) p fu fp Pu Pp v w.
Proof. intros V Pu Pp fu fp p ST WF. exact (stokes_symmetric Pu Pp fu fp p ST WF). Qed.
Print Assumptions C82_symmetric.

(** and the problem has exactly one solution, for all prescribed values, if chains of triangles lead from each node to one where the velocity is
    prescribed and chains of edges with free midpoints lead from each corner to one where the pressure is prescribed. *)
Theorem C82_taylor_hood : forall (V : Type) quad (Pu Pp : list (list Rops)) fu fp (p : problem Rops V), stokes_problem p fu fp -> wf_problem p -> (0 < p_num_cells p)%nat ->
  taylor_hood quad Pu Pp fu fp -> bcs_ok p -> anchored fu -> pressure_anchored fu fp ->
  no_free_change p [Pu; Pp] /\ affine_residual p [Pu; Pp] /\ one_solution p [Pu; Pp].
Proof. intros V quad Pu Pp fu fp p ST WF NC TH. exact (stokes_one quad Pu Pp fu fp p ST WF NC TH). Qed.
Print Assumptions C82_taylor_hood.

(** Then the linear system of every Newton step has exactly one solution for every right-hand side, *)
Theorem C82_regular : forall (V : Type) quad (Pu Pp : list (list Rops)) fu fp (p : problem Rops V), stokes_problem p fu fp -> wf_problem p -> (0 < p_num_cells p)%nat ->
  taylor_hood quad Pu Pp fu fp -> bcs_ok p -> anchored fu -> pressure_anchored fu fp ->
  forall jvp kf, (forall f, In f (fes p) -> bc_in_range f) -> right_jvp jvp p [Pu; Pp] kf ->
  forall sol r0 W, sol_ok p sol -> newton_update jvp sqrt p [Pu; Pp] sol = Ok (r0, W) -> let n := all_dofs (global_shapes p) in
  forall b : nat -> Rops, exists x : nat -> Rops, (forall g, (g < n)%nat -> matvec (K := Rops) n (tangent p W) x g = b g) /\
    forall y : nat -> Rops, (forall g, (g < n)%nat -> matvec (K := Rops) n (tangent p W) y g = b g) -> forall g, (g < n)%nat -> y g = x g.
Proof.
  intros V quad Pu Pp fu fp p ST WF NC TH BC AN PA jvp kf RNG RJ. destruct (stokes_one quad Pu Pp fu fp p ST WF NC TH BC AN PA) as (NF & AFF & _).
  exact (free_regular p [Pu; Pp] kf WF NC (stokes_ivs_ok fu fp p ST) (stokes_kernels fu fp p ST NC kf) BC AFF jvp RNG RJ NF).
Qed.
Print Assumptions C82_regular.

(** and solver() returns the solution (or the initial guess if that meets the tolerances). *)
Theorem C82_solver : forall (O V : Type) ravel_obj obj_of_sol (B : backends O) jvp1 jvp2 quad (Pu Pp : list (list Rops)) fu fp (p : problem Rops V) m2 kf,
  stokes_problem p fu fp -> wf_problem p -> (0 < p_num_cells p)%nat -> taylor_hood quad Pu Pp fu fp -> bcs_ok p -> (forall f, In f (fes p) -> bc_in_range f) ->
  anchored fu -> pressure_anchored fu fp -> right_jvp jvp1 p [Pu; Pp] kf ->
  maps_agree Fin (fe0 p) (maps p) m2 -> jvp_agree (K1 := Rops) (K2 := Xops) Fin jvp1 jvp2 -> regular_mesh p [Pu; Pp] ->
  let pX := lift_problem Fin m2 p in
  exists x, solves p [Pu; Pp] x /\ (forall y, solves p [Pu; Pp] y -> y = x) /\
  forall cb mk lk nk so m fuel (cfg : dict O) lin tol rtol (u0 : list Rops),
  resolve_solver_options mk lk nk so = Ok (m, cfg) -> m <> "arc_length"%string -> m <> "dynamic_relax"%string -> exact_linear B lin ->
  (lookup cfg "linear" = None /\ lin = [] \/ lookup cfg "linear" = Some (VDict lin)) ->
  option_value cfg "tol" (/ 10 ^ 6) tol -> 0 <= tol -> option_value cfg "rel_tol" (/ 10 ^ 8) rtol ->
  starts_from ravel_obj pX None cfg (lift1 Fin u0) -> List.length u0 = all_dofs (global_shapes p) ->
  solver ravel_obj obj_of_sol B jvp2 pX (lift3 Fin [Pu; Pp]) None cb mk lk nk (S fuel) so = Done (Ok (SolOnly (lift3 Fin x))) \/
  solver ravel_obj obj_of_sol B jvp2 pX (lift3 Fin [Pu; Pp]) None cb mk lk nk (S fuel) so = Done (Ok (SolOnly (lift3 Fin (unravel (sol_shapes p) u0)))) /\
    exists r x, newton_residual pX (lift3 Fin [Pu; Pp]) None (lift1 Fin u0) r /\ xnorm r = Fin x /\ (x <= tol \/ x <= rtol * x).
Proof.
  intros O V ravel_obj obj_of_sol B jvp1 jvp2 quad Pu Pp fu fp p m2 kf ST WF NC TH BC RNG AN PA RJ MA JA RM.
  destruct (stokes_one quad Pu Pp fu fp p ST WF NC TH BC AN PA) as (NF & AFF & _).
  exact (posed_solver O V ravel_obj obj_of_sol B jvp1 jvp2 p m2 [Pu; Pp] kf WF NC (stokes_ivs_ok fu fp p ST) (stokes_kernels fu fp p ST NC kf) BC RNG AFF NF RJ MA JA RM).
Qed.
Print Assumptions C82_solver.

(** configure_Dirichlet_BC_for_dolphin prescribes zero velocity exactly at the nodes of the boundary edges that lie strictly between the left and
    the right side, and keeps everything else, whatever order Python gives the set; *)
Theorem C82_contour : forall to_set (f : fe Rops), set_order to_set -> mesh_ok f -> num_nodes f = 6%nat ->
  (forall cell a c, alone (cells f) cell a c -> (3 <= a)%nat) -> (exists cell a c, alone (cells f) cell a c) ->
  List.length (vec_inds_list f) = List.length (node_inds_list f) -> List.length (vals_list f) = List.length (node_inds_list f) ->
  exists f', configure_fe to_set f = Ok f' /\ f' = set_bc f (node_inds_list f') (vec_inds_list f') (vals_list f') /\
    (forall n k, on_boundary (cells f) n -> / 100000 < nth 0 (nth n (points f) []) 0 < 1 - / 100000 -> (k < 2)%nat -> prescribed f' n k = Some 0) /\
    (forall n k, ~ (on_boundary (cells f) n /\ / 100000 < nth 0 (nth n (points f) []) 0 < 1 - / 100000 /\ (k < 2)%nat) -> prescribed f' n k = prescribed f n k) /\
    (bc_ok f -> bc_ok f') /\ ((2 <= vec f)%nat -> bc_in_range f -> bc_in_range f').
Proof. intros to_set f ORD MESH N6. exact (contour_ok to_set f ORD MESH N6). Qed.
Print Assumptions C82_contour.

(** but a mesh with a corner that belongs to one triangle only makes it raise, and so does a mesh where every node occurs twice. *)
Theorem C82_contour_raises : forall to_set (f : fe Rops), set_order to_set -> mesh_ok f -> num_nodes f = 6%nat ->
  ((exists cell a c, alone (cells f) cell a c /\ (a < 3)%nat) -> configure_fe to_set f = Err AssertionErr) /\
  ((forall cell a c, ~ alone (cells f) cell a c) -> configure_fe to_set f = Err TypeErr).
Proof.
  intros to_set f ORD MESH N6. split; [intros (cell & a & c & AL & Ha); exact (contour_corner to_set f MESH N6 cell a c AL Ha)|exact (contour_none to_set f ORD MESH N6)].
Qed.
Print Assumptions C82_contour_raises.

(** The method changes the first variable only. *)
Theorem C82_contour_problem : forall V to_set (p : problem Rops V) f rest, fes p = f :: rest ->
  configure_Dirichlet_BC_for_dolphin to_set p =
  match configure_fe to_set f with
  | Ok f' => Ok (mkProblem (f' :: rest) (boundary_inds_list p) (maps p) (internal_vars p) (internal_vars_surfaces p))
  | Err e => Err e
  end.
Proof. intros V to_set p f rest E. unfold configure_Dirichlet_BC_for_dolphin. rewrite E. now destruct (configure_fe to_set f). Qed.
Print Assumptions C82_contour_problem.

(** The hypotheses are met: the unit square in two triangles with the three-point rule, velocity and pressure held at one corner. *)
Example C82_nonvacuous : forall V, exists fu fp (p : problem Rops V),
  stokes_problem p fu fp /\ wf_problem p /\ (0 < p_num_cells p)%nat /\ taylor_hood rule3 square_u square_p fu fp /\ bcs_ok p /\ anchored fu /\ pressure_anchored fu fp /\
  prescribed fp 0 0 = Some 1 /\ one_solution p [square_u; square_p].
Proof.
  intros V. set (fquad := ([], []) : list (list Rops) * list Rops). set (normals := fun _ _ : nat => @zero Rops). destruct (square_built fquad normals) as (f0 & g0 & BU & BP). do 2 eexists. exists (square_problem (V := V) f0 g0).
  pose proof (sq_stokes (V := V) fquad normals f0 g0 BU BP) as ST. pose proof (sq_wf (V := V) fquad normals f0 g0 BU BP) as WF. pose proof (sq_hood fquad normals f0 g0 BU BP) as TH.
  pose proof (sq_bcs (V := V) f0 g0) as BC. pose proof (sq_anchored fquad normals f0 BU) as AN. pose proof (sq_pressure fquad normals f0 g0 BU BP) as PA.
  assert (NC : (0 < p_num_cells (square_problem (V := V) f0 g0))%nat) by (unfold p_num_cells, fe0; cbn; unfold num_cells; cbn; rewrite (built_cells _ _ _ _ _ _ _ _ _ _ _ BU); cbn; lia).
  split; [exact ST|]. split; [exact WF|]. split; [exact NC|]. split; [exact TH|]. split; [exact BC|]. split; [exact AN|]. split; [exact PA|]. split; [reflexivity|].
  exact (proj2 (proj2 (C82_taylor_hood V rule3 _ _ _ _ _ ST WF NC TH BC AN PA))).
Qed.
Print Assumptions C82_nonvacuous.
(** The contour of the square in four triangles with nothing prescribed before: the midpoints of the lower and the upper side get zero velocity,
    all others none.  The square in two triangles raises. *)
Example C82_contour_nonvacuous : forall fquad normals, set_order (nodup Nat.eq_dec) /\
  exists f f', fe_init (K := Rops) sqrt "TRI6" rule3 fquad normals fan_points fan_cells 2 2 None = Ok f /\ configure_fe (nodup Nat.eq_dec) f = Ok f' /\
    (forall n k, (k < 2)%nat -> (n < 13)%nat -> prescribed f' n k = if ((n =? 5) || (n =? 7))%nat then Some 0 else None) /\
    alone square_cu [0; 1; 2; 4; 5; 6]%nat 1 1.
Proof.
  intros fquad normals. split; [exact nodup_order|]. destruct (fan_built fquad normals) as (f & E & MO & N6). exists f.
  pose proof (built_cells _ _ _ _ _ _ _ _ _ _ _ E) as EC. pose proof (built_points _ _ _ _ _ _ _ _ _ _ _ E) as EP.
  assert (L : node_inds_list f = [] /\ vec_inds_list f = [] /\ vals_list f = []).
  { destruct (built_inv _ _ _ _ _ _ _ _ _ _ _ E) as (info & fi & bc & _ & _ & D & ->). cbn in D. injection D as <-. repeat split. }
  destruct L as (L1 & L2 & L3).
  destruct (C82_contour (nodup Nat.eq_dec) f nodup_order MO N6) as (f' & E' & _ & P0 & P1 & _).
  - rewrite EC. intros cell a c AL. apply fan_alone in AL as (i & _ & _ & -> & _). lia.
  - rewrite EC. exists (nth 0 fan_cells []), 3%nat, 5%nat. apply fan_alone. exists 0%nat. repeat split; lia.
  - now rewrite L1, L2.
  - now rewrite L1, L3.
  - exists f'. split; [exact E|]. split; [exact E'|]. rewrite EC, EP in P0, P1. split.
    + assert (PN : forall n k, prescribed f n k = None) by (intros; unfold prescribed, bc_entries; now rewrite L1).
      intros n k Hk Hn. destruct (((n =? 5) || (n =? 7))%nat) eqn:B.
      * apply orb_true_iff in B as [B|B]; apply Nat.eqb_eq in B as ->; apply P0; auto; try (apply fan_boundary; lia); cbn; lra.
      * apply orb_false_iff in B as (B1 & B2). apply Nat.eqb_neq in B1, B2. rewrite P1; [apply PN|]. intros (OB & (X1 & X2) & _). apply fan_boundary in OB.
        do 9 (destruct n as [|n]; [first [lia|cbn in X1, X2; lra]|]). lia.
    + repeat split; [cbn; tauto|cbn; lia].
Qed.
Print Assumptions C82_contour_nonvacuous.
