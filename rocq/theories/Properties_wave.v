(** C78: the implicit scheme for the wave equation and the orientation of its triangles. *)
From Coq Require Import String Reals List Arith Lia Lra Bool Permutation.
From Verif Require Import Num Arr Fe Problem SpecAssembly Basis SpecBc SpecEnergy SpecWeak Mesh MeshMain Wave SpecWave WaveFacts WaveMain WaveSolve.
Import ListNotations.
Local Open Scope R_scope.

(** C78. After set_params w u, for every number system: the residual of x against any test field v is the integral of
    c^2 dt^2 grad x : grad v + (x - 2 u + w) . v, and set_params and the residual raise nothing. *)
Theorem C78_weak_form : forall (K : ops) (sqrtK : K -> K) (c dt : K) (p : problem K (nat -> K)) f P w u, ring_laws K -> wave_problem c dt p f -> wf_problem p -> (0 < p_num_cells p)%nat ->
  exists p', set_params p w u = Ok p' /\ forall x, sol_ok p [x] -> exists res, compute_residual sqrtK p' [P] [x] = Ok [res] /\ sol_ok p [res] /\
    forall v, sol_ok p [v] ->
      work (List.length (points f)) (vec f) v res =
      over_cells p f P (fun e q =>
        (c * c * (dt * dt) * dot2 (vec f) (dim f) (sol_to_grad P f x e q) (sol_to_grad P f v e q)
         + dot1 (vec f) (fun k => convert_from_dof_to_quad f x e q k - (1 + 1) * convert_from_dof_to_quad f u e q k + convert_from_dof_to_quad f w e q k)
                        (convert_from_dof_to_quad f v e q))%num).
Proof.
  intros K sqrtK c dt p f P w u KR WP WF NC. exists (stepped c dt f w u). split; [exact (set_params_ok c dt p f WP w u)|]. intros x SX.
  destruct (stepped_runs KR sqrtK c dt p f P WP WF NC w u x SX) as (res & E & SR). exists res. split; [exact E|]. split; [exact SR|].
  intros v SV. exact (wave_work KR sqrtK c dt p f P WP WF NC w u x v res SX SV E).
Qed.
Print Assumptions C78_weak_form.

(** Whatever the solver does: pass j is handed the problem with the parameters of the two states before, its answer is the next state, and
    the first two states are zero. *)
Theorem C78_run : forall (K : ops) (c dt : K) (p : problem K (nat -> K)) f solve steps num_points h, wave_problem c dt p f ->
  wave_run solve steps p num_points = Ok h ->
  List.length h = steps /\
  forall j, (j < steps)%nat ->
    let z := zeros2 (@zero K) num_points 1 in let states := z :: z :: map snd h in
    set_params p (nth j states []) (nth (1 + j) states []) = Ok (fst (nth j h (p, []))) /\
    solve j (fst (nth j h (p, []))) = Ok (nth (2 + j) states []).
Proof.
  intros K c dt p f solve steps n h WP E. destruct (loop_ok c dt f solve steps 0 p _ _ h WP E) as (L & G). split; [exact L|]. intros j Hj z states.
  destruct (G j Hj) as (A & B). split; [|exact B]. rewrite (set_params_ok c dt p f WP). f_equal. symmetry. exact A.
Qed.
Print Assumptions C78_run.

(** Energy: kinetic plus potential energy decrease in every pass by exactly the loss of the implicit step, a sum of squares; so no
    state has more energy than the first computed one, for every c and dt (unconditional stability). *)
Theorem C78_energy : forall sqrtK (c dt : R) (p : problem Rops (nat -> Rops)) f P solve steps h,
  wave_problem (K := Rops) c dt p f -> wf_problem p -> (0 < p_num_cells p)%nat -> vec f = 1%nat ->
  (forall e q, (e < p_num_cells p)%nat -> (q < num_quads f)%nat -> 0 <= get_JxW P f e q) ->
  wave_run (K := Rops) solve steps p (List.length (points f)) = Ok h ->
  (forall q x, In (q, x) h -> solved sqrtK q f P x) ->
  let z := zeros2 (@zero Rops) (List.length (points f)) 1 in
  let states := z :: z :: map snd h in
  (forall j, (S j < steps)%nat ->
     wave_energy c dt p f P (nth (3 + j) states []) (nth (2 + j) states []) +
     wave_loss c dt p f P (nth (3 + j) states []) (nth (2 + j) states []) (nth (1 + j) states [])
     = wave_energy c dt p f P (nth (2 + j) states []) (nth (1 + j) states [])) /\
  (forall j, (j < steps)%nat ->
     0 <= wave_energy c dt p f P (nth (2 + j) states []) (nth (1 + j) states []) <= wave_energy c dt p f P (nth 2 states []) (nth 1 states [])).
Proof.
  intros sqrtK c dt p f P solve steps h WP WF NC V1 JW E H z states. destruct (run_energy sqrtK c dt p f P WP WF NC JW solve steps h V1 E H) as (A & B). split; [exact A|].
  intros j Hj. split; [apply (energy_nonneg c dt p f P JW)|exact (B j Hj)].
Qed.
Print Assumptions C78_energy.

(** The linear system of a pass has exactly one solution, if the quadrature sees the free fields. *)
Theorem C78_one_solution : forall sqrtK (c dt : R) (p p' : problem Rops (nat -> Rops)) f P w u,
  wave_problem (K := Rops) c dt p f -> wf_problem p -> (0 < p_num_cells p)%nat ->
  (forall e q, (e < p_num_cells p)%nat -> (q < num_quads f)%nat -> 0 < get_JxW P f e q) -> seen p f P -> c * dt <> 0 ->
  set_params p w u = Ok p' ->
  exists x, solved sqrtK p' f P x /\ forall y, solved sqrtK p' f P y ->
    forall n k, (n < List.length (points f))%nat -> (k < vec f)%nat -> get2 (@zero Rops) y n k = get2 (@zero Rops) x n k.
Proof.
  intros sqrtK c dt p p' f P w u WP WF NC JP SE CD E. rewrite (set_params_ok (K := Rops) c dt p f WP) in E. injection E as <-.
  destruct (step_exists sqrtK c dt p f P WP WF NC JP SE w u CD) as (x & SX). exists x. split; [exact SX|].
  intros y SY n k Hn Hk. exact (nodal_unique sqrtK c dt p f P WP WF NC JP SE w u y x CD SY SX n k Hn Hk).
Qed.
Print Assumptions C78_one_solution.

(** So a run of any length exists. *)
Theorem C78_run_exists : forall sqrtK (c dt : R) (p : problem Rops (nat -> Rops)) f P steps,
  wave_problem (K := Rops) c dt p f -> wf_problem p -> (0 < p_num_cells p)%nat ->
  (forall e q, (e < p_num_cells p)%nat -> (q < num_quads f)%nat -> 0 < get_JxW P f e q) -> seen p f P -> c * dt <> 0 ->
  exists solve h, wave_run (K := Rops) solve steps p (List.length (points f)) = Ok h /\ forall q x, In (q, x) h -> solved sqrtK q f P x.
Proof.
  intros sqrtK c dt p f P steps WP WF NC JP SE CD.
  destruct (loop_exists sqrtK c dt f P steps CD 0 p (zeros2 (@zero Rops) (List.length (points f)) 1) (zeros2 (@zero Rops) (List.length (points f)) 1) WP WF NC JP SE) as (solve & h & _ & E & H).
  exists solve, h. split; [exact E|exact H].
Qed.
Print Assumptions C78_run_exists.

(** transform_cells on a mesh of three or six node triangles: it exits exactly if a triangle has no area; otherwise every triangle comes
    out with the same nodes, turning left, the same area, unchanged if it turned left before, and the nodes between corners still between
    the same corners. *)
Theorem C78_orientation : forall points s n cells,
  (s = "TRI3"%string /\ n = 3%nat) \/ (s = "TRI6"%string /\ n = 6%nat) -> triangle_mesh n points cells -> cells <> [] ->
  (transform_cells cells points s = Exit <-> exists cell, In cell cells /\ signed_area2 points cell = 0) /\
  (transform_cells cells points s = Exit \/ exists new, transform_cells cells points s = Done new) /\
  (forall new, transform_cells cells points s = Done new ->
     List.length new = List.length cells /\
     forall i, (i < List.length cells)%nat ->
       signed_area2 points (nth i new []) = Rabs (signed_area2 points (nth i cells [])) /\ 0 < signed_area2 points (nth i new []) /\
       Permutation (nth i new []) (nth i cells []) /\
       (0 < signed_area2 points (nth i cells []) -> nth i new [] = nth i cells []) /\
       (n = 6%nat -> forall a b m, between (nth i new []) a b m <-> between (nth i cells []) a b m)).
Proof. intros points s n cells KIND (A & B) NE. exact (transform_spec points s n KIND B cells NE A). Qed.
Print Assumptions C78_orientation.

(** Every rectangle mesh with any selection of held nodes meets the hypotheses. *)
Theorem C78_nonvacuous : forall Nx Ny Lx Ly (c dt : R) (value : Rops) (g : list Rops -> bool) sqrtK fquad normals,
  (0 < Nx)%nat -> (0 < Ny)%nat -> 0 < Lx -> 0 < Ly ->
  let M := rectangle_mesh Nx Ny Lx Ly in
  exists f, fe_init (K := Rops) sqrtK "QUAD4" quad4_rule fquad normals (m_points M) (m_cells M) 1 2 (Some ([Loc1 g], [0%nat], [fun _ : list Rops => value])) = Ok f /\
    let p : problem Rops (nat -> Rops) := mkProblem [f] [] (wave_maps (K := Rops) c dt [f]) [] [] in
    wave_problem (K := Rops) c dt p f /\ wf_problem p /\ (0 < p_num_cells p)%nat /\ vec f = 1%nat /\
    (forall e q, (e < p_num_cells p)%nat -> (q < num_quads f)%nat -> 0 < get_JxW (m_points M) f e q) /\ seen p f (m_points M) /\
    forall n, (n < List.length (points f))%nat -> prescribed f n 0 = if g (nth n (m_points M) []) then Some value else None.
Proof.
  intros Nx Ny Lx Ly c dt value g sqrtK fquad normals HX HY LX LY M.
  destruct (fe_init (K := Rops) sqrtK "QUAD4" quad4_rule fquad normals (m_points M) (m_cells M) 1 2 (Some ([Loc1 g], [0%nat], [fun _ : list Rops => value]))) as [f|e] eqn:B; [|discriminate].
  exists f. split; [reflexivity|]. intros p. split; [repeat split|]. split; [exact (rect_wf Nx Ny Lx Ly c dt value g sqrtK fquad normals HX HY f B)|].
  split; [unfold p; change (p_num_cells _) with (num_cells f); rewrite (MeshFe.rect_num_cells Nx Ny Lx Ly HX HY _ _ _ _ _ _ f B); nia|].
  split; [exact (GeomFacts.built_vec _ _ _ _ _ _ _ _ _ _ _ B)|].
  split; [intros e q; exact (rect_positive Nx Ny Lx Ly c dt value g sqrtK fquad normals HX HY LX LY f B e q)|].
  split; [exact (rect_seen Nx Ny Lx Ly c dt value g sqrtK fquad normals HX HY f B)|].
  intros n Hn. rewrite (GeomFacts.built_points _ _ _ _ _ _ _ _ _ _ _ B) in Hn. exact (rect_prescribed Nx Ny Lx Ly value g sqrtK fquad normals HX HY f B n 0 Hn ltac:(lia)).
Qed.
Print Assumptions C78_nonvacuous.

(** Two triangles of the unit square, the first turning right: it is flipped, the second kept. *)
Example C78_square : transform_cells [[0; 2; 1]; [0; 2; 3]]%nat [[0; 0]; [1; 0]; [1; 1]; [0; 1]] "TRI3" = Done [[0; 1; 2]; [0; 2; 3]]%nat.
Proof.
  unfold transform_cells, transform_loop, transform_cell, corner, orientation. cbn [nth_error fst snd].
  repeat match goal with |- context [Rlt_dec ?a ?b] => destruct (Rlt_dec a b); [try lra|try lra] end. reflexivity.
Qed.
(** with a triangle of no area it exits *)
Example C78_flat : transform_cells [[0; 1; 2]]%nat [[0; 0]; [1; 0]; [2; 0]] "TRI3" = Exit.
Proof.
  unfold transform_cells, transform_loop, transform_cell, corner, orientation. cbn [nth_error fst snd].
  repeat match goal with |- context [Rlt_dec ?a ?b] => destruct (Rlt_dec a b); [try lra|try lra] end. reflexivity.
Qed.
