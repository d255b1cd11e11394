(** C101: the laser example of applications/thermal_mechanical: heat, phases, thermal stresses. *)
From Coq Require Import String Reals List Arith Lia Lra Bool.
From Verif Require Import Num Arr Fe Problem SpecAssembly SolverBc SpecFe SpecSelect SpecWeak SpecEnergy Init SpecInit Basis SpecBasis GeomFacts Mesh Elastic Plasticity SpecPlasticity PlasticityFacts
  Laser SpecLaser LaserFacts LaserMain LaserHeat MeshFe LaserBox LaserEnd LaserRef.
Import ListNotations.
Local Open Scope R_scope.

(** The stress update: from the stress so and strain eo of the last load step, the displacement gradient G, the temperature change dT and the phase, the new stress is the
    elastic guess brought back to what the material carries, the only stress that is. *)
Theorem C101_stress : forall d G so eo dT ph, (0 < d)%nat ->
  let g := elastic_guess d (strain G) so eo dT ph in let s := laser_return d G so eo dT ph in
  returned d g s /\ (forall s', returned d g s' -> forall i j, (i < d)%nat -> (j < d)%nat -> s' i j = s i j) /\
  carried d s /\ (carried d g -> forall i j, (i < d)%nat -> (j < d)%nat -> s i j = g i j) /\ (symmetric d so -> symmetric d eo -> symmetric d s).
Proof.
  intros d G so eo dT ph D g s. pose proof (returned_return d G so eo dT ph D) as R. split; [exact R|]. split; [intros s' R'; exact (returned_unique d g s' s R' R)|].
  split; [exact (returned_carried d g s R)|]. split; [exact (returned_elastic d g s R)|exact (lreturn_symmetric d D G so eo dT ph)].
Qed.
Print Assumptions C101_stress.
(** Nothing moves while the temperature changes by dT: the stress changes by a pressure E alpha dT / (1 - 2 nu) only (in three dimensions), whatever dT. *)
Theorem C101_clamped : forall G so eo dT ph, (forall i j, (i < 3)%nat -> (j < 3)%nat -> strain G i j = eo i j) -> carried 3 so ->
  forall i j, (i < 3)%nat -> (j < 3)%nat -> laser_return 3 G so eo dT ph i j = so i j - (if (i =? j)%nat then young ph * expansion ph * dT / (1 - 2 * (3 / 10)) else 0).
Proof.
  intros G so eo dT ph S C i j Hi Hj. pose proof (clamped_carried 3 ltac:(lia) G so eo dT ph S C) as CT. rewrite (lreturn_elastic 3 ltac:(lia) G so eo dT ph CT i j Hi Hj).
  rewrite (clamped 3 G so eo dT ph S i j Hi Hj). unfold tcomb, teye. replace (INR 3) with 3 by (cbn; lra). destruct (i =? j)%nat; ElasticFacts.req; field.
Qed.
Print Assumptions C101_clamped.

(** The run of n passes: the beam in pass i is at 0.125 mm + 0.5 m/s * t and is on for t < 0.5 ms, t = 2 (i + 1) us; the temperature is solved for with the one before as
    old one; nine of ten passes leave displacement, stress, strain and phase alone; stresses are always ones the material carries. *)
Theorem C101_run : forall solve_T solve_u problem_T problem_u fu P, (0 < dim fu)%nat -> tensor_map (maps problem_u) = Some (laser_stress (dim fu)) ->
  ((exists f b0 b1, fes problem_T = [f] /\ boundary_inds_list problem_T = [b0; b1]) -> (forall p, exists T, solve_T p = Ok T) -> (forall p g, exists u, solve_u p g = Ok u) ->
   forall n, exists h, laser_run solve_T solve_u problem_T problem_u fu P n = Ok h) /\
  forall n h, laser_run solve_T solve_u problem_T problem_u fu P n = Ok h -> length h = n /\
  forall i, (i < n)%nat -> let s := state fu h i in let s' := state fu h (i + 1) in
    (exists pT center, heat_params problem_T (l_T s) center (if (i + 1 <? 250)%nat then 1 else 0) = Ok pT /\ solve_T pT = Ok (l_T s') /\
       center 0%nat = 125 / 10 ^ 6 + 5 / 10 * (2 * INR (i + 1) / 10 ^ 6) /\ center 1%nat = 1 / 10 ^ 4) /\
    (((i + 1) mod 10)%nat <> 0%nat -> l_vars s' = l_vars s /\ l_u s' = l_u s) /\
    forall c q, (c < num_cells fu)%nat -> exists t e, has_stress s' c q t /\ has_strain s' c q e /\ carried (dim fu) t /\ symmetric (dim fu) t /\ symmetric (dim fu) e.
Proof.
  intros solve_T solve_u problem_T problem_u fu P D MU. split.
  - intros (f & b0 & b1 & EF & EB) HT HU n. apply (loop_runs solve_T solve_u problem_T problem_u fu P D MU n); auto; [exists f, b0, b1, []; auto|exact (start_ok fu D)].
  - intros n h RUN. split; [exact (h_len solve_T solve_u problem_T problem_u fu P D n h RUN)|]. intros i Hi s s'.
    assert (ES : s' = nth i h no_state) by (unfold s', state; rewrite Nat.add_1_r; reflexivity). rewrite ES.
    destruct (pass_spec solve_T solve_u problem_T problem_u fu P D MU i s (nth i h no_state) (h_ok solve_T solve_u problem_T problem_u fu P D MU n h RUN i ltac:(lia)) (h_pass solve_T solve_u problem_T problem_u fu P D n h RUN i Hi))
      as ((ss & es & ds & ps & _ & _ & _ & _ & _ & V) & (pT & E1 & E2) & SK & _).
    split; [exists pT, (beam_center i); rewrite beam_switch_eq in E1; split; [exact E1|]; split; [exact E2|exact (beam_center_eq i)]|]. split; [intros NZ; destruct (SK NZ) as (_ & H); exact H|].
    intros c q Hc. destruct (V c q Hc) as (t & e & v & ph & H1 & H2 & _ & _ & H5 & H6 & H7). exists t, e. auto.
Qed.
Print Assumptions C101_run.

(** Every tenth pass: the displacement is solved for with the stored stress and strain; the new ones are those of C101_stress with the change of temperature over the ten passes,
    and this stress is the one in the residual of the problem solved. *)
Theorem C101_mechanics : forall solve_T solve_u problem_T problem_u fu P n h, (0 < dim fu)%nat -> tensor_map (maps problem_u) = Some (laser_stress (dim fu)) -> mesh_ok fu ->
  (forall p T, solve_T p = Ok T -> shaped (length (points fu)) 1 T) -> laser_run solve_T solve_u problem_T problem_u fu P n = Ok h ->
  forall m, (10 * (m + 1) <= n)%nat -> let s := state fu h (10 * m) in let s' := state fu h (10 * (m + 1)) in
  exists params, solve_u (with_vars problem_u params) (l_u s) = Ok (l_u s') /\
  forall c q, (c < num_cells fu)%nat -> let e := strain (sol_to_grad P fu (l_u s') c q) in
    exists so eo s1 ph, has_stress s c q so /\ has_strain s c q eo /\ has_stress s' c q s1 /\ has_strain s' c q e /\ has_phase s' c q ph /\
      returned (dim fu) (elastic_guess (dim fu) e so eo (temperature fu s' c q - temperature fu s c q) ph) s1 /\
      SpecWeak.stress (with_vars problem_u params) fu P (l_u s') c q = s1.
Proof. intros solve_T solve_u problem_T problem_u fu P n h D MU ME SH RUN m Hm. exact (st_mech solve_T solve_u problem_T problem_u fu P D MU n h RUN SH ME m Hm). Qed.
Print Assumptions C101_mechanics.

(** While a point keeps its phase and does not yield, its stress does not depend on the path: it is the elastic guess for the whole change of strain and temperature. *)
Theorem C101_thermoelastic : forall solve_T solve_u problem_T problem_u fu P n h, (0 < dim fu)%nat -> tensor_map (maps problem_u) = Some (laser_stress (dim fu)) -> mesh_ok fu ->
  (forall p T, solve_T p = Ok T -> shaped (length (points fu)) 1 T) -> laser_run solve_T solve_u problem_T problem_u fu P n = Ok h ->
  forall m k c q s0 e0 ph, (10 * (m + k) <= n)%nat -> (c < num_cells fu)%nat -> let st := state fu h in has_stress (st (10 * m)%nat) c q s0 -> has_strain (st (10 * m)%nat) c q e0 ->
  (forall l so eo e1, (m <= l < m + k)%nat -> has_stress (st (10 * l)%nat) c q so -> has_strain (st (10 * l)%nat) c q eo -> has_strain (st (10 * (l + 1))%nat) c q e1 ->
     has_phase (st (10 * (l + 1))%nat) c q ph /\ carried (dim fu) (elastic_guess (dim fu) e1 so eo (temperature fu (st (10 * (l + 1))%nat) c q - temperature fu (st (10 * l)%nat) c q) ph)) ->
  exists s1 e1, has_stress (st (10 * (m + k))%nat) c q s1 /\ has_strain (st (10 * (m + k))%nat) c q e1 /\ forall i j, (i < dim fu)%nat -> (j < dim fu)%nat ->
    s1 i j = elastic_guess (dim fu) e1 s0 e0 (temperature fu (st (10 * (m + k))%nat) c q - temperature fu (st (10 * m)%nat) c q) ph i j.
Proof.
  intros solve_T solve_u problem_T problem_u fu P n h D MU ME SH RUN m k c q s0 e0 ph Hn Hc st S0 E0 H.
  exact (thermoelastic solve_T solve_u problem_T problem_u fu P D MU n h RUN SH ME m k c q s0 e0 ph Hn Hc S0 E0 H).
Qed.
Print Assumptions C101_thermoelastic.

(** The phase of a point is decided by its temperatures after passes 10, 20, ..., and by nothing else; it never goes back. *)
Theorem C101_phases : forall solve_T solve_u problem_T problem_u fu P n h, (0 < dim fu)%nat -> tensor_map (maps problem_u) = Some (laser_stress (dim fu)) ->
  laser_run solve_T solve_u problem_T problem_u fu P n = Ok h -> let st := state fu h in
  (forall i c q, (i <= n)%nat -> (c < num_cells fu)%nat -> exists ph, has_phase (st i) c q ph /\
     phase_ok (map (fun j => temperature fu (st (10 * (j + 1))%nat) c q) (seq 0 (i / 10))) ph) /\
  (forall Ts a b, phase_ok Ts a -> phase_ok Ts b -> a = b) /\
  (forall i j c q a b, (i <= j <= n)%nat -> (c < num_cells fu)%nat -> has_phase (st i) c q a -> has_phase (st j) c q b -> (a <= b)%nat).
Proof.
  intros solve_T solve_u problem_T problem_u fu P n h D MU RUN st. split; [|split].
  - intros i c q Hi Hc. eexists. split; [exact (st_phase solve_T solve_u problem_T problem_u fu P D MU n h RUN i c q Hi Hc)|apply phase_fold_ok].
  - intros Ts a b. apply phase_ok_one.
  - intros i j c q a b. exact (st_phase_mono solve_T solve_u problem_T problem_u fu P D MU n h RUN i j c q a b).
Qed.
Print Assumptions C101_phases.
(** So metal that has solidified and is above 1623 again stays solid: on every grid there is a run whose whole body is at 2000, then at 1000, then at 2000 again, and liquid, then
    solid, then solid. *)
Theorem C101_remelting_refuted : forall Nx Ny X Y sqrtK quad fquad normals, (0 < Nx)%nat -> (0 < Ny)%nat -> let M := box_mesh Nx Ny 5 X Y Lz in
  exists p fu problem_u solve_T solve_u h, problem_init sqrtK 3 [heat_var quad fquad normals (m_points M) (m_cells M)] heat_locations heat_maps (fun a b => (a, b)) = Ok p /\
    fe_init sqrtK "HEX8" quad fquad normals (m_points M) (m_cells M) 3 3 (Some mech_bc) = Ok fu /\ tensor_map (maps problem_u) = Some (laser_stress 3) /\
    (forall p T, solve_T p = Ok T -> shaped (length (points fu)) 1 T) /\ laser_run solve_T solve_u p problem_u fu (m_points M) 30 = Ok h /\
    forall c q, (c < num_cells fu)%nat ->
      (temperature fu (state fu h 10) c q = 2000 /\ has_phase (state fu h 10) c q 1) /\ (temperature fu (state fu h 20) c q = 1000 /\ has_phase (state fu h 20) c q 2) /\
      (temperature fu (state fu h 30) c q = 2000 /\ has_phase (state fu h 30) c q 2).
Proof.
  intros Nx Ny X Y sqrtK quad fquad normals HX HY M. destruct (heat_exists Nx Ny X Y HX HY sqrtK quad fquad normals) as (p & EP). destruct (mech_exists Nx Ny X Y HX HY sqrtK quad fquad normals) as (fu & EF).
  destruct (demo_run Nx Ny X Y HX HY sqrtK quad fquad normals p fu EP EF 30) as (h & RUN & _ & HT). exists p, fu, (mech_problem fu), (demo_T fu), demo_u, h.
  split; [exact EP|]. split; [exact EF|]. split; [reflexivity|]. split; [exact (demo_shape fu)|]. split; [exact RUN|]. intros c q Hc.
  assert (D : dim fu = 3%nat) by exact (built_dim _ _ _ _ _ _ _ _ _ _ _ EF). assert (D0 : (0 < dim fu)%nat) by (rewrite D; lia).
  assert (MU : tensor_map (maps (mech_problem fu)) = Some (laser_stress (dim fu))) by (rewrite D; reflexivity).
  pose proof (HT 9%nat c q ltac:(lia) Hc) as T1. pose proof (HT 19%nat c q ltac:(lia) Hc) as T2. pose proof (HT 29%nat c q ltac:(lia) Hc) as T3. cbn [Nat.ltb Nat.leb] in T1, T2, T3.
  pose proof (fun i Hi => st_phase _ _ _ _ _ _ D0 MU 30 h RUN i c q Hi Hc) as PH.
  pose proof (PH 10%nat ltac:(lia)) as P1. pose proof (PH 20%nat ltac:(lia)) as P2. pose proof (PH 30%nat ltac:(lia)) as P3.
  change (10 / 10)%nat with 1%nat in P1. change (20 / 10)%nat with 2%nat in P2. change (30 / 10)%nat with 3%nat in P3. cbn [seq map] in P1, P2, P3.
  change (10 * (0 + 1))%nat with 10%nat in *. change (10 * (1 + 1))%nat with 20%nat in *. change (10 * (2 + 1))%nat with 30%nat in *. rewrite T1 in P1, P2, P3. rewrite T2 in P2, P3. rewrite T3 in P3.
  unfold phase_fold in P1, P2, P3. cbn [fold_left] in P1, P2, P3. 
  assert (A : next_phase 0 2000 = 1%nat) by (rewrite next_phase_cases; destruct (Rlt_dec 1623 2000); [reflexivity|lra]).
  assert (B : next_phase 1 1000 = 2%nat) by (rewrite next_phase_cases; destruct (Rlt_dec 1000 1623); [reflexivity|lra]).
  assert (C : next_phase 2 2000 = 2%nat) by (rewrite next_phase_cases; reflexivity).
  change POWDER with 0%nat in *. rewrite A in P1, P2, P3. rewrite B in P2, P3. rewrite C in P3. split; [split; [exact T1|exact P1]|split; [split; [exact T2|exact P2]|split; [exact T3|exact P3]]].
Qed.
Print Assumptions C101_remelting_refuted.

(** The heat problem of a pass: tested with v its residual is conduction and storage, less the heat through the faces selected; where the Dirichlet residual vanishes the bottom is
    at 300, and the heat stored is the heat through the selected faces and at the bottom. *)
Theorem C101_heat : forall sqrtK quad fquad normals pts cls p T Told center switch, cls <> [] ->
  (forall cell, In cell cls -> length cell = 8%nat /\ forall n, In n cell -> (n < length pts)%nat) -> shaped (length pts) 1 T ->
  problem_init sqrtK 3 [heat_var quad fquad normals pts cls] heat_locations heat_maps (fun a b => (a, b)) = Ok p ->
  exists f b0 b1 p' res, fes p = [f] /\ points f = pts /\ cells f = cls /\ faces_selected f (Loc1 top) b0 /\ faces_selected f (Loc1 walls) b1 /\
    heat_params p Told center switch = Ok p' /\ compute_residual sqrtK p' [pts] [T] = Ok [res] /\
    let inflow c fc q := beam center switch (get_physical_surface_quad_points pts f c fc q) + loss (convert_from_dof_to_face_quad f Told c fc q 0) in
    let cooling c fc q := loss (convert_from_dof_to_face_quad f Told c fc q 0) in
    let rate c q := heat_rate (convert_from_dof_to_quad f T c q 0%nat) (convert_from_dof_to_quad f Told c q 0%nat) in
    (forall v, shaped (length pts) 1 v -> work (K := Rops) (length pts) 1 v res =
       over_mesh f pts (fun c q => sum_n (K := Rops) 3 (fun j => 15 * sol_to_grad pts f T c q 0 j * sol_to_grad pts f v c q 0 j) + rate c q * convert_from_dof_to_quad f v c q 0%nat)
       - over_list sqrtK f pts b0 (fun c fc q => inflow c fc q * convert_from_dof_to_face_quad f v c fc q 0)
       - over_list sqrtK f pts b1 (fun c fc q => cooling c fc q * convert_from_dof_to_face_quad f v c fc q 0)) /\
    (apply_bc_vec (ravel [res]) (ravel [T]) p' (@one Rops) = repeat (@zero Rops) (length pts) ->
       (forall n, (n < length pts)%nat -> bottom (nth n pts []) = true -> get2 0 T n 0 = 300) /\
       over_mesh f pts rate = over_list sqrtK f pts b0 inflow + over_list sqrtK f pts b1 cooling +
         sum_n (K := Rops) (length pts) (fun n => if bottom (nth n pts []) then get2 0 res n 0 else 0)).
Proof.
  intros sqrtK quad fquad normals pts cls p T Told center switch NE ME TS EP. destruct (heat_built sqrtK quad fquad normals pts cls p EP) as (f & b0 & b1 & EF & EB & EM & B & SB).
  assert (PT : points f = pts) by exact (built_points _ _ _ _ _ _ _ _ _ _ _ B). assert (CL : cells f = cls) by exact (built_cells _ _ _ _ _ _ _ _ _ _ _ B).
  assert (MO : mesh_ok f).
  { intros c Hc. rewrite CL in *. rewrite PT, (built_nodes _ _ _ _ _ _ _ _ _ _ _ B). exact (ME _ (nth_In cls [] Hc)). }
  assert (NC : (0 < length (cells f))%nat) by (rewrite CL; destruct cls; [congruence|cbn; lia]).
  destruct (heat_selected sqrtK quad fquad normals pts cls f B MO b0 b1 SB) as (S0 & S1).
  rewrite <- PT in TS. destruct (heat_weak sqrtK quad fquad normals pts cls f B MO b0 b1 SB Told center switch pts T NC TS) as (res & E & SH & W).
  exists f, b0, b1, (heat_problem f b0 b1 Told center switch), res. split; [exact EF|]. split; [exact PT|]. split; [exact CL|]. split; [exact S0|]. split; [exact S1|].
  split; [unfold heat_params; rewrite EF, EB, EM; reflexivity|]. split; [exact E|]. intros inflow cooling rate. split.
  - intros v SV. rewrite <- PT in SV. rewrite PT in W. exact (W v ltac:(now rewrite <- PT)).
  - exact (heat_balance sqrtK quad fquad normals pts cls f B MO b0 b1 SB Told center switch pts T NC TS res E).
Qed.
Print Assumptions C101_heat.

(** On the grid of the script, five layers of cells over the height 0.05 mm, "top" does not select the top: the tolerance is the height of a layer.  All six faces of each cell of
    the upper layer and the upper face of each cell below it are selected, seven for each face on the plane z = Lz, and the heat of the beam is at least twice the heat through that plane. *)
Theorem C101_top_refuted : forall Nx Ny X Y sqrtK quad fquad normals p, (0 < Nx)%nat -> (0 < Ny)%nat -> let M := box_mesh Nx Ny 5 X Y Lz in
  problem_init sqrtK 3 [heat_var quad fquad normals (m_points M) (m_cells M)] heat_locations heat_maps (fun a b => (a, b)) = Ok p ->
  exists f b0 b1, fes p = [f] /\ boundary_inds_list p = [b0; b1] /\ let tops := map (fun m => (5 * m + 4, 5)%nat) (seq 0 (Nx * Ny)) in
    (forall c fc, In (c, fc) tops <-> (c < length (cells f))%nat /\ (fc < 6)%nat /\
       forall a, In a (nth fc (face_inds f) []) -> coord (nth (nth a (nth c (cells f) []) 0%nat) (points f) []) 2 = Lz) /\
    length tops = (Nx * Ny)%nat /\ length b0 = (7 * (Nx * Ny))%nat /\
    (forall c fc, In (c, fc) b0 <-> (c < length (cells f))%nat /\ (fc < 6)%nat /\ ((c mod 5 = 4)%nat \/ (c mod 5 = 3)%nat /\ fc = 5%nat)) /\
    forall center switch, 0 < X -> 0 < Y -> (forall x, 0 <= sqrtK x) -> (forall fc q, 0 <= face_quad_weights f fc q) -> 0 <= switch ->
      let power b := over_list sqrtK f (m_points M) b (fun c fc q => beam center switch (get_physical_surface_quad_points (m_points M) f c fc q)) in
      2 * power tops <= power b0.
Proof.
  intros Nx Ny X Y sqrtK quad fquad normals p HX HY M EP. destruct (heat_built sqrtK quad fquad normals _ _ p EP) as (f & b0 & b1 & EF & EB & EM & B & SB).
  pose proof (box_mesh_ok Nx Ny 5 X Y Lz HX HY ltac:(lia) _ _ _ _ _ _ f B) as MO. destruct (heat_selected sqrtK quad fquad normals _ _ f B MO b0 b1 SB) as (S0 & _).
  pose proof (box_cells5 Nx Ny X Y HX HY sqrtK quad fquad normals 1 _ f B) as LC.
  exists f, b0, b1. split; [exact EF|]. split; [exact EB|]. intros tops. split; [|split; [|split; [|split]]].
  - intros c fc. unfold tops. rewrite in_map_iff. rewrite LC. split.
    + intros (m & E & I). apply in_seq in I. injection E as <- <-. split; [lia|]. split; [lia|]. apply (true_top Nx Ny X Y HX HY sqrtK quad fquad normals 1 _ f B); try lia.
      split; [|reflexivity]. symmetry. apply (Nat.mod_unique _ 5 m 4); lia.
    + intros (Hc & Hf & H). apply (true_top Nx Ny X Y HX HY sqrtK quad fquad normals 1 _ f B) in H as (E1 & ->); try assumption.
      pose proof (Nat.div_mod c 5 ltac:(lia)) as DM. exists (c / 5)%nat. split; [f_equal; lia|]. apply in_seq. split; [lia|]. apply Nat.div_lt_upper_bound; lia.
  - unfold tops. now rewrite map_length, seq_length.
  - exact (top_count Nx Ny X Y HX HY sqrtK quad fquad normals 1 _ f B b0 S0).
  - intros c fc. rewrite LC. exact (top_faces Nx Ny X Y HX HY sqrtK quad fquad normals 1 _ f B b0 S0 c fc).
  - intros center switch PX PY PS PW SW power.
    exact (doubled Nx Ny X Y HX HY sqrtK quad fquad normals 1 _ f B b0 S0 (fun x y => beam center switch (fun i => match i with 0%nat => x | _ => y end)) PX PY PS PW (fun x y => beam_nonneg center switch _ SW)).
Qed.
Print Assumptions C101_top_refuted.
(** the grid of the script has such problems *)
Example C101_top_met : forall sqrtK quad fquad normals, exists p, let M := box_mesh 50 20 5 Lx Ly Lz in
  problem_init sqrtK 3 [heat_var quad fquad normals (m_points M) (m_cells M)] heat_locations heat_maps (fun a b => (a, b)) = Ok p.
Proof. intros sqrtK quad fquad normals. exact (heat_exists 50 20 Lx Ly ltac:(lia) ltac:(lia) sqrtK quad fquad normals). Qed.
