(** C76: perfect plasticity over a load history. *)
From Coq Require Import String Reals List Arith Lia Lra Bool.
From Verif Require Import Num Arr Fe Problem SpecAssembly Basis SpecBasis SpecFe SpecWeak GeomFacts SpecEnergy Elastic ElasticFacts Init SpecPatch PatchFacts Mesh MeshFe DynamicsBox
  Plasticity SpecPlasticity PlasticityFacts PlasticityMain.
Import ListNotations.
Local Open Scope R_scope.

(** C76. Whatever the displacement gradient and the old stress and strain: the new stress is admissible; it is the elastic stress if that is
    admissible, and otherwise it lies on the yield surface, in the direction of the elastic one; the mean stress is the elastic one; it is
    symmetric if the old state is; and a repeated strain changes nothing. *)
Theorem C76_return : forall d, (0 < d)%nat -> forall G so eo : tensor,
  let s := stress_return_map d G so eo in let t : tensor := fun i j => hooke d (fun k l => strain G k l - eo k l) i j + so i j in
  admissible d s /\ (admissible d t -> same_on d s t) /\
  (~ admissible d t -> von_mises d s = 250 /\ exists a, 0 < a < 1 /\ same_on d (shear_part d s) (fun i j => a * shear_part d t i j)) /\
  trace d s = trace d t /\ (symmetric d so -> symmetric d eo -> symmetric d s) /\
  (admissible d so -> same_on d (strain G) eo -> same_on d s so).
Proof.
  intros d D G so eo s t. split; [exact (return_admissible d D G so eo)|]. split; [exact (return_elastic d D G so eo)|]. split.
  { intros H. destruct (cut_pos d G so eo H) as (C1 & C2). split; [etransitivity; [exact (return_mises d D G so eo)|exact C2]|].
    exists (1 - cut d G so eo). split; [pose proof (cut_range d G so eo); lra|exact (return_shear d D G so eo)]. }
  split; [exact (return_trace d D G so eo)|]. split; [exact (return_symmetric d D G so eo)|exact (stay d D G so eo)].
Qed.
Print Assumptions C76_return.

(** The stress that is missing from the elastic one is that of a plastic strain without volume change, on which the new stress works at
    least as much as any admissible one; no other admissible stress has such a plastic strain; and no admissible stress is closer to the
    elastic one in elastic energy. *)
Theorem C76_flow : forall d, (0 < d)%nat -> forall G so eo : tensor,
  let s := stress_return_map d G so eo in let t : tensor := fun i j => hooke d (fun k l => strain G k l - eo k l) i j + so i j in
  (exists ep, same_on d (hooke d ep) (fun i j => t i j - s i j) /\ trace d ep = 0 /\
     forall tau, admissible d tau -> 0 <= ddot d (fun i j => s i j - tau i j) ep) /\
  (forall s' ep', admissible d s' -> same_on d (hooke d ep') (fun i j => t i j - s' i j) ->
     (forall tau, admissible d tau -> 0 <= ddot d (fun i j => s' i j - tau i j) ep') -> same_on d s' s) /\
  (forall tau w w', admissible d tau -> elastic_energy d (fun i j => t i j - s i j) w -> elastic_energy d (fun i j => t i j - tau i j) w' -> w <= w').
Proof.
  intros d D G so eo s t. split; [|split].
  - exists (flow d G so eo). split; [exact (flow_stress d D G so eo)|]. split; [exact (flow_trace d D G so eo)|exact (flow_dissipates d D G so eo)].
  - exact (only_one d D G so eo).
  - exact (closest d D G so eo).
Qed.
Print Assumptions C76_flow.

(** Any number of load steps with any solver, from rest: the loop raises only if the solver does; step i solves the problem left by step
    i - 1; after it the stress kept at every quadrature point is the one the residual of that problem used for that solution, it is admissible
    and symmetric, and the strain kept is that of the solution. *)
Theorem C76_history : forall (f : fe Rops) P solve n (p : problem Rops tensor), plastic_problem p f -> at_rest p f ->
  ((forall i p', exists s, solve i p' = Ok s) -> exists h, load_loop f P solve n 0 p = Ok h) /\
  forall h, load_loop f P solve n 0 p = Ok h -> length h = n /\
  forall i, (i < n)%nat -> let before := nth i (p :: map snd h) p in let sol := fst (nth i h ([], p)) in let after := snd (nth i h ([], p)) in
    solve i before = Ok sol /\ fes after = fes p /\ maps after = maps p /\ boundary_inds_list after = boundary_inds_list p /\
    forall c q, (c < p_num_cells p)%nat ->
      kept_stress after c q = stress before f P sol c q /\ kept_strain after c q = strain (sol_to_grad P f sol c q) /\
      admissible (dim f) (kept_stress after c q) /\ symmetric (dim f) (kept_stress after c q).
Proof.
  intros f P solve n p PL R. pose proof (rest_sound f p PL R) as SP. split; [exact (loop_runs f P solve n 0 p SP)|].
  intros h L. destruct (loop_spec f P solve n 0 p h SP L) as (LN & H). split; [exact LN|]. intros i Hi before sol after.
  destruct (H i Hi) as (H1 & H2 & H3 & (ivs & H4) & H5). fold before sol after in H1, H2, H3, H4, H5.
  split; [exact H1|]. split; [rewrite H4; reflexivity|]. split; [rewrite H4; reflexivity|]. split; [rewrite H4; reflexivity|]. intros c q Hc.
  rewrite (pl_cells p f PL) in Hc. destruct (H5 c q Hc) as (K1 & K2). destruct (sound_kept f after c q H3 Hc) as (A1 & A2 & _).
  split; [|split; [exact K2|split; [exact A1|exact A2]]]. rewrite K1. symmetry.
  destruct H2 as (PB & ss & es & EV & Ls & Le & _). unfold stress. rewrite (pl_tm before f PB).
  assert (IV : iv_at before c q = [kept_stress before c q; kept_strain before c q]).
  { unfold kept_stress, kept_strain, iv_at. rewrite EV. cbn. rewrite (nth_error_nth' ss (fun _ _ _ => 0)) by lia. now rewrite (nth_error_nth' es (fun _ _ _ => 0)) by lia. }
  rewrite IV. reflexivity.
Qed.
Print Assumptions C76_history.

(** The work done on the material at a quadrature point, from rest, is at least the elastic energy of its stress, which is not negative:
    no load history extracts energy. *)
Theorem C76_work : forall (f : fe Rops) P solve n (p : problem Rops tensor) h, plastic_problem p f -> at_rest p f ->
  load_loop f P solve n 0 p = Ok h -> forall c q w, (c < p_num_cells p)%nat ->
  let states := p :: map snd h in elastic_energy (dim f) (kept_stress (nth n states p) c q) w ->
  0 <= w <= sum_n (K := Rops) n (fun i => ddot (dim f) (kept_stress (nth (S i) states p) c q)
                                     (fun a b => kept_strain (nth (S i) states p) c q a b - kept_strain (nth i states p) c q a b)).
Proof.
  intros f P solve n p h PL R L c q w Hc states E. pose proof (rest_sound f p PL R) as SP. rewrite (pl_cells p f PL) in Hc.
  pose proof (pl_dim p f PL) as D. apply (energy_cb (dim f) D) in E.
  pose proof (loop_work f P solve n 0 p h c q SP L Hc n (le_n n)) as H. cbv zeta in H. fold states in H.
  assert (Z : cb (dim f) (kept_stress p c q) (kept_stress p c q) = 0).
  { assert (K : kept_stress p c q = fun _ _ => 0).
    { unfold at_rest, initial_vars in R. cbv zeta in R. destruct (kept_nth p _ _ c q R) as (-> & _); [rewrite repeat_length; exact Hc|rewrite repeat_length; exact Hc|]. now rewrite nth_repeat. }
    rewrite K. unfold cb, ddot. apply (ProblemFacts.sum_n_zero_ext Rops_ring). intros i Hi. apply (ProblemFacts.sum_n_zero_ext Rops_ring). intros j Hj. cbn; ring. }
  pose proof (cb_nonneg (dim f) D (kept_stress (nth n states p) c q)) as N. subst w. split; [lra|]. eapply Rle_trans; [|exact H]. rewrite Z. lra.
Qed.
Print Assumptions C76_work.

(** The volume average of admissible stresses is admissible. *)
Theorem C76_average : forall (f : fe Rops) P (ss : list (nat -> tensor)), (0 < dim f)%nat -> length ss = num_cells f ->
  (forall c q, (c < num_cells f)%nat -> (q < num_quads f)%nat -> admissible (dim f) (nth c ss (fun _ _ _ => 0) q)) ->
  (forall c q, (c < num_cells f)%nat -> (q < num_quads f)%nat -> 0 <= get_JxW P f c q) ->
  0 < sum_n (K := Rops) (num_cells f) (fun c => sum_n (K := Rops) (num_quads f) (get_JxW P f c)) ->
  admissible (dim f) (compute_avg_stress f P ss).
Proof. exact average_ok. Qed.
Print Assumptions C76_average.

(** In one load step, from a symmetric state: the difference of the residuals of two displacements does not work against their difference; *)
Theorem C76_monotone : forall sqrtK (p : problem Rops tensor) (f : fe Rops) P, plastic_problem p f -> ivs_ok p -> wf_problem p -> (0 < p_num_cells p)%nat ->
  maps_ok (vec f) (dim f) (maps p) ->
  (forall c q, (c < p_num_cells p)%nat -> (q < num_quads f)%nat -> symmetric (dim f) (kept_stress p c q) /\ symmetric (dim f) (kept_strain p c q)) ->
  (forall c q, (c < p_num_cells p)%nat -> (q < num_quads f)%nat -> 0 <= get_JxW P f c q) ->
  forall u1 u2 r1 r2, sol_ok p [u1] -> sol_ok p [u2] -> compute_residual sqrtK p [P] [u1] = Ok [r1] -> compute_residual sqrtK p [P] [u2] = Ok [r2] ->
  0 <= work (K := Rops) (length (points f)) (vec f) (along (K := Rops) u1 u2 (- 1)) r1 - work (K := Rops) (length (points f)) (vec f) (along (K := Rops) u1 u2 (- 1)) r2.
Proof. intros sqrtK p f P PL IVS WF NC MAPS SYM J u1 u2 r1 r2 S1 S2 E1 E2. exact (pl_monotone sqrtK p f P PL IVS WF NC MAPS SYM u1 u2 r1 r2 S1 S2 E1 E2 J). Qed.
Print Assumptions C76_monotone.

(** and two displacements that agree on the held dofs and have the same residual on the others have the same stress everywhere. *)
Theorem C76_unique_stress : forall sqrtK (p : problem Rops tensor) (f : fe Rops) P, plastic_problem p f -> ivs_ok p -> wf_problem p -> (0 < p_num_cells p)%nat ->
  maps_ok (vec f) (dim f) (maps p) ->
  (forall c q, (c < p_num_cells p)%nat -> (q < num_quads f)%nat -> symmetric (dim f) (kept_stress p c q) /\ symmetric (dim f) (kept_strain p c q)) ->
  (forall c q, (c < p_num_cells p)%nat -> (q < num_quads f)%nat -> 0 < get_JxW P f c q) ->
  forall u1 u2 r1 r2, sol_ok p [u1] -> sol_ok p [u2] -> compute_residual sqrtK p [P] [u1] = Ok [r1] -> compute_residual sqrtK p [P] [u2] = Ok [r2] ->
  (forall n k, (n < length (points f))%nat -> (k < vec f)%nat -> get2 (@zero Rops) u1 n k = get2 (@zero Rops) u2 n k \/ get2 (@zero Rops) r1 n k = get2 (@zero Rops) r2 n k) ->
  forall c q, (c < p_num_cells p)%nat -> (q < num_quads f)%nat -> same_on (dim f) (stress p f P u1 c q) (stress p f P u2 c q).
Proof. intros sqrtK p f P PL IVS WF NC MAPS SYM J u1 u2 r1 r2 S1 S2 E1 E2 H. exact (pl_unique sqrtK p f P PL IVS WF NC MAPS SYM u1 u2 r1 r2 S1 S2 E1 E2 J H). Qed.
Print Assumptions C76_unique_stress.

(** A shear beyond the limit: the second case of C76_return is met. *)
Example C76_yields : ~ admissible 3 (fun i j => hooke 3 (fun k l => strain (fun a b => if ((a =? 0) && (b =? 1))%nat then 1 else 0) k l - 0) i j + 0).
Proof.
  intros H. unfold admissible in H. assert (I3 : INR 3 = 3) by (cbn; lra).
  match type of H with von_mises 3 ?t <= _ => pose proof (mises_cauchy 3 t (fun i j => if ((i =? 0) && (j =? 1))%nat then 1 else 0)) as C;
    pose proof (mises_nonneg 3 t) as N;
    assert (E : 2 / 3 * (250 * von_mises 3 (fun i j => if ((i =? 0) && (j =? 1))%nat then 1 else 0)) < ddot 3 (shear_part 3 t) (shear_part 3 (fun i j => if ((i =? 0) && (j =? 1))%nat then 1 else 0))) end.
  - assert (M : von_mises 3 (fun i j => if ((i =? 0) && (j =? 1))%nat then 1 else 0) <= 2).
    { apply Rle_trans with (sqrt (2 * 2)); [|rewrite sqrt_square; lra]. apply sqrt_le_1_alt. unfold ddot, shear_part, trace. rewrite I3. cbn. lra. }
    apply Rle_lt_trans with (2 / 3 * (250 * 2)); [lra|]. unfold ddot, shear_part, trace, hooke, strain, trace. rewrite I3. cbn.
    match goal with |- _ < ?x => assert (X : x = 350000 / 13) by field; rewrite X end. lra.
  - pose proof (mises_nonneg 3 (fun i j => if ((i =? 0) && (j =? 1))%nat then 1 else 0)) as N2. nra.
Qed.

(** On every box mesh with HEX8 elements: the constructed problem meets the hypotheses above. *)
Example C76_nonvacuous : forall Nx Ny Nz Lx Ly Lz, (0 < Nx)%nat -> (0 < Ny)%nat -> (0 < Nz)%nat -> 0 < Lx -> 0 < Ly -> 0 < Lz ->
  let M := box_mesh Nx Ny Nz Lx Ly Lz in let zeros := repeat (fun (_ : nat) (_ _ : nat) => 0) (length (m_cells M)) in
  forall sqrtK quad fquad normals A b g,
  (forall q, (q < List.length (fst quad))%nat -> 0 < nth q (snd quad) (@zero Rops) /\ forall j, (j < 3)%nat -> 0 < nth j (nth q (fst quad) []) (@zero Rops) < 1) ->
  exists (p : problem Rops tensor) f,
  problem_init sqrtK 3 [mkVar (m_points M) (m_cells M) 3 "HEX8" quad fquad normals (hold_affine 3 3 A b g)] None (only_tensor_map (plastic_map 3)) (fun _ y => ([zeros; zeros], y)) = Ok p /\
  plastic_problem p f /\ at_rest p f /\ ivs_ok p /\ wf_problem p /\ (0 < p_num_cells p)%nat /\ maps_ok (vec f) (dim f) (maps p) /\
  (forall c q, (c < p_num_cells p)%nat -> symmetric (dim f) (kept_stress p c q) /\ symmetric (dim f) (kept_strain p c q)) /\
  (forall c q, (c < p_num_cells p)%nat -> (q < num_quads f)%nat -> 0 < get_JxW (m_points M) f c q).
Proof.
  intros Nx Ny Nz Lx Ly Lz HX HY HZ LX LY LZ M zeros sqrtK quad fquad normals A b g QX.
  destruct (proj2 (patch_constructor tensor Nx Ny Nz Lx Ly Lz sqrtK quad fquad normals 3 A b g (plastic_map 3))) as (p0 & INIT0).
  destruct (constructed _ _ _ _ _ _ _ _ _ _ _ _ _ _ INIT0) as (f & B & PE).
  exists (mkProblem [f] [] (only_tensor_map (plastic_map 3)) [zeros; zeros] []), f.
  assert (Ev : vec f = 3%nat) by exact (built_vec _ _ _ _ _ _ _ _ _ _ _ B).
  assert (Ed : dim f = 3%nat) by exact (built_dim _ _ _ _ _ _ _ _ _ _ _ B).
  assert (EN : num_cells f = (Nx * Ny * Nz)%nat) by exact (box_num_cells Nx Ny Nz Lx Ly Lz HX HY HZ _ _ _ _ _ _ f B).
  assert (EC : cells f = m_cells M) by exact (built_cells _ _ _ _ _ _ _ _ _ _ _ B).
  assert (PL : plastic_problem (mkProblem [f] [] (only_tensor_map (plastic_map 3)) [zeros; zeros] []) f).
  { split; [repeat split; left; discriminate|]. split; [congruence|]. split; [rewrite Ed; lia|]. split; [rewrite Ed; reflexivity|]. split; [discriminate|]. split; [discriminate|reflexivity]. }
  assert (AR : at_rest (mkProblem [f] [] (only_tensor_map (plastic_map 3)) [zeros; zeros] []) f).
  { unfold at_rest, initial_vars. cbn [internal_vars]. rewrite EC. reflexivity. }
  split; [|split; [exact PL|split; [exact AR|split; [|split; [|split; [|split; [|split]]]]]]].
  - unfold problem_init, make_fes. cbn [mapM va_ele_type va_quad va_fquad va_normals va_points va_cells va_vec va_bc]. fold M in B. rewrite B. cbn. rewrite Nat.eqb_refl. reflexivity.
  - split; [|split; [reflexivity|]].
    + intros iv [<-|[<-|[]]]; unfold zeros; rewrite repeat_length, <- EC; reflexivity.
    + intros s iv Hs. cbn in Hs. lia.
  - pose proof (constructed_wf _ _ f PE (box_mesh_ok Nx Ny Nz Lx Ly Lz HX HY HZ _ _ _ _ _ _ f B)) as WF. subst p0. destruct WF. constructor; assumption.
  - unfold p_num_cells. cbn. rewrite EN. nia.
  - rewrite Ev, Ed. split; [intros tm E; injection E as <-; apply plastic_ok|]. split; discriminate.
  - intros c q Hc. destruct (sound_kept f _ c q (rest_sound f _ PL AR)) as (_ & Y1 & Y2); [exact Hc|]. split; assumption.
  - intros c q Hc Hq. apply (box_JxW_positive Nx Ny Nz Lx Ly Lz HX HY HZ LX LY LZ _ _ _ _ _ _ f B QX); [exact Hc|exact Hq].
Qed.
Print Assumptions C76_nonvacuous.
