(** C77: large deformations with the mesh moved after every load step. *)
From Coq Require Import String Reals List Arith Lia Lra Bool.
From Verif Require Import Num Arr Fe Problem SpecAssembly Basis SpecBc SpecEnergy Init Mesh Plasticity Lagrangian SpecLagrangian LagrangianFacts LagrangianMain LagrangianLoop LagrangianBox.
Import ListNotations.
Local Open Scope R_scope.

(** C77. Whatever the solver returns and however many passes: pass i starts from the initial points plus the sum of the earlier increments,
    the solver is called with those points, the displacement after the pass is that sum plus the increment, every cell keeps its density
    limited to [0.02, 1], and the objective is the sum of the squares of the final displacements. *)
Theorem C77_passes : forall (p : problem Rops ul_var) f points0 tags rho solve, ul_problem p f -> nodal f points0 -> List.length rho = num_cells f -> returns_nodal f solve ->
  forall n J steps, end_to_end_ul rho points0 tags p solve n = Ok (J, steps) ->
  List.length steps = n /\
  (forall i, (i < n)%nat -> let s := nth i steps no_step in
     us_points s = add2 points0 (displacement points0 steps i) /\ solve i (us_problem s) (us_points s) = Ok (us_delta s) /\
     us_u s = displacement points0 steps (S i) /\
     forall c q, (c < num_cells f)%nat -> kept_rho (us_problem s) c q = Rmin (Rmax (nth c rho 0) (2 / 100)) 1) /\
  J = sum_n (K := Rops) (List.length (points f)) (fun m => sum_n (K := Rops) 3 (fun k => get2 0 (displacement points0 steps n) m k ^ 2)).
Proof.
  intros p f points0 tags rho solve UL HP LR RN n J steps RUN. destruct (run_steps p f points0 tags rho solve UL HP LR RN n J steps RUN) as (L & ST).
  split; [exact L|]. split; [|exact (run_objective p f points0 tags rho solve UL HP LR RN n J steps RUN)].
  intros i Hi s. destruct (ST i Hi) as [_ S2 S3 S4 _ _ _ _]. split; [exact S2|]. split; [exact S3|]. split; [exact S4|].
  intros c q Hc. exact (run_rho p f points0 tags rho solve UL HP LR RN n J steps RUN i c q Hi Hc).
Qed.
Print Assumptions C77_passes.

(** As long as no cell was inverted, the gradient kept from pass to pass is that of the whole displacement on the initial mesh. *)
Theorem C77_total_gradient : forall (p : problem Rops ul_var) f points0 tags rho solve, ul_problem p f -> nodal f points0 -> List.length rho = num_cells f -> returns_nodal f solve ->
  forall n J steps, end_to_end_ul rho points0 tags p solve n = Ok (J, steps) ->
  forall i c q, (i < n)%nat -> valid_until f points0 steps i -> (c < num_cells f)%nat -> (q < num_quads f)%nat -> forall a b, (a < 3)%nat -> (b < 3)%nat ->
  kept_F (us_problem (nth i steps no_step)) c q a b = deformation points0 f (displacement points0 steps i) c q a b.
Proof. intros p f points0 tags rho solve UL HP LR RN n J steps RUN i c q Hi V Hc Hq a b Ha Hb. exact (run_gradient p f points0 tags rho solve UL HP LR RN n J steps RUN i c q Hi V Hc Hq a b Ha Hb). Qed.
Print Assumptions C77_total_gradient.

(** The residual of a trial increment, computed on the moved mesh, is that of the whole displacement computed on the initial mesh with the
    first Piola-Kirchhoff stress. *)
Theorem C77_equivalent : forall (p : problem Rops ul_var) f points0 tags rho solve, ul_problem p f -> nodal f points0 -> List.length rho = num_cells f -> returns_nodal f solve ->
  forall n J steps, end_to_end_ul rho points0 tags p solve n = Ok (J, steps) ->
  forall sqrtK i du, (i < n)%nat -> valid_until f points0 steps i -> nodal f du ->
  let s := nth i steps no_step in let u := displacement points0 steps i in
  (forall c q, (c < num_cells f)%nat -> (q < num_quads f)%nat -> / 10 ^ 14 <= det (K := Rops) 3 (deformation (add2 points0 u) f du c q)) ->
  (forall c q, (c < num_cells f)%nat -> (q < num_quads f)%nat -> / 10 ^ 14 <= det (K := Rops) 3 (deformation points0 f (add2 u du) c q)) ->
  compute_residual sqrtK (us_problem s) [us_points s] [du] = compute_residual sqrtK (reference_problem (us_problem s)) [points0] [add2 u du].
Proof. intros p f points0 tags rho solve UL HP LR RN n J steps RUN sqrtK i du. exact (run_equal p f points0 tags rho solve UL HP LR RN n J steps RUN sqrtK i du). Qed.
Print Assumptions C77_equivalent.

(** Its work on a direction v is the derivative along v of the neo-Hookean energy of the whole displacement, each cell weighted with the cube
    of its density; *)
Theorem C77_energy : forall (p : problem Rops ul_var) f points0 tags rho solve, ul_problem p f -> nodal f points0 -> List.length rho = num_cells f -> returns_nodal f solve ->
  forall n J steps, end_to_end_ul rho points0 tags p solve n = Ok (J, steps) ->
  forall sqrtK i du, (i < n)%nat -> valid_until f points0 steps i -> nodal f du ->
  let s := nth i steps no_step in let u := displacement points0 steps i in
  (forall c q, (c < num_cells f)%nat -> (q < num_quads f)%nat -> / 10 ^ 14 <= det (K := Rops) 3 (deformation (add2 points0 u) f du c q)) ->
  (forall c q, (c < num_cells f)%nat -> (q < num_quads f)%nat -> / 10 ^ 14 <= det (K := Rops) 3 (deformation points0 f (add2 u du) c q)) ->
  forall v res, nodal f v -> compute_residual sqrtK (us_problem s) [us_points s] [du] = Ok [res] ->
  derivable_pt_lim (fun t => total_energy sqrtK (reference_problem (us_problem s)) f points0 reference_densities (along (K := Rops) (add2 u du) v t)) 0
    (work (K := Rops) (List.length (points f)) 3 v res).
Proof.
  intros p f points0 tags rho solve UL HP LR RN n J steps RUN sqrtK i du Hi V Hdu s u TI TF v res Hv E.
  pose proof (run_equal p f points0 tags rho solve UL HP LR RN n J steps RUN sqrtK i du Hi V Hdu TI TF) as EQ. fold s in EQ. rewrite E in EQ. symmetry in EQ.
  destruct (run_steps p f points0 tags rho solve UL HP LR RN n J steps RUN) as (L & ST). destruct (ST i Hi) as [S1 _ _ _ S5 _ (Fi & LF & EV) _].
  eapply (ref_energy _ _ S1); [eapply (ul_ivs _ _ S1 _ _ EV); rewrite ?map_length; assumption|apply add2_nodal; assumption| |exact Hv|exact EQ].
  intros c q Hc Hq. apply Rlt_le_trans with (/ 10 ^ 14); [exact tiny_pos|exact (TF c q Hc Hq)].
Qed.
Print Assumptions C77_energy.

(** and it vanishes when the whole displacement is a rotation of every cell. *)
Theorem C77_rigid : forall (p : problem Rops ul_var) f points0 tags rho solve, ul_problem p f -> nodal f points0 -> List.length rho = num_cells f -> returns_nodal f solve ->
  forall n J steps, end_to_end_ul rho points0 tags p solve n = Ok (J, steps) ->
  forall sqrtK i du, (i < n)%nat -> valid_until f points0 steps i -> nodal f du ->
  let s := nth i steps no_step in let u := displacement points0 steps i in
  (forall c q, (c < num_cells f)%nat -> (q < num_quads f)%nat -> / 10 ^ 14 <= det (K := Rops) 3 (deformation (add2 points0 u) f du c q)) ->
  (forall c q, (c < num_cells f)%nat -> (q < num_quads f)%nat -> rotation (deformation points0 f (add2 u du) c q)) ->
  exists res, compute_residual sqrtK (us_problem s) [us_points s] [du] = Ok [res] /\
    forall m k, (m < List.length (points f))%nat -> (k < 3)%nat -> get2 0 res m k = 0.
Proof.
  intros p f points0 tags rho solve UL HP LR RN n J steps RUN sqrtK i du Hi V Hdu s u TI ROT.
  assert (T1 : / 10 ^ 14 <= 1) by (rewrite <- Rinv_1; apply Rinv_le_contravar; lra).
  assert (TF : forall c q, (c < num_cells f)%nat -> (q < num_quads f)%nat -> / 10 ^ 14 <= det (K := Rops) 3 (deformation points0 f (add2 u du) c q)).
  { intros c q Hc Hq. rewrite (proj1 (ROT c q Hc Hq)). exact T1. }
  pose proof (run_equal p f points0 tags rho solve UL HP LR RN n J steps RUN sqrtK i du Hi V Hdu TI TF) as EQ. fold s in EQ.
  destruct (run_steps p f points0 tags rho solve UL HP LR RN n J steps RUN) as (L & ST). destruct (ST i Hi) as [S1 _ _ _ S5 _ (Fi & LF & EV) _].
  assert (IVS : ivs_ok (us_problem s)) by (eapply (ul_ivs _ _ S1 _ _ EV); rewrite ?map_length; assumption).
  destruct (ref_rigid _ _ S1 IVS points0 (add2 u du) sqrtK (add2_nodal f _ _ S5 Hdu) ROT) as (res & E & _ & Z). fold s in E. exists res. split; [rewrite EQ; exact E|exact Z].
Qed.
Print Assumptions C77_rigid.

(** With the conditions built from the tags and a solver that meets prescribed values: after i passes the nodes with tag 1 are where they
    were and those with tag 2 have moved by -0.1 i/7 along x and turned by the angle i/7 pi about the x axis. *)
Theorem C77_held : forall sqrtK ele quad fquad normals pts cls tags f, List.length tags = List.length pts ->
  fe_init sqrtK ele quad fquad normals pts cls 3 3 (Some (build_dirichlet_bc_by_tag tags)) = Ok f ->
  forall (p : problem Rops ul_var) rho solve, ul_problem p f -> nodal f pts -> List.length rho = num_cells f -> returns_nodal f solve -> meets_prescribed solve ->
  forall n J steps, end_to_end_ul rho pts tags p solve n = Ok (J, steps) ->
  forall m i, (m < List.length pts)%nat -> (i <= n)%nat -> let x := add2 pts (displacement pts steps i) in let lam := INR i / 7 in
  (nth m tags 0%nat = 1%nat -> forall k, (k < 3)%nat -> get2 0 x m k = get2 0 pts m k) /\
  (nth m tags 0%nat = 2%nat -> get2 0 x m 0 = get2 0 pts m 0 - lam / 10 /\ (get2 0 x m 1, get2 0 x m 2) = rotated (lam * PI) (get2 0 pts m 1) (get2 0 pts m 2)).
Proof.
  intros sqrtK ele quad fquad normals pts cls tags f LT B p rho solve UL HP LR RN MP n J steps RUN m i Hm Hi x lam.
  pose proof (tag_bc_ok sqrtK quad fquad normals tags ele pts cls f B) as BC. assert (Hm' : (m < List.length (points f))%nat) by (rewrite <- (proj1 HP); exact Hm). split.
  - intros T k Hk. exact (held_left p f pts tags rho solve UL HP LR RN n J steps RUN LT MP BC m k i Hm' Hk Hi T).
  - intros T. exact (held_right p f pts tags rho solve UL HP LR RN n J steps RUN LT MP BC m i Hm' Hi T).
Qed.
Print Assumptions C77_held.

(** Tags: 1 where x = 0, 2 where x = 1, 0 from 10^-4 inside. *)
Theorem C77_tags : forall pts, List.length (boundary_node_tags pts) = List.length pts /\ forall m, (m < List.length pts)%nat -> let x := nth 0 (nth m pts []) 0 in
  (x = 0 -> nth m (boundary_node_tags pts) 0%nat = 1%nat) /\ (x = 1 -> nth m (boundary_node_tags pts) 0%nat = 2%nat) /\
  (/ 10 ^ 4 <= x <= 1 - / 10 ^ 4 -> nth m (boundary_node_tags pts) 0%nat = 0%nat).
Proof.
  intros pts. split; [apply map_length|]. intros m Hm x. split; [exact (tag_left pts m Hm)|]. split; [exact (tag_right pts m Hm)|exact (tag_inside pts m Hm)].
Qed.
Print Assumptions C77_tags.

(** On every box mesh with HEX8 elements the constructed problem meets the hypotheses: with a solver that doubles the body in each pass, no
    cell is ever inverted and the increment found is a trial increment as above; and there is a solver that meets the prescribed values. *)
Example C77_nonvacuous : forall Nx Ny Nz Lx Ly Lz, (0 < Nx)%nat -> (0 < Ny)%nat -> (0 < Nz)%nat -> 0 < Lx -> 0 < Ly -> 0 < Lz ->
  let M := box_mesh Nx Ny Nz Lx Ly Lz in let pts := m_points M in let tags := boundary_node_tags pts in
  forall sqrtK quad fquad normals,
  (forall q, (q < List.length (fst quad))%nat -> 0 < nth q (snd quad) (@zero Rops) /\ forall j, (j < 3)%nat -> 0 < nth j (nth q (fst quad) []) (@zero Rops) < 1) ->
  exists (p : problem Rops ul_var) f,
  problem_init sqrtK 3 [mkVar pts (m_cells M) 3 "HEX8" quad fquad normals (Some (build_dirichlet_bc_by_tag tags))] None (ul_maps f) (fun _ y => (ul_init f, y)) = Ok p /\
  fe_init sqrtK "HEX8" quad fquad normals pts (m_cells M) 3 3 (Some (build_dirichlet_bc_by_tag tags)) = Ok f /\
  ul_problem p f /\ nodal f pts /\
  forall rho n, List.length rho = num_cells f ->
  (exists solve J steps, returns_nodal f solve /\ end_to_end_ul rho pts tags p solve n = Ok (J, steps) /\
     forall i, (i < n)%nat -> let u := displacement pts steps i in let du := us_delta (nth i steps no_step) in
     valid_until f pts steps i /\ nodal f du /\
     (forall c q, (c < num_cells f)%nat -> (q < num_quads f)%nat -> det (K := Rops) 3 (deformation (add2 pts u) f du c q) = 8) /\
     (forall c q, (c < num_cells f)%nat -> (q < num_quads f)%nat -> det (K := Rops) 3 (deformation pts f (add2 u du) c q) = (2 ^ S i) ^ 3)) /\
  (exists solve J steps, returns_nodal f solve /\ meets_prescribed solve /\ end_to_end_ul rho pts tags p solve n = Ok (J, steps)).
Proof.
  intros Nx Ny Nz Lx Ly Lz HX HY HZ LX LY LZ M pts tags sqrtK quad fquad normals QX.
  destruct (box_ul Nx Ny Nz Lx Ly Lz HX HY HZ LX LY LZ sqrtK quad fquad normals tags QX) as (p & f & INIT & B & UL & EP & HP & EN & NS). fold M in INIT, B, EP, HP, NS. fold pts in INIT, B, EP, HP, NS.
  exists p, f. split; [exact INIT|]. split; [exact B|]. split; [exact UL|]. split; [exact HP|]. intros rho n LR. assert (FES : fes p = [f]) by apply UL. split.
  - destruct (run_total p f pts tags rho (doubling f) n FES HP LR (doubling_nodal f)) as (J & steps & RUN).
    { intros i p0 P D _ HN. exists P. unfold doubling. now rewrite (proj2 (is_nodal_ok f P) HN). }
    exists (doubling f), J, steps. split; [exact (doubling_nodal f)|]. split; [exact RUN|]. intros i Hi u du.
    assert (E : du = add2 pts u) by exact (doubled_delta p f pts tags rho UL HP LR n J steps RUN i Hi). rewrite E.
    split; [exact (doubled_valid p f pts tags rho UL HP LR n J steps RUN NS i (Nat.lt_le_incl _ _ Hi))|].
    split; [exact (doubled_nodal p f pts tags rho UL HP LR n J steps RUN i (Nat.lt_le_incl _ _ Hi))|]. split.
    + intros c q Hc Hq. exact (doubled_increment p f pts tags rho UL HP LR n J steps RUN NS i c q Hi Hc Hq).
    + intros c q Hc Hq. exact (doubled_total p f pts tags rho UL HP LR n J steps RUN NS i c q Hi Hc Hq).
  - destruct (run_total p f pts tags rho (prescribing f) n FES HP LR (prescribing_nodal f)) as (J & steps & RUN).
    { intros i p0 P D E _. unfold prescribing, fe0. rewrite E. cbn [hd].
      replace (forallb _ _) with true; [eauto|]. symmetry. apply forallb_forall. intros e He. rewrite step_entries in He. apply in_map_iff in He as (w & <- & Hw).
      destruct (keys_range f tags (tag_bc_ok sqrtK quad fquad normals tags "HEX8" pts (m_cells M) f B) w Hw) as (A & C). cbn [fst snd]. apply andb_true_intro. split; now apply Nat.ltb_lt. }
    exists (prescribing f), J, steps. split; [exact (prescribing_nodal f)|]. split; [exact (prescribing_meets f)|exact RUN].
Qed.
Print Assumptions C77_nonvacuous.
