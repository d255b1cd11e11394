(** Properties C39-C43 and C60-C66: the MMA optimizer and its filters. *)
From Coq Require Import List Arith Bool Lia Reals Lra.
From Verif Require Import Num Arr Fe Problem XNum Newton Mma SpecMma MmaFacts MmaMain MmaKkt MmaOpt SpecOpt OptFacts Examples_mma.
Import ListNotations.
Local Open Scope R_scope.

(** C39: for every design in its box, history and iteration number, the bounds of the sub-problem are ordered, inside the box
    and within the move limit. *)
Theorem C39_bounds : forall n M xval df0dx fval dfdx j, design_ok n M xval -> (j < n)%nat ->
  let S := mma_problem n M xval df0dx fval dfdx in
  xlt (low S j) (alfa S j) /\ xle (alfa S j) (xval j) /\ xle (xval j) (beta S j) /\ xlt (beta S j) (upp S j) /\
  xle (x_min M j) (alfa S j) /\ xle (beta S j) (x_max M j) /\ xlt (alfa S j) (beta S j) /\
  xle (xsub (xval j) (xmul (moveLimit M) (xsub (x_max M j) (x_min M j)))) (alfa S j) /\
  xle (beta S j) (xadd (xval j) (xmul (moveLimit M) (xsub (x_max M j) (x_min M j)))).
Proof. intros n M xval df0dx fval dfdx j (D1 & D2 & D3 & D4 & D5 & D6). exact (bounds n M xval df0dx fval dfdx D1 D2 D3 D4 D5 D6 j). Qed.
Print Assumptions C39_bounds.
(** The asymptotes: half the width of the box away in the first two epochs; later the distance to the last design is kept, times 7/10 for a variable
    that oscillates and times 12/10 for one that goes on in its direction, within 1/100 and 10 widths. *)
Theorem C39_asymptotes : forall n M xval df0dx fval dfdx j, design_ok n M xval -> (j < n)%nat ->
  let S := mma_problem n M xval df0dx fval dfdx in
  let x := reals xval j in let x1 := reals (xold1 M) j in let x2 := reals (xold2 M) j in let width := reals (x_max M) j - reals (x_min M) j in
  ((epoch M <= 2)%nat -> low S j = Fin (x - width / 2) /\ upp S j = Fin (x + width / 2)) /\
  ((2 < epoch M)%nat -> forall g, ((x - x1) * (x1 - x2) < 0 -> g = 7 / 10) -> (0 < (x - x1) * (x1 - x2) -> g = 12 / 10) -> ((x - x1) * (x1 - x2) = 0 -> g = 1) ->
    exists a b, low S j = Fin (x - a) /\ upp S j = Fin (x + b) /\
      clamped (width / 100) (10 * width) (g * (x1 - reals (lowAsymp M) j)) a /\ clamped (width / 100) (10 * width) (g * (reals (upAsymp M) j - x1)) b).
Proof. exact asymptotes. Qed.
Print Assumptions C39_asymptotes.
Example C39_nonvacuous : design_ok 2 o_M o_rho /\ (1 < 2)%nat /\ (2 < epoch o_M)%nat.
Proof. split; [exact o_design|]. cbn. lia. Qed.

(** C40: at the current design the approximation has the gradient of the objective ... *)
Theorem C40_objective_gradient : forall m n M xval df0dx fval dfdx j, design_ok n M xval -> values_ok m n df0dx fval dfdx -> (j < n)%nat ->
  let S := mma_problem n M xval df0dx fval dfdx in
  derivable_pt_lim (fun t => separable n (reals (p0 S)) (reals (q0 S)) (reals (low S)) (reals (upp S)) (set_at (reals xval) j t)) (reals xval j) (reals df0dx j).
Proof. intros m n M xval df0dx fval dfdx j D V. exact (approx_objective m n M xval df0dx fval dfdx D V j). Qed.
Print Assumptions C40_objective_gradient.
(** ... and of every constraint ... *)
Theorem C40_constraint_gradient : forall m n M xval df0dx fval dfdx i j, design_ok n M xval -> values_ok m n df0dx fval dfdx -> (i < m)%nat -> (j < n)%nat ->
  let S := mma_problem n M xval df0dx fval dfdx in
  derivable_pt_lim (fun t => separable n (reals (PP S i)) (reals (QQ S i)) (reals (low S)) (reals (upp S)) (set_at (reals xval) j t) - to_R (bb S i))
    (reals xval j) (reals (dfdx i) j).
Proof. intros m n M xval df0dx fval dfdx i j D V. exact (approx_constraint m n M xval df0dx fval dfdx D V i j). Qed.
Print Assumptions C40_constraint_gradient.
(** ... and the value of every constraint; ... *)
Theorem C40_constraint_value : forall m n M xval df0dx fval dfdx i, design_ok n M xval -> values_ok m n df0dx fval dfdx -> (i < m)%nat ->
  let S := mma_problem n M xval df0dx fval dfdx in
  separable n (reals (PP S i)) (reals (QQ S i)) (reals (low S)) (reals (upp S)) (reals xval) - to_R (bb S i) = to_R (fval i).
Proof. intros m n M xval df0dx fval dfdx i D V. exact (approx_value m n M xval df0dx fval dfdx D V i). Qed.
Print Assumptions C40_constraint_value.
(** ... all coefficients are finite and strictly positive, the whole sub-problem is well posed; ... *)
Theorem C40_positive : forall m n M xval df0dx fval dfdx, design_ok n M xval -> values_ok m n df0dx fval dfdx ->
  let S := mma_problem n M xval df0dx fval dfdx in
  (each n positive (p0 S) /\ each n positive (q0 S) /\ forall i, (i < m)%nat -> each n positive (PP S i) /\ each n positive (QQ S i)) /\
  (scaling_ok m M -> well_posed m n S).
Proof.
  intros m n M xval df0dx fval dfdx D V. split; [exact (approx_positive m n M xval df0dx fval dfdx D V)|exact (approx_well_posed m n M xval df0dx fval dfdx D V)].
Qed.
Print Assumptions C40_positive.
(** ... and a separable function with positive coefficients is strictly convex between its asymptotes. *)
Theorem C40_convex : forall n p q l u x x' s, (forall j, (j < n)%nat -> 0 < p j /\ 0 < q j /\ l j < x j < u j /\ l j < x' j < u j) -> 0 < s < 1 ->
  (exists j, (j < n)%nat /\ x j <> x' j) ->
  separable n p q l u (fun j => s * x j + (1 - s) * x' j) < s * separable n p q l u x + (1 - s) * separable n p q l u x'.
Proof. exact separable_convex. Qed.
Print Assumptions C40_convex.
Example C40_nonvacuous : design_ok 2 o_M o_rho /\ values_ok 1 2 o_df0 o_f o_df /\ scaling_ok 1 o_M.
Proof. exact (conj o_design (conj o_values o_scaling)). Qed.

(** C41: whatever finite numbers the linear solver returns, every point subsolv looks at and the point it returns are interior. *)
Theorem C41_visited : forall m n S solve st, well_posed m n S -> solves_finite solve -> visited m n S solve st -> interior m n S st.
Proof. intros m n S solve st W SF. exact (visited_interior m n S solve W SF st). Qed.
Print Assumptions C41_visited.
Theorem C41_subsolv : forall m n S solve fuel epsimin st, well_posed m n S -> solves_finite solve ->
  subsolv m n S solve fuel epsimin = Done (Ok st) -> visited m n S solve st /\ interior m n S st.
Proof. intros m n S solve fuel e st W SF E. split; [exact (subsolv_visited m n S solve W SF fuel e st E)|exact (subsolv_interior m n S solve W SF fuel e st E)]. Qed.
Print Assumptions C41_subsolv.
Example C41_nonvacuous : well_posed 1 2 o_P /\ solves_finite o_solve /\ (exists st, visited 1 2 o_P o_solve st /\ st <> start o_P) /\
  exists st, subsolv 1 2 o_P o_solve 7 (Fin (1 / 10000000) : XF) = Done (Ok st).
Proof. exact (conj o_wp (conj o_solve_finite (conj o_trial o_run))). Qed.

(** C42: optimize gives the handles densities in [0, 1] only, and returns such densities. *)
Theorem C42_box : forall density_filtering sensitivity_filtering solve fuel dim points cells JxW flex_inds query m objectiveHandle consHandle rho_ini movelimit maxIters tr r,
  let n := length flex_inds in
  mesh_ok dim points cells JxW flex_inds -> query_correct dim query (flex_centroids dim points cells flex_inds) -> (20 <= n)%nat ->
  solves_finite solve -> handles_finite m n objectiveHandle consHandle -> densities n rho_ini -> positive movelimit ->
  optimize density_filtering sensitivity_filtering solve fuel dim points cells JxW flex_inds query m n objectiveHandle consHandle rho_ini movelimit maxIters = (tr, r) ->
  Forall (densities n) tr /\ (forall rho, r = Done (Ok rho) -> densities n rho).
Proof.
  intros df sf solve fuel dim points cells JxW flex query m ob co rho mv k tr r n MO QC N SF HF R P E. unfold optimize in E.
  destruct (compute_correct dim points cells JxW flex query MO QC N) as (ft & EF & FO & _). rewrite EF in E.
  destruct (optimize_box df sf solve SF fuel m n ob co HF ft FO rho mv k tr r R P E) as (A & B & _). auto.
Qed.
Print Assumptions C42_box.
Example C42_nonvacuous : mesh_ok 2 s_points s_cells s_JxW s_flex /\ query_correct 2 s_query (flex_centroids 2 s_points s_cells s_flex) /\ (20 <= length s_flex)%nat /\
  solves_finite o_solve /\ handles_finite 1 20 s_obj s_cons /\ densities 20 (fun _ => Fin (1 / 2)) /\ positive (Fin (1 / 5)) /\
  exists tr rho, optimize true false o_solve 7 2 s_points s_cells s_JxW s_flex s_query 1 20 s_obj s_cons (fun _ => Fin (1 / 2)) (Fin (1 / 5)) 30 = (tr, Done (Ok rho)) /\ length tr = 30%nat.
Proof.
  split; [exact s_mesh|]. split; [exact s_query_ok|]. split; [cbn; lia|]. split; [exact o_solve_finite|]. split; [exact s_handles|]. split; [exact s_start|]. split; [fin|].
  unfold optimize. destruct s_filter as (ft & -> & FO). unfold optimize_with.
  apply (loop_total o_solve o_solve_always 1 20 ltac:(lia) true false s_obj s_cons); [intros; eexists; reflexivity|intros; eexists; reflexivity|exact (proj1 FO)|lia].
Qed.

(** C43: the filter has non-negative weights, the distance-based ones, zero beyond the radius, for the 20 nearest cells. *)
Theorem C43_weights : forall dim points cells JxW flex_inds query,
  let n := length flex_inds in let cs := flex_centroids dim points cells flex_inds in
  mesh_ok dim points cells JxW flex_inds -> query_correct dim query cs -> (20 <= n)%nat ->
  exists ft, compute_filter_kd_tree dim points cells JxW flex_inds query = Ok ft /\ filter_ok n ft /\
    (forall i w j, (i < n)%nat -> In (w, j) (nth i (f_rows ft) []) -> w = Fin (Rmax 0 (radius dim cells JxW - dist dim cs i j))) /\
    (forall i, (i < n)%nat -> length (nth i (f_rows ft) []) = 20%nat /\ NoDup (map snd (nth i (f_rows ft) []))) /\
    (forall i j k, (i < n)%nat -> (j < n)%nat -> In k (map snd (nth i (f_rows ft) [])) -> ~ In j (map snd (nth i (f_rows ft) [])) ->
       dist dim cs i k <= dist dim cs i j).
Proof. exact compute_correct. Qed.
Print Assumptions C43_weights.
(** Filtered densities stay in the range of the densities, constants are kept. *)
Theorem C43_range : forall n ft lo hi rho, filter_ok n ft -> within n lo hi rho -> exists rho', applyDensityFilter ft n rho = Ok rho' /\ within n lo hi rho'.
Proof. intros n ft lo hi rho FO. exact (density_range n ft FO lo hi rho). Qed.
Print Assumptions C43_range.
Theorem C43_constant : forall n ft c rho, filter_ok n ft -> (forall i, (i < n)%nat -> rho i = Fin c) ->
  exists rho', applyDensityFilter ft n rho = Ok rho' /\ forall i, (i < n)%nat -> rho' i = Fin c.
Proof. intros n ft c rho FO. exact (density_const n ft FO c rho). Qed.
Print Assumptions C43_constant.
Example C43_nonvacuous : mesh_ok 2 s_points s_cells s_JxW s_flex /\ query_correct 2 s_query (flex_centroids 2 s_points s_cells s_flex) /\ (20 <= length s_flex)%nat /\
  exists ft, compute_filter_kd_tree 2 s_points s_cells s_JxW s_flex s_query = Ok ft /\ filter_ok 20 ft.
Proof. split; [exact s_mesh|]. split; [exact s_query_ok|]. split; [cbn; lia|exact s_filter]. Qed.

(** C60: with an exact linear solver the direction computed by subsolv is the Newton step of the full relaxed optimality
    system, whichever of the two reduced systems (m < n, m >= n) was solved. *)
Theorem C60_newton : forall m n T e st solve d, real_interior m n T st -> solves_exactly solve ->
  direction m n T (e : RF) st solve = Ok d -> newton_step m n T e st d.
Proof. exact direction_newton. Qed.
Print Assumptions C60_newton.
Example C60_nonvacuous : real_interior 1 1 r_T r_st /\ solves_exactly cramer /\ exists d, direction 1 1 r_T (1 / 10 : RF) r_st cramer = Ok d.
Proof. exact (conj r_interior (conj cramer_exact r_direction)). Qed.

(** C61: subsolv ends; the point it returns meets the relaxed optimality conditions up to 9/10 e for some epsimin < e <= 10 epsimin,
    unless the last Newton loop used all its 200 iterations; ... *)
Theorem C61_quality : forall m n S solve fuel epsimin st, well_posed m n S -> solves_finite solve -> epsimin < 1 ->
  subsolv m n S solve fuel (Fin epsimin : XF) = Done (Ok st) ->
  exists e, epsimin < e <= 10 * epsimin /\ (kkt_within m n (real_S S) e (9 / 10 * e) (real_st st) \/
    exists it0 it, rounds m n S solve (Fin e) 200 it0 it /\ it_st it = st).
Proof. intros m n S solve fuel e st W SF. exact (subsolv_quality m n S solve W SF fuel e st). Qed.
Print Assumptions C61_quality.
Theorem C61_ends : forall m n S solve epsimin, 0 < epsimin -> exists f, forall fuel, (f <= fuel)%nat -> subsolv m n S solve fuel (Fin epsimin : XF) <> Running.
Proof. exact subsolv_ends. Qed.
Print Assumptions C61_ends.
(** ... and one iteration does not increase the norm of the residual, unless it ends with the 50th trial step. *)
Theorem C61_descent : forall m n S solve e it it', well_posed m n S -> solves_finite solve -> visited m n S solve (it_st it) ->
  it_residu it = residu m n S (Fin e : XF) (it_st it) -> it_norm it = residunorm m n S (Fin e : XF) (it_st it) ->
  inner_step m n S solve (Fin e : XF) it = Ok it' ->
  it_residu it' = residu m n S (Fin e : XF) (it_st it') /\ it_norm it' = residunorm m n S (Fin e : XF) (it_st it') /\
  (xle (it_norm it') (it_norm it) \/
   exists d steg, direction m n S (Fin e : XF) (it_st it) solve = Ok d /\ first_steg m n S (it_st it) d = Ok steg /\
     it_st it' = move_by (it_st it) d (xdiv steg (Fin (2 ^ 49)) : XF)).
Proof.
  intros m n S solve e it it' W SF V E1 E2 E. destruct (inner_step_descends m n S solve W SF e it it' V (conj E1 E2) E) as ((A & B) & C). auto.
Qed.
Print Assumptions C61_descent.
Example C61_nonvacuous : well_posed 1 2 o_P /\ solves_finite o_solve /\ (exists st, subsolv 1 2 o_P o_solve 7 (Fin (1 / 10000000) : XF) = Done (Ok st)) /\
  exists it, inner_step 1 2 o_P o_solve (Fin 1 : XF) (mkIt (start o_P) (residu 1 2 o_P (Fin 1 : XF) (start o_P)) (residunorm 1 2 o_P (Fin 1 : XF) (start o_P))) = Ok it.
Proof. split; [exact o_wp|]. split; [exact o_solve_finite|]. split; [exact o_run|]. apply inner_step_total; [exact o_solve_always|lia]. Qed.

(** C62: if no cell has more than 20 cells (itself included) within the radius, the weight of every pair of cells is the distance-based one,
    so the filter is symmetric. *)
Theorem C62_symmetric : forall dim points cells JxW flex_inds query ft i j,
  let n := length flex_inds in let cs := flex_centroids dim points cells flex_inds in
  mesh_ok dim points cells JxW flex_inds -> query_correct dim query cs -> (20 <= n)%nat ->
  compute_filter_kd_tree dim points cells JxW flex_inds query = Ok ft ->
  (forall i l, (i < n)%nat -> NoDup l -> (forall k, In k l -> (k < n)%nat /\ dist dim cs i k < radius dim cells JxW) -> (length l <= 20)%nat) ->
  (i < n)%nat -> (j < n)%nat ->
  weight_of ft i j = Rmax 0 (radius dim cells JxW - dist dim cs i j) /\ weight_of ft i j = weight_of ft j i.
Proof.
  intros dim points cells JxW flex query ft i j n cs MO QC N E F Hi Hj.
  pose proof (weights_exact dim points cells JxW flex query MO QC N ft E i j (fun l => F i l Hi) Hi Hj) as A. pose proof (weights_exact dim points cells JxW flex query MO QC N ft E j i (fun l => F j l Hj) Hj Hi) as B.
  split; [exact A|]. rewrite A, B, (dist_sym dim points cells flex i j). reflexivity.
Qed.
Print Assumptions C62_symmetric.
Example C62_nonvacuous : mesh_ok 2 s_points s_cells s_JxW s_flex /\ query_correct 2 s_query (flex_centroids 2 s_points s_cells s_flex) /\ (20 <= length s_flex)%nat /\
  (exists ft, compute_filter_kd_tree 2 s_points s_cells s_JxW s_flex s_query = Ok ft) /\
  forall i l, NoDup l -> (forall k, In k l -> (k < length s_flex)%nat /\ dist 2 (flex_centroids 2 s_points s_cells s_flex) i k < radius 2 s_cells s_JxW) -> (length l <= 20)%nat.
Proof. split; [exact s_mesh|]. split; [exact s_query_ok|]. split; [cbn; lia|]. split; [destruct s_filter as (ft & E & _); eauto|exact s_few]. Qed.

(** C63: with fewer than 20 flexible cells optimize raises IndexError before anything is evaluated. *)
Theorem C63_few_cells : forall density_filtering sensitivity_filtering solve fuel dim points cells JxW flex_inds query m n objectiveHandle consHandle rho_ini movelimit maxIters,
  mesh_ok dim points cells JxW flex_inds -> query_correct dim query (flex_centroids dim points cells flex_inds) -> (0 < length flex_inds < 20)%nat ->
  optimize density_filtering sensitivity_filtering solve fuel dim points cells JxW flex_inds query m n objectiveHandle consHandle rho_ini movelimit maxIters = ([], Done (Err IndexErr)).
Proof.
  intros df sf solve fuel dim points cells JxW flex query m n ob co rho mv k MO QC N. unfold optimize. now rewrite (compute_few dim points cells JxW flex query MO QC N).
Qed.
Print Assumptions C63_few_cells.
Example C63_nonvacuous : mesh_ok 2 s_points s_cells s_JxW [3%nat] /\ (0 < length [3%nat] < 20)%nat /\
  query_correct 2 (fun cs i => (Fin 0, i) :: repeat (PInf, length cs) 19) (flex_centroids 2 s_points s_cells [3%nat]).
Proof.
  destruct s_mesh as (A & B & C & D & E). split; [|split].
  - split; [exact A|]. split; [exact B|]. split; [exact C|]. split; [|exact E]. repeat constructor.
  - cbn. lia.
  - intros i Hi. split; [reflexivity|]. split; [|intros H; cbn in H; lia]. intros _. right. left. reflexivity.
Qed.

(** C64: for a symmetric filter and densities not below 1/1000 the sensitivity filter is the transpose of the density filter:
    filtering the gradient is the chain rule through filtering the density. *)
Theorem C64_adjoint : forall n ft rho dJ dvc v v' dJ' dvc', filter_ok n ft ->
  (forall i j, (i < n)%nat -> (j < n)%nat -> weight_of ft i j = weight_of ft j i) ->
  within n (1 / 1000) 1 rho -> each n finite dJ -> each n finite v ->
  applyDensityFilter ft n v = Ok v' -> applySensitivityFilter ft n rho dJ dvc = Ok (dJ', dvc') ->
  sum_n (K := Rops) n (fun i => to_R (dJ' i) * to_R (v i)) = sum_n (K := Rops) n (fun j => to_R (dJ j) * to_R (v' j)) /\
  forall k, each n finite (dvc k) ->
    sum_n (K := Rops) n (fun i => to_R (dvc' k i) * to_R (v i)) = sum_n (K := Rops) n (fun j => to_R (dvc k j) * to_R (v' j)).
Proof.
  intros n ft rho dJ dvc v v' dJ' dvc' FO SY R G V E1 E2. unfold applySensitivityFilter in E2. rewrite (proj1 FO), Nat.eqb_refl in E2. inversion E2; subst.
  split; [exact (sensitivity_adjoint n ft FO rho dJ v v' _ SY R G V E1 eq_refl)|]. intros k Gk. exact (sensitivity_adjoint n ft FO rho (dvc k) v v' _ SY R Gk V E1 eq_refl).
Qed.
Print Assumptions C64_adjoint.
Example C64_nonvacuous : exists ft, filter_ok 20 ft /\ (forall i j, (i < 20)%nat -> (j < 20)%nat -> weight_of ft i j = weight_of ft j i) /\ within 20 (1 / 1000) 1 (fun _ => Fin (1 / 2)).
Proof.
  destruct s_filter as (ft & E & FO). exists ft. split; [exact FO|]. split; [|intros i Hi; fin]. intros i j Hi Hj.
  exact (proj2 (C62_symmetric 2 s_points s_cells s_JxW s_flex s_query ft i j s_mesh s_query_ok ltac:(cbn; lia) E (fun i l _ => s_few i l) Hi Hj)).
Qed.

(** C65: if the handles and the linear solver raise nothing, optimize raises nothing: it ends after exactly maxIters evaluations. *)
Theorem C65_completes : forall density_filtering sensitivity_filtering solve fuel dim points cells JxW flex_inds query m objectiveHandle consHandle rho_ini movelimit maxIters,
  let n := length flex_inds in
  mesh_ok dim points cells JxW flex_inds -> query_correct dim query (flex_centroids dim points cells flex_inds) -> (20 <= n)%nat ->
  solves_always solve -> (forall l rho, exists r, objectiveHandle l rho = Ok r) -> (forall l rho, exists r, consHandle rho l = Ok r) -> (7 <= fuel)%nat ->
  exists tr rho, optimize density_filtering sensitivity_filtering solve fuel dim points cells JxW flex_inds query m n objectiveHandle consHandle rho_ini movelimit maxIters = (tr, Done (Ok rho)) /\
    length tr = maxIters.
Proof.
  intros df sf solve fuel dim points cells JxW flex query m ob co rho mv k n MO QC N ST HO HC FU. unfold optimize. destruct (compute_correct dim points cells JxW flex query MO QC N) as (ft & -> & FO & _).
  unfold optimize_with. apply (loop_total solve ST m n); [lia|exact HO|exact HC|exact (proj1 FO)|exact FU].
Qed.
Print Assumptions C65_completes.
Example C65_nonvacuous : mesh_ok 2 s_points s_cells s_JxW s_flex /\ query_correct 2 s_query (flex_centroids 2 s_points s_cells s_flex) /\ (20 <= length s_flex)%nat /\ solves_always o_solve /\
  (forall l rho, exists r, s_obj l rho = Ok r) /\ (forall l rho, exists r, s_cons rho l = Ok r).
Proof. split; [exact s_mesh|]. split; [exact s_query_ok|]. split; [cbn; lia|]. split; [exact o_solve_always|]. split; intros; eexists; reflexivity. Qed.

(** C66: a run of optimize is the method of moving asymptotes: there are designs d 0 = rho_ini, ..., d maxIters = the result, such that every
    iteration solves the sub-problem at its design that looks back at the two designs before it and at the asymptotes of the iteration before; ... *)
Theorem C66_history : forall density_filtering sensitivity_filtering solve fuel dim points cells JxW flex_inds query m n objectiveHandle consHandle rho_ini movelimit maxIters tr rho,
  optimize density_filtering sensitivity_filtering solve fuel dim points cells JxW flex_inds query m n objectiveHandle consHandle rho_ini movelimit maxIters = (tr, Done (Ok rho)) ->
  exists ft d L U, compute_filter_kd_tree dim points cells JxW flex_inds query = Ok ft /\
    d 0%nat = rho_ini /\ (L 0%nat = fun _ => Fin 1) /\ (U 0%nat = fun _ => Fin 1) /\ d maxIters = rho /\ length tr = maxIters /\
    forall i, (i < maxIters)%nat -> mma_iteration density_filtering sensitivity_filtering solve fuel m n objectiveHandle consHandle ft movelimit d L U tr i.
Proof.
  intros df sf solve fuel dim points cells JxW flex query m n ob co rho_ini mv k tr rho E. unfold optimize in E.
  destruct (compute_filter_kd_tree dim points cells JxW flex query) as [ft|] eqn:EF; [|inversion E]. exists ft.
  destruct (optimize_history df sf solve fuel m n ob co ft mv k rho_ini tr rho E) as (d & L & U & H). exists d, L, U. auto.
Qed.
Print Assumptions C66_history.
(** ... and no density changes by more than the move limit in one iteration. *)
Theorem C66_moves : forall density_filtering sensitivity_filtering solve fuel m n objectiveHandle consHandle ft movelimit k d L U tr,
  solves_finite solve -> handles_finite m n objectiveHandle consHandle -> filter_ok n ft -> positive movelimit ->
  densities n (d 0%nat) -> (L 0%nat = fun _ => Fin 1) -> (U 0%nat = fun _ => Fin 1) ->
  (forall i, (i < k)%nat -> mma_iteration density_filtering sensitivity_filtering solve fuel m n objectiveHandle consHandle ft movelimit d L U tr i) ->
  forall i j, (i < k)%nat -> (j < n)%nat -> fin_with (fun t => Rabs t <= to_R movelimit) (xsub (d (i + 1)%nat j) (d i j)).
Proof.
  intros df sf solve fuel m n ob co ft mv k d L U tr SF HF FO MP R L0 U0 H i j Hi. exact (optimize_moves df sf solve fuel m n ob co ft mv SF HF FO k d L U tr MP R L0 U0 H i Hi j).
Qed.
Print Assumptions C66_moves.
Example C66_nonvacuous : exists tr rho,
  optimize true true o_solve 7 2 s_points s_cells s_JxW s_flex s_query 1 20 s_obj s_cons (fun _ => Fin (1 / 2)) (Fin (1 / 5)) 30 = (tr, Done (Ok rho)) /\
  solves_finite o_solve /\ handles_finite 1 20 s_obj s_cons /\ positive (Fin (1 / 5)) /\ densities 20 (fun _ => Fin (1 / 2)).
Proof.
  unfold optimize. destruct s_filter as (ft & -> & FO). unfold optimize_with.
  destruct (loop_total o_solve o_solve_always 1 20 ltac:(lia) true true s_obj s_cons ltac:(intros; eexists; reflexivity) ltac:(intros; eexists; reflexivity) ft (proj1 FO) 7%nat ltac:(lia) 30
    0%nat (initial_mma (fun _ => Fin (1 / 2)) (Fin (1 / 5))) (fun _ => Fin (1 / 2))) as (tr & rho & E & _).
  exists tr, rho. split; [exact E|]. split; [exact o_solve_finite|]. split; [exact s_handles|]. split; [fin|exact s_start].
Qed.
