(** C111: the stress of a stretched crystal as a function of its initial slip resistance (stress_sensitivity.py). *)
From Coq Require Import Reals String List Arith Lia Lra Bool.
From Verif Require Import Num Arr ArrFacts Fe FeFacts SpecFe SpecBasis Basis GeomFacts Problem SpecAssembly SpecWeak SpecEnergy SpecBc SpecLinear Plasticity SpecPlasticity Lagrangian SpecLagrangian FinPlast SpecFinPlast FinPlastFacts CrystalPlast SpecCrystal CrystalMain CrystalUse
  Volume SpecVolume VolumeMain VolumeEnd ErrorNormMet VolumeMet VolumeSpin FinLoad FinLoadMain SensStress SensMain SpecSens SensRun SensMet SensHist.
Import ListNotations.
Local Open Scope R_scope.

(** The program: displacements k/2000 for k = 0..10, and every step takes 1/20. *)
Theorem C111_program : ss_num_steps = 10%nat /\ (forall k, (k <= 10)%nat -> nth k ss_disps 0 = INR k / 2000) /\ forall k, (k < 10)%nat -> ss_dt k = / 20.
Proof. split; [reflexivity|]. split; [exact program|exact times_eq]. Qed.
Print Assumptions C111_program.

(** The start: alpha scales the slip resistances and nothing else.  No plastic deformation, no slip, the axes of the crystal are those of space. *)
Theorem C111_start : forall tb (f : fe Rops) alpha, (length tb mod 3 = 0)%nat -> (3 <= dim f)%nat -> exists iv0 params, cp_init tb f ss_quat (ss_inds f) = Ok iv0 /\ ss_params alpha iv0 = Ok params /\ state_of f params /\
  forall c q, (c < num_cells f)%nat -> kept_Fp params c q = ident /\ same_on 3 (kept_rot params c q) ident /\ forall s, kept_g params c q s = alpha * (608 / 10) /\ kept_slip params c q s = 0.
Proof. exact start. Qed.
Print Assumptions C111_start.

(** A simulation that ends, with any solver.  It has ten steps.  Step k solves on the same mesh with the corner held, the bottom sliding and the top
    moved by (k+1)/2000; the time is 1/20 and the state is the one the step before left, the first one that of alpha.  At each quadrature point there is
    a stress S that meets the law of the crystal up to 1e-8, and the new state and the problem's stress are those of S.  The recorded number is the mean
    of the Cauchy stress zz over the first cell.  A simulation fails only if the solver does. *)
Theorem C111_history : forall tb LS fuel fwd (f : fe Rops) alpha iv0 params, cp_init tb f ss_quat (ss_inds f) = Ok iv0 -> ss_params alpha iv0 = Ok params -> (0 < num_cells f)%nat -> let P := points f in
  (forall e, ss_simulation tb LS P fuel fwd f iv0 alpha = Some (Err e) -> exists j p, fwd j p = Err e) /\
  forall h, ss_simulation tb LS P fuel fwd f iv0 alpha = Some (Ok h) -> length h = 10%nat /\
    forall k, (k < 10)%nat -> let st := step_at h k in let before := before_at params h k in let after := ss_vars st in
    exists f', same_mesh f f' /\ pulled f f' (INR (k + 1) / 2000) /\ ss_prob st = mkProblem [f'] [] (cp_maps tb (/ 20) LS fuel) before [] /\ fwd k (ss_prob st) = Ok (ss_sol st) /\ state_of f after /\
    (forall c q, (c < num_cells f)%nat -> (q < num_quads f)%nat -> let F := deformation P f (ss_sol st) c q in let g := kept_g before c q in let M := kept_rot before c q in kept_rot after c q = M /\
      exists S, let slip s := slip_by (/ 20) (resolved tb M S s) (g s) in size3 (law_gap tb (/ 20) F (kept_Fp before c q) g M S) <= / 10 ^ 8 /\
        same_on 3 (kept_Fp after c q) (times (kept_Fp before c q) (fun a b => ident a b - flow tb (/ 20) g M S a b)) /\
        (forall s, kept_slip after c q s = kept_slip before c q s + slip s /\ kept_g after c q s = g s + 5415 / 10 * sum_n (K := Rops) (length tb) (fun j => Rabs (slip j) * to_saturation (g j))) /\
        (vol F <> 0 -> vol (kept_Fp after c q) <> 0 -> same_on 3 (fun a b => vol (kept_Fp after c q) * times (stress (ss_prob st) f' P (ss_sol st) c q) (transp F) a b) (conj3 (times F (kept_Fp after c q)) S))) /\
    let J := sum_n (K := Rops) (num_quads f) (fun q => get_JxW P f 0 q) in
    (J <> 0 -> (forall q, (q < num_quads f)%nat -> vol (deformation P f (ss_sol st) 0 q) <> 0) ->
      J * ss_zz st = sum_n (K := Rops) (num_quads f) (fun q => let F := deformation P f (ss_sol st) 0 q in get_JxW P f 0 q * (times (stress (ss_prob st) f' P (ss_sol st) 0 q) (transp F) 2%nat 2%nat / vol F))).
Proof.
  intros tb LS fuel fwd f alpha iv0 params IN EP NC P. assert (FA : four_arrays f params).
  { destruct (cinit tb f ss_quat (ss_inds f) iv0 IN (repeat_length _ _)) as ((a & b & c0 & d & -> & L1 & L2 & L3 & L4) & _). injection EP as <-. exists a, (map (fun col q => scale_var alpha (col q)) b), c0, d. rewrite map_length. auto. }
  unfold ss_simulation. rewrite EP. split; [|intros h L; exact (history tb LS P fuel fwd f _ params h L FA NC)].
  intros e E. apply (loop_errors tb LS P fuel fwd f _ _ _ _ _ _ ltac:(unfold same_mesh; repeat (split; [reflexivity|]); intros; reflexivity) FA E).
Qed.
Print Assumptions C111_history.

(** The solution of a step is not unique: turning the deformed body about the third axis by any angle gives another one, if no point is crushed. *)
Theorem C111_solutions : forall tb LS fuel s (f f' : fe Rops) d0 d dt w u u' ivs, built_element s 3 f -> vec f = 3%nat -> (0 < num_cells f)%nat ->
  set_scale get_dirichlet_top f (ss_bc d0) d = Ok (ss_bc d, f') -> (forall c q, (c < num_cells f)%nat -> (q < num_quads f)%nat -> get_JxW (points f) f c q <> 0) ->
  corner_exact f -> state_of f ivs -> fits f u -> fits f u' -> spun w (points f) u u' ->
  (forall c q, (c < num_cells f)%nat -> (q < num_quads f)%nat -> vol (deformation (points f) f u c q) <> 0) ->
  (exists iv1, cp_update_gp tb dt LS f' (points f) fuel u ivs = Some (Ok iv1) /\ forall c q, (c < num_cells f)%nat -> (q < num_quads f)%nat -> vol (kept_Fp iv1 c q) <> 0) ->
  solves (ss_problem tb LS fuel f' dt ivs) [points f] [u] -> solves (ss_problem tb LS fuel f' dt ivs) [points f] [u'].
Proof. intros tb LS fuel s f f' d0 d dt w u u' ivs B VEC NC SE NZ. exact (step_solves tb LS fuel s f f' d0 d dt B VEC NC SE NZ w u u' ivs). Qed.
Print Assumptions C111_solutions.

(** The recorded stresses are well defined all the same.  Take a simulation that ends, and any other solver whose solution of each step is the first
    one's turned about the third axis, by angles that may differ from step to step.  The simulation with it ends with the same stress in every step and
    the same state at every point; and where the first solver solved its problem, the second one solved its own. *)
Theorem C111_turned : forall tb LS fuel fwd s (f : fe Rops) alpha iv0 h (sols' : nat -> list (list Rops)), built_element s 3 f -> vec f = 3%nat -> (0 < num_cells f)%nat ->
  (forall c q, (c < num_cells f)%nat -> (q < num_quads f)%nat -> get_JxW (points f) f c q <> 0) -> corner_exact f ->
  cp_init tb f ss_quat (ss_inds f) = Ok iv0 -> ss_simulation tb LS (points f) fuel fwd f iv0 alpha = Some (Ok h) ->
  (forall k, (k < 10)%nat -> fits f (ss_sol (step_at h k)) /\ fits f (sols' k) /\ (exists w, spun w (points f) (ss_sol (step_at h k)) (sols' k)) /\
    forall c q, (c < num_cells f)%nat -> (q < num_quads f)%nat -> vol (deformation (points f) f (ss_sol (step_at h k)) c q) <> 0 /\ vol (kept_Fp (ss_vars (step_at h k)) c q) <> 0) ->
  exists h', ss_simulation tb LS (points f) fuel (fun k _ => Ok (sols' k)) f iv0 alpha = Some (Ok h') /\ length h' = 10%nat /\ forall k, (k < 10)%nat -> let st := step_at h k in let st' := step_at h' k in
    ss_sol st' = sols' k /\ ss_zz st' = ss_zz st /\ same_state f (ss_vars st) (ss_vars st') /\ (solves (ss_prob st) [points f] [ss_sol st] -> solves (ss_prob st') [points f] [ss_sol st']).
Proof.
  intros tb LS fuel fwd s f alpha iv0 h sols' B VEC NC NZ EX IN L HY. unfold ss_simulation in *. destruct (ss_params alpha iv0) as [params|e] eqn:EP; [|discriminate].
  assert (FA : four_arrays f params).
  { destruct (cinit tb f ss_quat (ss_inds f) iv0 IN (repeat_length _ _)) as ((a & b & c0 & d & -> & L1 & L2 & L3 & L4) & _). injection EP as <-. exists a, (map (fun col q => scale_var alpha (col q)) b), c0, d. rewrite map_length. auto. }
  refine (spin_loop tb LS fuel s f B VEC NC NZ EX sols' fwd ss_num_steps 0 f _ params params h _ eq_refl _ L HY).
  - unfold same_mesh; repeat (split; [reflexivity|]); intros; reflexivity.
  - split; [exact FA|]. split; [exact FA|]. intros. repeat split; reflexivity.
Qed.
Print Assumptions C111_turned.

(** The reference tetrahedron at rest with the top not moved: no displacement is a solution, and so is the turn by a right angle. *)
Example C111_solutions_met : forall tb LS fuel dt (f : fe Rops), fe_init (K := Rops) sqrt "TET4" one_point face_point tet_normals (ref_points "TET4") (one_cell "TET4") 3 3 None = Ok f -> (length tb mod 3 = 0)%nat ->
  exists f' ivs, set_scale get_dirichlet_top f (ss_bc 0) 0 = Ok (ss_bc 0, f') /\ still f <> right_angle f /\
  solves (ss_problem tb LS fuel f' dt ivs) [points f] [still f] /\ solves (ss_problem tb LS fuel f' dt ivs) [points f] [right_angle f].
Proof.
  intros tb LS fuel dt f B LT. pose proof (tet_element f B) as BE. assert (VEC : vec f = 3%nat) by exact (built_vec _ _ _ _ _ _ _ _ _ _ _ B). assert (NC : (0 < num_cells f)%nat) by (rewrite (tet_cells f B); lia).
  assert (PE : points f = ref_points "TET4") by exact (built_points _ _ _ _ _ _ _ _ _ _ _ B).
  destruct (set_disp f 0 0) as (f' & SE & SM & _). destruct (start tb f 1 LT ltac:(rewrite (dim3 "TET4" f BE); lia)) as (iv0 & ivs & _ & _ & FA & KI). exists f', ivs. split; [exact SE|]. split.
  { intros X. apply (f_equal (fun l => nth 0 (nth 1 l []) 0)) in X. unfold still, right_angle in X. rewrite PE in X. cbn in X. lra. }
  assert (RS : rests f ivs) by (split; [exact FA|]; intros c q Hc _; destruct (KI c q Hc) as (-> & _); apply s_refl).
  assert (ST : solves (ss_problem tb LS fuel f' dt ivs) [points f] [still f]) by exact (still_solves tb LS fuel "TET4" f f' 0 0 dt BE VEC NC SE ivs eq_refl RS).
  split; [exact ST|]. assert (NZ : forall c q, (c < num_cells f)%nat -> (q < num_quads f)%nat -> get_JxW (points f) f c q <> 0) by (rewrite PE; exact (tet_nonzero f B)).
  refine (C111_solutions tb LS fuel "TET4" f f' 0 0 dt (PI / 2) (still f) (right_angle f) ivs BE VEC NC SE NZ (tet_corner f B) FA (still_fits f VEC) (angle_fits f VEC) (angle_spun f) (fun c q _ _ => rest_met f c q) _ ST).
  destruct (same_num f f' SM) as (CE & QE). assert (FA' : four_arrays f' ivs) by (unfold four_arrays in *; rewrite CE; exact FA).
  assert (ALL : forall c q, (c < num_cells f')%nat -> (q < num_quads f')%nat -> exists S, S_at tb dt LS f' (points f) fuel (still f) ivs c q = Some S /\ same_on 3 S (fun _ _ => 0)).
  { intros c q Hc Hq. apply rest_S; [apply still_grad|apply (proj2 RS); lia]. }
  destruct (update_cases tb dt LS f' (points f) fuel (still f) ivs FA') as [(_ & C)|(iv1 & EU & F1 & K)]; [exfalso; apply C; intros c q Hc Hq; destruct (ALL c q Hc Hq) as (S & ES & _); now exists S|].
  exists iv1. split; [exact EU|]. intros c q Hc Hq. destruct (K c q ltac:(lia) ltac:(lia)) as (S & ES & K1 & _). destruct (ALL c q ltac:(lia) ltac:(lia)) as (S' & ES' & Z). rewrite ES in ES'. injection ES' as <-.
  rewrite K1. unfold new_at. rewrite (vol_ident _ (rest_Fp tb dt _ _ _ (kept_slip ivs c q) _ S (proj2 RS c q Hc Hq) Z)). lra.
Qed.
Print Assumptions C111_solutions_met.
(** A solver that leaves the tetrahedron at rest, and one that turns it by a right angle in every step, meet the hypotheses of C111_turned, for every alpha. *)
Example C111_turned_met : forall tb LS fuel alpha (f : fe Rops), fe_init (K := Rops) sqrt "TET4" one_point face_point tet_normals (ref_points "TET4") (one_cell "TET4") 3 3 None = Ok f -> (length tb mod 3 = 0)%nat ->
  exists iv0 h, cp_init tb f ss_quat (ss_inds f) = Ok iv0 /\ ss_simulation tb LS (points f) fuel (fun _ _ => Ok (still f)) f iv0 alpha = Some (Ok h) /\
  built_element "TET4" 3 f /\ vec f = 3%nat /\ (0 < num_cells f)%nat /\ (forall c q, (c < num_cells f)%nat -> (q < num_quads f)%nat -> get_JxW (points f) f c q <> 0) /\ corner_exact f /\
  forall k, (k < 10)%nat -> fits f (ss_sol (step_at h k)) /\ fits f (right_angle f) /\ (exists w, spun w (points f) (ss_sol (step_at h k)) (right_angle f)) /\
    forall c q, (c < num_cells f)%nat -> (q < num_quads f)%nat -> vol (deformation (points f) f (ss_sol (step_at h k)) c q) <> 0 /\ vol (kept_Fp (ss_vars (step_at h k)) c q) <> 0.
Proof.
  intros tb LS fuel alpha f B LT. pose proof (tet_element f B) as BE. assert (VEC : vec f = 3%nat) by exact (built_vec _ _ _ _ _ _ _ _ _ _ _ B). assert (NC : (0 < num_cells f)%nat) by (rewrite (tet_cells f B); lia).
  assert (PE : points f = ref_points "TET4") by exact (built_points _ _ _ _ _ _ _ _ _ _ _ B).
  destruct (start tb f alpha LT ltac:(rewrite (dim3 "TET4" f BE); lia)) as (iv0 & params & IN & EP & FA & KI).
  assert (RS : rests f params) by (split; [exact FA|]; intros c q Hc _; destruct (KI c q Hc) as (-> & _); apply s_refl).
  destruct (rest_loop tb LS fuel f ss_num_steps 0 f (nth 0 ss_disps 0) params ltac:(unfold same_mesh; repeat (split; [reflexivity|]); intros; reflexivity) RS) as (h & L & _ & H).
  exists iv0, h. split; [exact IN|]. split; [unfold ss_simulation; rewrite EP; exact L|]. split; [exact BE|]. split; [exact VEC|]. split; [exact NC|]. split; [rewrite PE; exact (tet_nonzero f B)|]. split; [exact (tet_corner f B)|].
  intros k Hk. destruct (H k Hk) as (-> & R1). split; [exact (still_fits f VEC)|]. split; [exact (angle_fits f VEC)|]. split; [exists (PI / 2); apply angle_spun|]. intros c q Hc Hq. split; [apply rest_met|]. rewrite (vol_ident _ (proj2 R1 c q Hc Hq)). lra.
Qed.
Print Assumptions C111_turned_met.
