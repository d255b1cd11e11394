(** C72: the heat problem with active and quiet elements over a whole toolpath. *)
From Coq Require Import String Reals List Arith Bool Lia Lra.
From Verif Require Import Num Arr Fe Problem SpecAssembly SolverBc Basis SpecBasis SpecFe SpecBc Init SpecInit InitFacts Quiet SpecQuiet Thermal SpecThermal ThermalMain.
Import ListNotations.
Local Open Scope R_scope.

(** C72. Whatever the toolpath and the solver do, the residual at each pass is the weak form of the heat equation on the active
    part: conduction and storage in the active cells, heat through the outer faces of the active part and through no other face. The
    laser heats the outer faces that were at the laser height in the last pass in which a cell became active. *)
Theorem C72_weak_form : forall sqrtK s quad fquad normals pts cls p solve tab,
  problem_init sqrtK 3 [thermal_var s quad fquad normals pts cls] (Some [Loc1 (fun _ => true)]) thermal_maps (fun a b => (a, b)) = Ok p ->
  mesh_arg_ok (thermal_var s quad fquad normals pts cls) -> List.length tab = List.length cls -> cls <> [] ->
  forall passes r rest ps f, quiet_element_simulation solve thermal_bc p tab passes = Ok r -> passes = (rest ++ [ps])%list -> fes (sm_problem (fst r)) = [f] ->
  let now := active_after (List.length cls) tab passes in let T_old := sm_T (fst r) in
  forall ext T, outer_faces f now ext -> shaped (List.length pts) 1 T ->
  exists psb res, last_birth (List.length cls) tab passes psb /\
    compute_residual sqrtK (sm_problem (fst r)) [pts] [T] = Ok [res] /\ shaped (List.length pts) 1 res /\
    forall n, (n < List.length pts)%nat -> get2 0 res n 0 =
      (sum_n (K := Rops) (List.length cls) (fun c => if nth c now false then sum_n (K := Rops) (num_nodes f) (fun a =>
         if (nth a (nth c cls []) 0 =? n)%nat then sum_n (K := Rops) (num_quads f) (fun q =>
           (sum_n (K := Rops) 3 (fun j => 15 * sol_to_grad pts f T c q 0 j * get_shape_grads pts f c q a j)
            + heat_rate (convert_from_dof_to_quad f T c q 0%nat) (convert_from_dof_to_quad f T_old c q 0%nat) (ps_dt ps) * shape_vals f q a) * get_JxW pts f c q) else 0) else 0)
       - sum_over (K := Rops) ext (fun x => sum_n (K := Rops) (num_nodes f) (fun a =>
         if (nth a (nth (fst x) cls []) 0 =? n)%nat then sum_n (K := Rops) (num_face_quads f) (fun q =>
           heat_flux (ps_center ps) (ps_switch ps) (at_top (ps_top psb) f (fst x) (snd x)) (convert_from_dof_to_face_quad f T_old (fst x) (snd x) q 0%nat)
             (get_physical_surface_quad_points pts f (fst x) (snd x) q) * face_shape_vals f (snd x) q a * nanson_scale sqrtK pts f (fst x) (snd x) q) else 0))).
Proof.
  intros sq s qd fq nm pts cls p solve tab INIT M LT NC passes r rest ps f RUN LAST FE now Told ext T EXT TS.
  exact (pass_weak sq s qd fq nm pts cls p solve tab INIT M LT passes r RUN rest ps f LAST FE ext T EXT NC TS).
Qed.
Print Assumptions C72_weak_form.

(** The held nodes are those of no active cell, at 300; the residual there is zero before it is replaced. *)
Theorem C72_quiet_nodes : forall sqrtK s quad fquad normals pts cls p solve tab,
  problem_init sqrtK 3 [thermal_var s quad fquad normals pts cls] (Some [Loc1 (fun _ => true)]) thermal_maps (fun a b => (a, b)) = Ok p ->
  mesh_arg_ok (thermal_var s quad fquad normals pts cls) -> List.length tab = List.length cls -> cls <> [] ->
  forall passes r rest ps f, quiet_element_simulation solve thermal_bc p tab passes = Ok r -> passes = (rest ++ [ps])%list -> fes (sm_problem (fst r)) = [f] ->
  let now := active_after (List.length cls) tab passes in
  forall ext T, outer_faces f now ext -> shaped (List.length pts) 1 T -> forall n, (n < List.length pts)%nat ->
    (active_node cls now n -> prescribed f n 0 = None) /\
    (~ active_node cls now n -> prescribed f n 0 = Some 300 /\
       forall res, compute_residual sqrtK (sm_problem (fst r)) [pts] [T] = Ok [res] -> get2 0 res n 0 = 0).
Proof.
  intros sq s qd fq nm pts cls p solve tab INIT M LT NC passes r rest ps f RUN LAST FE now ext T EXT TS.
  exact (pass_quiet sq s qd fq nm pts cls p solve tab INIT M LT passes r RUN rest ps f LAST FE ext T EXT NC TS).
Qed.
Print Assumptions C72_quiet_nodes.

(** Where the residual with its Dirichlet rows vanishes, the heat stored in the active cells is the heat that came in through the
    outer faces, and the points of no active cell are at 300. *)
Theorem C72_heat_balance : forall sqrtK s quad fquad normals pts cls p solve tab,
  problem_init sqrtK 3 [thermal_var s quad fquad normals pts cls] (Some [Loc1 (fun _ => true)]) thermal_maps (fun a b => (a, b)) = Ok p ->
  mesh_arg_ok (thermal_var s quad fquad normals pts cls) -> List.length tab = List.length cls -> cls <> [] -> In s nine_names -> element_dim s = 3%nat ->
  forall passes r rest ps f, quiet_element_simulation solve thermal_bc p tab passes = Ok r -> passes = (rest ++ [ps])%list -> fes (sm_problem (fst r)) = [f] ->
  let now := active_after (List.length cls) tab passes in let T_old := sm_T (fst r) in
  forall ext T, outer_faces f now ext -> shaped (List.length pts) 1 T ->
  forall res, compute_residual sqrtK (sm_problem (fst r)) [pts] [T] = Ok [res] ->
  apply_bc_vec (ravel [res]) (ravel [T]) (sm_problem (fst r)) (@one Rops) = repeat (@zero Rops) (List.length pts) ->
  exists psb, last_birth (List.length cls) tab passes psb /\
    stored_heat f pts now (ps_dt ps) T T_old = incoming_heat sqrtK f pts (ps_top psb) (ps_center ps) (ps_switch ps) T_old ext /\
    forall n, (n < List.length pts)%nat -> ~ active_node cls now n -> get2 0 T n 0 = 300.
Proof.
  intros sq s qd fq nm pts cls p solve tab INIT M LT NC LAG D3 passes r rest ps f RUN LAST FE now Told ext T EXT TS.
  exact (pass_balance sq s qd fq nm pts cls p solve tab INIT M LT passes r RUN rest ps f LAST FE ext T EXT NC TS LAG D3).
Qed.
Print Assumptions C72_heat_balance.

(** With the laser off and everything at 300 the residual with its Dirichlet rows vanishes at 300. *)
Theorem C72_equilibrium : forall sqrtK s quad fquad normals pts cls p solve tab,
  problem_init sqrtK 3 [thermal_var s quad fquad normals pts cls] (Some [Loc1 (fun _ => true)]) thermal_maps (fun a b => (a, b)) = Ok p ->
  mesh_arg_ok (thermal_var s quad fquad normals pts cls) -> List.length tab = List.length cls -> cls <> [] -> In s nine_names -> element_dim s = 3%nat ->
  forall passes r rest ps f, quiet_element_simulation solve thermal_bc p tab passes = Ok r -> passes = (rest ++ [ps])%list -> fes (sm_problem (fst r)) = [f] ->
  let now := active_after (List.length cls) tab passes in let T_old := sm_T (fst r) in
  forall ext T, outer_faces f now ext -> shaped (List.length pts) 1 T ->
  List.length T_old = List.length pts -> (forall n, (n < List.length pts)%nat -> get2 0 T_old n 0 = 300) ->
  (forall n, (n < List.length pts)%nat -> get2 0 T n 0 = 300) -> ps_switch ps = 0 ->
  exists res, compute_residual sqrtK (sm_problem (fst r)) [pts] [T] = Ok [res] /\
    apply_bc_vec (ravel [res]) (ravel [T]) (sm_problem (fst r)) (@one Rops) = repeat (@zero Rops) (List.length pts).
Proof.
  intros sq s qd fq nm pts cls p solve tab INIT M LT NC LAG D3 passes r rest ps f RUN LAST FE now Told ext T EXT TS.
  exact (pass_equilibrium sq s qd fq nm pts cls p solve tab INIT M LT passes r RUN rest ps f LAST FE ext T EXT NC TS LAG D3).
Qed.
Print Assumptions C72_equilibrium.

(** Each pass starts from the temperatures that the solver gave in the pass before, the first one from 300 everywhere. *)
Theorem C72_chain : forall sqrtK s quad fquad normals pts cls p solve tab,
  problem_init sqrtK 3 [thermal_var s quad fquad normals pts cls] (Some [Loc1 (fun _ => true)]) thermal_maps (fun a b => (a, b)) = Ok p ->
  mesh_arg_ok (thermal_var s quad fquad normals pts cls) -> List.length tab = List.length cls ->
  (exists r0, quiet_element_simulation solve thermal_bc p tab [] = Ok r0 /\ sm_T (snd r0) = repeat [300] (List.length pts)) /\
  forall rest ps r, quiet_element_simulation solve thermal_bc p tab (rest ++ [ps]) = Ok r ->
  exists r0, quiet_element_simulation solve thermal_bc p tab rest = Ok r0 /\ sm_T (fst r) = sm_T (snd r0) /\ solve (sm_problem (fst r)) = Ok (sm_T (snd r)).
Proof.
  intros sq s qd fq nm pts cls p solve tab INIT M LT. split; [exact (run_start sq s qd fq nm pts cls p solve tab INIT M LT)|].
  exact (run_chain sq s qd fq nm pts cls p solve tab INIT M LT).
Qed.
Print Assumptions C72_chain.

(** If a cell becomes active in the first pass, nothing but the solver raises; *)
Theorem C72_runs : forall sqrtK s quad fquad normals pts cls p solve tab,
  problem_init sqrtK 3 [thermal_var s quad fquad normals pts cls] (Some [Loc1 (fun _ => true)]) thermal_maps (fun a b => (a, b)) = Ok p ->
  mesh_arg_ok (thermal_var s quad fquad normals pts cls) -> List.length tab = List.length cls ->
  forall passes, (forall p', exists T, solve p' = Ok T) ->
  (forall ps rest, passes = ps :: rest -> exists c, (c < List.length cls)%nat /\ nth c tab false = false /\ ps_born ps c = true) ->
  exists r, quiet_element_simulation solve thermal_bc p tab passes = Ok r.
Proof. exact run_total. Qed.
Print Assumptions C72_runs.

(** if none does, the tables are used before they exist and NameError (UnboundLocalError) is raised. *)
Theorem C72_no_birth : forall sqrtK s quad fquad normals pts cls p solve tab,
  problem_init sqrtK 3 [thermal_var s quad fquad normals pts cls] (Some [Loc1 (fun _ => true)]) thermal_maps (fun a b => (a, b)) = Ok p ->
  mesh_arg_ok (thermal_var s quad fquad normals pts cls) -> List.length tab = List.length cls ->
  forall ps rest, (forall c, (c < List.length cls)%nat -> nth c tab false = false -> ps_born ps c = false) ->
  quiet_element_simulation solve thermal_bc p tab (ps :: rest) = Err NameErr.
Proof. exact run_no_birth. Qed.
Print Assumptions C72_no_birth.

(** The hypotheses are met: two bricks on one another, the upper one becomes active in the first pass; any rule, any points. *)
Definition two_bricks : list (list nat) := [[0; 1; 2; 3; 4; 5; 6; 7]; [4; 5; 6; 7; 8; 9; 10; 11]]%nat.
Example C72_two_bricks : forall sqrtK quad fquad normals pts, List.length pts = 12%nat ->
  mesh_arg_ok (thermal_var "HEX8" quad fquad normals pts two_bricks) /\
  exists p, problem_init sqrtK 3 [thermal_var "HEX8" quad fquad normals pts two_bricks] (Some [Loc1 (fun _ => true)]) thermal_maps (fun a b => (a, b)) = Ok p /\
  forall solve top dt center, (forall p', exists T, solve p' = Ok T) ->
  exists r f, quiet_element_simulation solve thermal_bc p [true; false] [mkPass (fun c => (c =? 1)%nat) top dt center 1; mkPass (fun _ => false) top dt center 0] = Ok r /\
    fes (sm_problem (fst r)) = [f].
Proof.
  intros sq qd fq nm pts LP. assert (M : mesh_arg_ok (thermal_var "HEX8" qd fq nm pts two_bricks)).
  { split; [cbn; tauto|]. split; [|cbn; repeat split; intros g [<-|[]]; reflexivity]. cbn [va_cells thermal_var va_points va_ele_type]. rewrite LP.
    intros cell [<-|[<-|[]]]; (split; [reflexivity|]); intros n H; cbn in H; lia. }
  split; [exact M|].
  destruct (init_wf (V := tval) sq 3 [thermal_var "HEX8" qd fq nm pts two_bricks] (Some [Loc1 (fun _ => true)]) thermal_maps (fun a b => (a, b))) as (p & E & _).
  - split; [discriminate|]. split; [intros a [<-|[]]; exact M|]. intros a b [<-|[]] [<-|[]]. reflexivity.
  - intros g [<-|[]]. reflexivity.
  - reflexivity.
  - exists p. split; [exact E|]. intros solve top dt center SV.
    destruct (C72_runs _ _ _ _ _ _ _ _ solve [true; false] E M eq_refl [mkPass (fun c => (c =? 1)%nat) top dt center 1; mkPass (fun _ => false) top dt center 0] SV) as (r & R).
    { intros ps rest EQ. injection EQ as <- _. exists 1%nat. repeat split. cbn. lia. }
    destruct (pass_fe _ _ _ _ _ _ _ _ solve [true; false] E M eq_refl [mkPass (fun c => (c =? 1)%nat) top dt center 1; mkPass (fun _ => false) top dt center 0] r R ltac:(discriminate)) as (f & FE).
    exists r, f. auto.
Qed.
