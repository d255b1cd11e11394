(** Model of the heat problem with active and quiet elements, applications/quiet_element/example.py:28-88 and 320-331. *)
From Coq Require Import Reals List Arith Bool.
From Verif Require Import Num Arr Fe Problem Quiet.
Import ListNotations.
Local Open Scope R_scope.

(** example.py:29-35 *)
Definition T0 : R := 300.
Definition Cp : R := 500.
Definition rho : R := 8440.
Definition rb : R := 0.001.
Definition eta : R := 0.4.
Definition h_conv : R := 50.
Definition P_laser : R := 500.

(** The entries of the internal variables at a quadrature point: an array, a number, a truth value or a row of the face table *)
Inductive tval := TVec (v : nat -> R) | TNum (x : R) | TBool (b : bool) | TMarks (external top : bool).

(** example.py:41-48.  Simplification (here and in the next two): internal variables of another form, with which Python raises
    or computes something else, give zeros; set_params always gives these forms. *)
Definition thermal_tensor (u_grad : nat -> nat -> Rops) (iv : list tval) (k j : nat) : Rops :=
  match iv with
  | [_; _; TBool active] => if active then 15 * u_grad k j else 0
  | _ => 0
  end.
(** example.py:50-56 *)
Definition thermal_mass (T x : nat -> Rops) (iv : list tval) (k : nat) : Rops :=
  match iv with
  | [TVec T_old; TNum dt; TBool active] => if active then rho * Cp * (T k - T_old k) / dt else 0
  | _ => 0
  end.
(** example.py:58-71 *)
Definition thermal_flux (u point : nat -> Rops) (iv : list tval) (k : nat) : Rops :=
  match iv with
  | [TVec old_T; TVec center; TNum switch; TMarks active_face_external active_face_top] =>
      let d2 := (point 0%nat - center 0%nat) ^ 2 + (point 1%nat - center 1%nat) ^ 2 in
      let q_laser := 2 * eta * P_laser / (PI * rb ^ 2) * exp (- (2) * d2 / rb ^ 2) * switch in
      let q_laser := if active_face_top then q_laser else 0 in
      let q_conv := h_conv * (T0 - old_T 0%nat) in
      let q_conv := if active_face_external then q_conv else 0 in
      - (q_laser + q_conv)
  | _ => 0
  end.
Definition thermal_maps : user_maps Rops tval := mkMaps (Some thermal_tensor) (Some thermal_mass) None (Some [thermal_flux]) None.

(** example.py:73-92.  [info] is the fe's dirichlet_bc_info, which the model of the fe does not keep *)
Definition set_params (p : problem Rops tval) (info : list (location_fn Rops) * list nat * list (list Rops -> Rops))
    (sol_T_old : list (list Rops)) (dt : R) (laser_center : nat -> R) (switch : R) (quiet : list nat)
    (active_cells : list bool) (active_faces : list (bool * bool)) : result (problem Rops tval) :=
  match fes p, boundary_inds_list p with
  | f :: others, b :: _ =>
      let body := map (fun c q => TVec (convert_from_dof_to_quad f sol_T_old c q)) (seq 0 (num_cells f)) in
      let surface := map (fun x q => TVec (convert_from_dof_to_face_quad f sol_T_old (fst x) (snd x) q)) b in
      let ivs := [body; map (fun _ _ => TNum dt) (seq 0 (num_cells f)); map (fun a _ => TBool a) active_cells] in
      let ivss := [[surface; map (fun _ _ => TVec laser_center) b; map (fun _ _ => TNum switch) b;
                    map (fun m _ => TMarks (fst m) (snd m)) active_faces]] in
      match info with
      | (_ :: locs, vecs, vals) =>
          bind (update_Dirichlet_boundary_conditions f (Some (Loc2 (dirichlet_location_fn quiet) :: locs, vecs, vals)))
            (fun f' => Ok (mkProblem (f' :: others) (boundary_inds_list p) (maps p) ivs ivss))
      | ([], _, _) => Err IndexErr
      end
  | _, _ => Err IndexErr
  end.

(** What one pass of the loops over the toolpath brings, example.py:309-321 and 341-347: which cells lie under the beam
    (flag_1 & flag_2), the test of get_active_face_truth_tab at the laser height of this pass, the time step, the laser centre
    and the switch.  In the passes with the laser off no cell is under the beam. *)
Record pass := mkPass { ps_born : nat -> bool; ps_top : list (list R) -> bool; ps_dt : R; ps_center : nat -> R; ps_switch : R }.
(** The variables that live across passes: active_cell_truth_tab_old with external_faces and the objects of the hash map;
    active_face_truth_tab and quiet_point_inds_set, unbound before the first birth; the problem; sol_list[0] *)
Record sim := mkSim { sm_faces : list bool * list cface * hstate; sm_tables : option (list (bool * bool) * list nat);
  sm_problem : problem Rops tval; sm_T : list (list Rops) }.

(** example.py:322-330: the new tables; UnboundLocalError (a NameError) if set_params is reached before the first birth.
    [info] is dirichlet_bc_info, whose first location function is replaced at every pass *)
Definition prepare (info : list (location_fn Rops) * list nat * list (list Rops -> Rops)) (cells_face : list (list (list nat)))
    (s : sim) (ps : pass) : result sim :=
  match fes (sm_problem s), boundary_inds_list (sm_problem s) with
  | f :: _, b :: _ =>
      let old := fst (fst (sm_faces s)) in
      let new := map (fun c => nth c old false || ps_born ps c) (seq 0 (length (cells f))) in
      bind (step cells_face (sm_faces s) new) (fun fs =>
      bind (if forallb (fun b => b) (map2 Bool.eqb new old) then Ok (sm_tables s)
            else bind (get_active_face_truth_tab (ps_top ps) (points f) (cells f) (face_inds f) b (snd (fst fs))) (fun ft =>
                 bind (get_quiet_point_inds_set (length (points f)) (cells f) new) (fun q => Ok (Some (ft, q))))) (fun tables =>
      match tables with
      | None => Err NameErr
      | Some (ft, q) =>
          bind (set_params (sm_problem s) info (sm_T s) (ps_dt ps) (ps_center ps) (ps_switch ps) q new ft) (fun p =>
          Ok (mkSim fs tables p (sm_T s)))
      end))
  | _, _ => Err IndexErr
  end.
(** The loop.  [solve] stands for solver(problem), which may raise or give any solution.  The result has the problem of the last
    pass with its old temperatures, just before the solver is called, and the state after it. *)
Fixpoint simulate (solve : problem Rops tval -> result (list (list Rops))) (info : list (location_fn Rops) * list nat * list (list Rops -> Rops))
    (cells_face : list (list (list nat))) (s : sim) (passes : list pass) : result (sim * sim) :=
  match passes with
  | [] => Ok (s, s)
  | ps :: rest =>
      bind (prepare info cells_face s ps) (fun s' =>
      match rest with
      | [] => bind (solve (sm_problem s')) (fun T => Ok (s', mkSim (sm_faces s') (sm_tables s') (sm_problem s') T))
      | _ :: _ => bind (solve (sm_problem s')) (fun T => simulate solve info cells_face (mkSim (sm_faces s') (sm_tables s') (sm_problem s') T) rest)
      end)
  end.
(** example.py:288-301: the state before the first pass *)
Definition start (p : problem Rops tval) (tab : list bool) : result (list (list (list nat)) * sim) :=
  match fes p with
  | f :: _ =>
      bind (initialize_hash_map (cells f) (face_inds f) tab) (fun r =>
        let '(ext, cells_face, st) := r in
        Ok (cells_face, mkSim (tab, ext, st) None p (repeat [T0] (length (points f)))))
  | [] => Err IndexErr
  end.
(** example.py:252-351 *)
Definition quiet_element_simulation (solve : problem Rops tval -> result (list (list Rops)))
    (info : list (location_fn Rops) * list nat * list (list Rops -> Rops)) (p : problem Rops tval) (tab : list bool) (passes : list pass) : result (sim * sim) :=
  bind (start p tab) (fun r => simulate solve info (fst r) (snd r) passes).
