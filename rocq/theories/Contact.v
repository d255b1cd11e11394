(** Model of applications/third_medium_contact/example.py (39-181): two bodies meet through a soft medium that resists turning.
    Real arithmetic; np.linalg.eigh is an argument, jax.grad is an argument; the random diagonal matrix noise (lines 49-52) is an argument; output is not modelled. *)
From Coq Require Import String Reals List Arith Bool.
From Verif Require Import Num Arr Fe Problem Init Mesh Elastic Plasticity Lagrangian HyperElastic.
Import ListNotations.
Local Open Scope R_scope.

(** @ and .T of (d, d) arrays *)
Definition dot_of (d : nat) (A B : tensor) : tensor := fun i j => sum_n (K := Rops) d (fun k => A i k * B k j).
Definition tr_of (A : tensor) : tensor := fun i j => A j i.
Definition eye_of : tensor := fun i j => if (i =? j)%nat then 1 else 0.
(** line 52: np.diag(np.diag(noise)) *)
Definition diag_of (n : nat -> R) : tensor := fun i j => if (i =? j)%nat then n i else 0.
(** lines 54-59 *)
Definition deform_grad (noise : tensor) (u_grad : tensor) : tensor :=
  let u_grad := fun i j => u_grad i j + noise i j in
  embed (fun i j => u_grad i j + eye_of i j).
(** lines 61-69 *)
Definition rotation (eigh : tensor -> (nat -> R) * tensor) (F_3d : tensor) : tensor :=
  let C := dot_of 3 (tr_of F_3d) F_3d in
  let (eigvals, eigvecs) := eigh C in
  let Lambda_sqrt := diag_of (fun b => sqrt (eigvals b)) in
  let Q := eigvecs in
  let U := dot_of 3 (dot_of 3 Q Lambda_sqrt) (tr_of Q) in
  dot_of 3 F_3d (inv_mat (K := Rops) 3 U).
(** lines 71-93 *)
Definition contact_psi (eigh : tensor -> (nat -> R) * tensor) (theta : R) (R_old : tensor) (F_2d : tensor) : R :=
  let E := 1 in
  let nu := 4 / 10 in
  let K := E / (3 * (1 - 2 * nu)) in
  let G := E / (2 * (1 + nu)) in
  let F_3d := embed F_2d in
  let R_ := rotation eigh F_3d in
  let k_R := / 10 ^ 2 in
  let D := fun i j => eye_of i j - dot_of 3 R_ (tr_of R_old) i j in
  let psi_reg := / 2 * k_R * sum_n (K := Rops) 3 (fun i => dot_of 3 D (tr_of D) i i) in
  let J := det (K := Rops) 3 F_3d in
  let I1 := trace_FtF 3 F_3d in
  let Jinv := Rpower J (- (2) / 3) in
  let I1_bar := Jinv * I1 in
  let log_J := ln J in
  let psi_vol := / 2 * K * log_J ^ 2 in
  let psi_iso := / 2 * G * (I1_bar - 3) in
  let big := if Rlt_dec (5 / 10) theta then true else false in
  let gamma_K := if big then 1 else 0 in
  let gamma_G := if big then 1 else / 10 ^ 6 in
  let gamma_R := if big then 0 else 1 in
  gamma_K * psi_vol + gamma_G * psi_iso + gamma_R * psi_reg.

(** internal variables: numbers and matrices *)
Inductive cval : Type := CNum (x : R) | CTen (t : tensor).
(** lines 95-101; 43-45 make it the tensor map *)
Definition contact_stress (eigh : tensor -> (nat -> R) * tensor) (grad : (tensor -> R) -> tensor -> tensor) (noise : tensor) (u_grad : tensor) (iv : list cval) : tensor :=
  match iv with
  | [CNum theta; CTen R_old] =>
      let u_grad := fun i j => u_grad i j + noise i j in
      let F_2d := fun i j => u_grad i j + eye_of i j in
      grad (contact_psi eigh theta R_old) F_2d
  | _ => fun _ _ => 0
  end.
Definition contact_maps (eigh : tensor -> (nat -> R) * tensor) (grad : (tensor -> R) -> tensor -> tensor) (noise : tensor) : user_maps Rops cval :=
  mkMaps (Some (contact_stress eigh grad noise)) None None None None.

(** lines 105-114: the mean over the quadrature points of a cell, repeated *)
Definition contact_post (eigh : tensor -> (nat -> R) * tensor) (noise : tensor) (P : list (list Rops)) (f : fe Rops) (sol : list (list Rops)) : list (nat -> cval) :=
  map (fun c =>
    let Rs := fun q => rotation eigh (deform_grad noise (sol_to_grad P f sol c q)) in
    let mean_Rs := fun i j => sum_n (K := Rops) (num_quads f) (fun q => Rs q i j) / INR (num_quads f) in
    fun _ => CTen mean_Rs) (seq 0 (num_cells f)).

Definition len_x : R := 1000.
Definition hgt : R := 500.
Definition arm : R := 100.
(** lines 124-128 *)
Definition get_dirichlet_topright (scale : R) : list Rops -> Rops := fun _ => - scale * hgt.
(** lines 139-152 *)
Definition left_side (point : list Rops) : bool := isclose (nth 0 point 0) 0 (/ 10 ^ 5).
Definition rightmost_node (point : list Rops) : bool := isclose (nth 0 point 0) len_x (/ 10 ^ 5) && isclose (nth 1 point 0) hgt (/ 10 ^ 5).
Definition bc_info : Type := list (location_fn Rops) * list nat * list (list Rops -> Rops).
Definition contact_bc : bc_info :=
  ([Loc1 left_side; Loc1 left_side; Loc1 rightmost_node], [0; 1; 1]%nat, [fun _ => 0; fun _ => 0; get_dirichlet_topright 0]).
(** lst[-1] = x *)
Fixpoint set_last {A} (l : list A) (x : A) : list A := match l with [] => [] | [_] => [x] | a :: l => a :: set_last l x end.

(** the problem and the list it keeps its boundary conditions in *)
Record contact_state := mkContact { ct_problem : problem Rops cval; ct_info : bc_info }.
(** lines 117-121 *)
Definition contact_params (s : contact_state) (scale_d : R) (thetas Rs_old : list (nat -> cval)) : result contact_state :=
  match fes (ct_problem s) with
  | f :: rest =>
      let '(locs, vecs, values) := ct_info s in
      match values with
      | [] => Err IndexErr
      | _ =>
        let info := (locs, vecs, set_last values (get_dirichlet_topright scale_d)) in
        bind (update_Dirichlet_boundary_conditions f (Some info)) (fun f' =>
        Ok (mkContact (mkProblem (f' :: rest) (boundary_inds_list (ct_problem s)) (maps (ct_problem s)) [thetas; Rs_old] (internal_vars_surfaces (ct_problem s))) info))
      end
  | [] => Err IndexErr
  end.

(** lines 134-137: h divides 50 k times, here Nx = 20 k + 1, Ny = 10 k (k = 1 in the script, k = 4 in the comment) *)
Definition contact_mesh (k : nat) : mesh := rectangle_mesh (20 * k + 1) (10 * k) (len_x + 50 / INR k) hgt.
(** lines 157-165 *)
Definition contact_thetas (P : list (list Rops)) (f : fe Rops) : list (nat -> cval) :=
  map (fun c =>
    let centroid := fun i => sum_n (K := Rops) (num_quads f) (fun q => get_physical_quad_points P f c q i) / INR (num_quads f) in
    let lt a b := if Rlt_dec a b then true else false in
    fun _ => CNum (if lt (centroid 0%nat) len_x && (lt (centroid 0%nat) arm || lt (hgt - arm) (centroid 1%nat) || lt (centroid 1%nat) arm) then 1 else 0)) (seq 0 (num_cells f)).

(** lines 174-178: one pass; [solve] is the solver with the initial guess of the options (ad_wrapper sets the parameters, then calls it) *)
Definition contact_pass (eigh : tensor -> (nat -> R) * tensor) (noise : tensor) (solve : problem Rops cval -> list (list Rops) -> result (list (list Rops)))
    (P : list (list Rops)) (f : fe Rops) (thetas : list (nat -> cval)) (scale_d : R) (s : contact_state * list (list Rops)) : result (contact_state * list (list Rops)) :=
  let Rs_old := contact_post eigh noise P f (snd s) in
  bind (contact_params (fst s) scale_d thetas Rs_old) (fun s' =>
  bind (solve (ct_problem s') (snd s)) (fun sol => Ok (s', sol))).
(** np.linspace(0., 1.2, n + 1) *)
Definition scale_ds (n i : nat) : R := 12 / 10 * INR i / INR n.
(** the passes up to number i; each state is kept *)
Fixpoint contact_run (eigh : tensor -> (nat -> R) * tensor) (noise : tensor) (solve : problem Rops cval -> list (list Rops) -> result (list (list Rops)))
    (P : list (list Rops)) (f : fe Rops) (thetas : list (nat -> cval)) (n : nat) (todo i : nat) (s : contact_state * list (list Rops)) : result (list (contact_state * list (list Rops))) :=
  match todo with
  | O => Ok []
  | S todo =>
      bind (contact_pass eigh noise solve P f thetas (scale_ds n i) s) (fun s' =>
      bind (contact_run eigh noise solve P f thetas n todo (S i) s') (fun r => Ok (s' :: r)))
  end.
(** lines 171-173: ones as the first guess; 201 passes in the script (n = 200) *)
Definition contact_main (eigh : tensor -> (nat -> R) * tensor) (noise : tensor) (solve : problem Rops cval -> list (list Rops) -> result (list (list Rops)))
    (P : list (list Rops)) (f : fe Rops) (p : problem Rops cval) (n : nat) : result (list (contact_state * list (list Rops))) :=
  contact_run eigh noise solve P f (contact_thetas P f) n (n + 1) 0 (mkContact p contact_bc, repeat (repeat 1 (vec f)) (num_total_nodes f)).
