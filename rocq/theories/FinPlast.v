(** Model of the finite-strain plasticity problem of applications/finite_plasticity/model.py and of the load loop of single_cell.py:18-23, 72-84
    (the same in thin_plate.py:19-24, 77-92).
    Simplification: real arithmetic.  For a number that is not positive, det(f)**(-1./3.) is a NaN or infinite in Python, and [Rpower] is not;
    the inverse of a singular matrix likewise.  Every theorem asks for positive determinants of the deformation gradients. *)
From Coq Require Import List Arith Bool Reals.
From Verif Require Import Num Arr Fe Problem Elastic Plasticity Lagrangian.
Import ListNotations.
Local Open Scope R_scope.

(** model.py:22-25 *)
Definition bulk_K : R := 164000.
Definition shear_G : R := 80000.
Definition hard_H1 : R := 18.
Definition flow_sig0 : R := 400.

(** A.T; [mul3] is @ and [eye3] np.eye(3) *)
Definition trans3 (A : tensor) : tensor := fun i j => A j i.
(** np.linalg.norm of a (3, 3) array: the Frobenius norm *)
Definition norm3 (A : tensor) : R := sqrt (sum_n (K := Rops) 3 (fun i => sum_n (K := Rops) 3 (fun j => A i j * A i j))).
(** model.py:51-52 *)
Definition deviatoric (A : tensor) : tensor := fun i j => A i j - 1 / 3 * trace 3 A * eye3 i j.
(** model.py:46-49 *)
Definition get_tau (F be_bar : tensor) : tensor := fun i j =>
  let J := det (K := Rops) 3 F in 1 / 2 * bulk_K * (J * J - 1) * eye3 i j + shear_G * deviatoric be_bar i j.
(** u_grad + np.eye(self.dim) *)
Definition def_grad (u_grad : tensor) : tensor := fun i j => u_grad i j + eye3 i j.

(** model.py:54-65: the trial value of be_bar *)
Definition be_trial (u_grad F_old be_bar_old : tensor) : tensor :=
  let F := def_grad u_grad in
  let F_old_inv := inv_mat (K := Rops) 3 F_old in
  let f := mul3 F F_old_inv in
  let f_bar : tensor := fun i j => Rpower (det (K := Rops) 3 f) (- (1 / 3)) * f i j in
  mul3 (mul3 f_bar be_bar_old) (trans3 f_bar).
(** model.py:64-65: the trial stress and yield function *)
Definition stress_trial (u_grad F_old be_bar_old : tensor) : tensor := fun i j => shear_G * deviatoric (be_trial u_grad F_old be_bar_old) i j.
Definition yield_trial (u_grad F_old be_bar_old : tensor) (alpha_old : R) : R :=
  norm3 (stress_trial u_grad F_old be_bar_old) - sqrt (2 / 3) * (flow_sig0 + hard_H1 * alpha_old).

(** model.py:54-84: be_bar, alpha, tau *)
Definition return_map (u_grad F_old be_bar_old : tensor) (alpha_old : R) : tensor * R * tensor :=
  let F := def_grad u_grad in
  let be_bar_trial := be_trial u_grad F_old be_bar_old in
  let s_trial := stress_trial u_grad F_old be_bar_old in
  let yield_f_trial := yield_trial u_grad F_old be_bar_old alpha_old in
  if Rlt_dec yield_f_trial 0 then (be_bar_trial, alpha_old, get_tau F be_bar_trial)
  else
    let Ie_bar := 1 / 3 * trace 3 be_bar_trial in
    let G_bar := Ie_bar * shear_G in
    let Delta_gamma := yield_f_trial / (2 * G_bar) / (1 + hard_H1 / (3 * G_bar)) in
    let direction : tensor := fun i j => s_trial i j / norm3 s_trial in
    let s : tensor := fun i j => s_trial i j - 2 * G_bar * Delta_gamma * direction i j in
    let alpha := alpha_old + sqrt (2 / 3) * Delta_gamma in
    let be_bar : tensor := fun i j => s i j / shear_G + Ie_bar * eye3 i j in
    (be_bar, alpha, get_tau F be_bar).

(** model.py:28-32 *)
Definition first_PK_stress (F_old be_bar_old : tensor) (alpha_old : R) (u_grad : tensor) : tensor :=
  let tau := snd (return_map u_grad F_old be_bar_old alpha_old) in
  mul3 tau (trans3 (inv_mat (K := Rops) 3 (def_grad u_grad))).
(** model.py:34-37 *)
Definition update_int_vars (F_old be_bar_old : tensor) (alpha_old : R) (u_grad : tensor) : tensor * tensor * R :=
  let r := return_map u_grad F_old be_bar_old alpha_old in (def_grad u_grad, fst (fst r), snd (fst r)).
(** model.py:39-44 *)
Definition compute_cauchy_stress (F_old be_bar_old : tensor) (alpha_old : R) (u_grad : tensor) : tensor :=
  let F := def_grad u_grad in
  let J := det (K := Rops) 3 F in
  let P := first_PK_stress F_old be_bar_old alpha_old u_grad in
  mul3 (fun i j => 1 / J * P i j) (trans3 F).

(** model.py:88-90: the tensor map, with the internal variables of a quadrature point in the order of internal_vars (15).  Simplification: any
    other number of internal variables, for which Python raises, gives zeros; custom_init and update_int_vars_gp always give these three. *)
Definition fp_tensor_map (u_grad : tensor) (iv : list ul_var) : tensor :=
  match iv with
  | [F_old; be_bar_old; alpha_old] => first_PK_stress (as_tens F_old) (as_tens be_bar_old) (as_scal alpha_old) u_grad
  | _ => fun _ _ => 0
  end.
Definition fp_maps : user_maps Rops ul_var := mkMaps (Some fp_tensor_map) None None None None.

(** model.py:8-15 *)
Definition fp_init (f : fe Rops) : result (list (list (nat -> ul_var))) :=
  if (dim f =? 3)%nat then
    let F_old := repeat (fun _ : nat => Tens eye3) (length (cells f)) in
    Ok [F_old; F_old; repeat (fun _ : nat => Scal 0) (length (cells f))]
  else Err ValueErr.

Section Points.
  Variables (f : fe Rops) (P : list (list Rops)).
  (** model.py:106-107, 114-115: the gradients, which are those of sol_to_grad *)
  Definition fp_grads (sol : list (list Rops)) (c q : nat) : tensor := fun i j =>
    sum_n (K := Rops) (num_nodes f) (fun n => cell_sol_at f sol c n i * get_shape_grads P f c q n j).
  (** The three arrays of internal variables of the cells; jax.vmap raises if the leading axes differ. *)
  Definition fp_unpack (ivs : list (list (nat -> ul_var))) : result (list (nat -> ul_var) * list (nat -> ul_var) * list (nat -> ul_var)) :=
    match ivs with
    | [Fs; bs; als] => if (length Fs =? num_cells f)%nat && (length bs =? num_cells f)%nat && (length als =? num_cells f)%nat then Ok (Fs, bs, als) else Err ValueErr
    | _ => Err TypeErr
    end.
  Definition tens_at (a : list (nat -> ul_var)) (c q : nat) : tensor := as_tens (nth c a (fun _ => Scal 0) q).
  Definition scal_at (a : list (nat -> ul_var)) (c q : nat) : R := as_scal (nth c a (fun _ => Scal 0) q).
  (** model.py:102-109 *)
  Definition update_int_vars_gp (sol : list (list Rops)) (ivs : list (list (nat -> ul_var))) : result (list (list (nat -> ul_var))) :=
    bind (fp_unpack ivs) (fun t => let '(Fs, bs, als) := t in
      let upd c q := update_int_vars (tens_at Fs c q) (tens_at bs c q) (scal_at als c q) (fp_grads sol c q) in
      Ok [map (fun c q => Tens (fst (fst (upd c q)))) (seq 0 (num_cells f)); map (fun c q => Tens (snd (fst (upd c q)))) (seq 0 (num_cells f));
          map (fun c q => Scal (snd (upd c q))) (seq 0 (num_cells f))]).
  (** model.py:111-118 *)
  Definition compute_stress (sol : list (list Rops)) (ivs : list (list (nat -> ul_var))) : result (list (nat -> tensor)) :=
    bind (fp_unpack ivs) (fun t => let '(Fs, bs, als) := t in
      Ok (map (fun c q => compute_cauchy_stress (tens_at Fs c q) (tens_at bs c q) (scal_at als c q) (fp_grads sol c q)) (seq 0 (num_cells f)))).
End Points.

(** A pass of the loop: the problem given to the solver, the solution, the internal variables after it and the stresses reported. *)
Record fp_step := mkFp { fp_problem : problem Rops ul_var; fp_sol : list (list Rops); fp_vars : list (list (nat -> ul_var)); fp_sigmas : list (nat -> tensor) }.
(** single_cell.py:74-80 with set_params (19-23).  [solve k p sol] is update_Dirichlet_boundary_conditions with the k-th scale followed by the
    solver, which starts from the last solution: any function of these. *)
Fixpoint fp_loop (f : fe Rops) (P : list (list Rops)) (solve : nat -> problem Rops ul_var -> list (list Rops) -> result (list (list Rops)))
    (num_steps k : nat) (p : problem Rops ul_var) (sol : list (list Rops)) (int_vars : list (list (nat -> ul_var))) : result (list fp_step) :=
  match num_steps with
  | O => Ok []
  | S n =>
      let p' := with_vars p int_vars in
      bind (solve k p' sol) (fun sol' =>
      let int_vars_copy := int_vars in
      bind (update_int_vars_gp f P sol' int_vars) (fun int_vars' =>
      bind (compute_stress f P sol' int_vars_copy) (fun sigmas =>
      bind (fp_loop f P solve n (S k) p' sol' int_vars') (fun rest => Ok (mkFp p' sol' int_vars' sigmas :: rest)))))
  end.
