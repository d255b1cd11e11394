(** Model of the crystal plasticity problem of applications/crystal_plasticity/models.py, of its input file input/slip_systems_fcc.txt and of the
    load loop of polycrystal_neper.py:137-157 (the same in stress_sensitivity.py:75-91).
    Simplification: real arithmetic, so no NaN; a division by zero or the inverse of a singular matrix gives some number, and the theorems ask
    for nonzero determinants and positive slip resistances where it matters.  jax.jit is not modelled: self.dt is the same in all steps, as in
    the loops above, whose times are equally spaced. *)
From Coq Require Import List Arith Bool Reals.
From Coquelicot Require Derive.
From Verif Require Import Num Arr Fe Problem Elastic Plasticity Lagrangian FinPlast.
Import ListNotations.
Local Open Scope R_scope.

Definition vect := nat -> R.
Definition tensor4 := nat -> nat -> nat -> nat -> R.

(** models.py:21-26 *)
Definition rotate_tensor_rank_4 (M : tensor) (T : tensor4) : tensor4 := fun i j k l =>
  sum_n (K := Rops) 3 (fun a => sum_n (K := Rops) 3 (fun b => sum_n (K := Rops) 3 (fun c => sum_n (K := Rops) 3 (fun d =>
    M i a * M j b * M k c * M l d * T a b c d)))).
(** models.py:29-32 *)
Definition rotate_tensor_rank_2 (M T : tensor) : tensor := fun i j =>
  sum_n (K := Rops) 3 (fun a => sum_n (K := Rops) 3 (fun b => M i a * M j b * T a b)).
(** models.py:37-44 *)
Definition get_rot_mat (q : vect) : tensor := fun i j =>
  nth j (nth i
    [[q 0%nat * q 0%nat + q 1%nat * q 1%nat - q 2%nat * q 2%nat - q 3%nat * q 3%nat; 2 * q 1%nat * q 2%nat - 2 * q 0%nat * q 3%nat; 2 * q 1%nat * q 3%nat + 2 * q 0%nat * q 2%nat];
     [2 * q 1%nat * q 2%nat + 2 * q 0%nat * q 3%nat; q 0%nat * q 0%nat - q 1%nat * q 1%nat + q 2%nat * q 2%nat - q 3%nat * q 3%nat; 2 * q 2%nat * q 3%nat - 2 * q 0%nat * q 1%nat];
     [2 * q 1%nat * q 3%nat - 2 * q 0%nat * q 2%nat; 2 * q 2%nat * q 3%nat + 2 * q 0%nat * q 1%nat; q 0%nat * q 0%nat - q 1%nat * q 1%nat - q 2%nat * q 2%nat + q 3%nat * q 3%nat]] []) 0.

(** input/slip_systems_fcc.txt: normal and direction of each slip system *)
Definition slip_systems_fcc : list (list R) :=
  [[1; 1; -1; 0; 1; 1]; [1; 1; -1; 1; 0; 1]; [1; 1; -1; 1; -1; 0];
   [1; -1; -1; 0; 1; -1]; [1; -1; -1; 1; 0; 1]; [1; -1; -1; 1; 1; 0];
   [1; -1; 1; 0; 1; 1]; [1; -1; 1; 1; 0; -1]; [1; -1; 1; 1; 1; 0];
   [1; 1; 1; 0; 1; -1]; [1; 1; 1; 1; 0; -1]; [1; 1; 1; 1; -1; 0]].

(** onp.linalg.norm of a row of length 3 *)
Definition row_norm (v : vect) : R := sqrt (sum_n (K := Rops) 3 (fun i => v i * v i)).
(** models.py:79-81 *)
Definition cub_C11 : R := 168400.
Definition cub_C12 : R := 121400.
Definition cub_C44 : R := 75400.
(** models.py:77, 89-115: a table of zeros and the entries written into it *)
Definition C_entries : list (nat * nat * nat * nat * R) :=
  [(0, 0, 0, 0, cub_C11); (1, 1, 1, 1, cub_C11); (2, 2, 2, 2, cub_C11);
   (0, 0, 1, 1, cub_C12); (1, 1, 0, 0, cub_C12); (0, 0, 2, 2, cub_C12); (2, 2, 0, 0, cub_C12); (1, 1, 2, 2, cub_C12); (2, 2, 1, 1, cub_C12);
   (1, 2, 1, 2, cub_C44); (1, 2, 2, 1, cub_C44); (2, 1, 1, 2, cub_C44); (2, 1, 2, 1, cub_C44);
   (2, 0, 2, 0, cub_C44); (2, 0, 0, 2, cub_C44); (0, 2, 2, 0, cub_C44); (0, 2, 0, 2, cub_C44);
   (0, 1, 0, 1, cub_C44); (0, 1, 1, 0, cub_C44); (1, 0, 0, 1, cub_C44); (1, 0, 1, 0, cub_C44)]%nat.
Definition set4 (T : tensor4) (e : nat * nat * nat * nat * R) : tensor4 :=
  let '(a, b, c, d, v) := e in fun i j k l => if ((i =? a) && (j =? b) && (k =? c) && (l =? d))%nat then v else T i j k l.
Definition stiffness : tensor4 := fold_left set4 C_entries (fun _ _ _ _ => 0).

(** models.py:53, 124-128; 1./xm is 10 *)
Definition gss_initial : R := 608 / 10.
Definition hard_h : R := 5415 / 10.
Definition t_sat : R := 1098 / 10.
Definition ao : R := 1 / 1000.
(** np.sign *)
Definition sign (x : R) : R := if Rlt_dec 0 x then 1 else if Rlt_dec x 0 then -1 else 0.
(** x**gss_a for x >= 0 and gss_a = 2.5 *)
Definition pow_a (x : R) : R := x * x * sqrt x.

(** jax.jacfwd(f)(y) of a function of m numbers: the partial derivatives.  Simplification: where f has no derivative, jax's rule for
    np.absolute and np.sign may differ from [Derive]; the residual below has one wherever the slip resistances are not zero. *)
Definition jacfwd (f : vect -> vect) (y : vect) : tensor := fun i j =>
  Derive.Derive (fun t => f (fun k => if (k =? j)%nat then t else y k) i) (y j).

Section Crystal.
  (** the rows of the slip system file *)
  Variable input_slip_sys : list (list R).
  (** self.dt *)
  Variable dt : R.
  (** np.linalg.solve for the 9 equations *)
  Variable lin_solve : tensor -> vect -> vect.

  (** models.py:57-62; the columns :3 are the normals, the columns 3: the directions *)
  Definition num_slip_sys : nat := length input_slip_sys.
  Definition slip_directions (s : nat) : vect := fun i =>
    let v : vect := fun j => nth (3 + j) (nth s input_slip_sys []) 0 in v i / row_norm v.
  Definition slip_normals (s : nat) : vect := fun i =>
    let v : vect := fun j => nth j (nth s input_slip_sys []) 0 in v i / row_norm v.
  Definition Schmid_tensors (s : nat) : tensor := fun i j => slip_directions s i * slip_normals s j.
  (** models.py:52, 64-69 *)
  Definition q_mat : tensor := fun i j =>
    let r := 1 in if ((i / 3 * 3 <=? j) && (j <? i / 3 * 3 + 3))%nat then 1 else r * 1.

  (** models.py:150-166.  What helper computes, in turn. *)
  Definition h_tau (rot_mat S : tensor) : vect := fun s =>
    sum_n (K := Rops) 3 (fun i => sum_n (K := Rops) 3 (fun j => S i j * rotate_tensor_rank_2 rot_mat (Schmid_tensors s) i j)).
  Definition h_gamma_inc (g_old : vect) (rot_mat S : tensor) : vect := fun s =>
    let tau := h_tau rot_mat S in ao * dt * Rabs (tau s / g_old s) ^ 10 * sign (tau s).
  Definition h_tmp (g_old : vect) (rot_mat S : tensor) : vect := fun s =>
    hard_h * Rabs (h_gamma_inc g_old rot_mat S s) * pow_a (Rabs (1 - g_old s / t_sat)) * sign (1 - g_old s / t_sat).
  Definition h_g_inc (g_old : vect) (rot_mat S : tensor) : vect := fun s =>
    sum_n (K := Rops) num_slip_sys (fun j => q_mat s j * h_tmp g_old rot_mat S j).
  Definition h_L (g_old : vect) (rot_mat S : tensor) : tensor := fun i j =>
    sum_n (K := Rops) num_slip_sys (fun s => h_gamma_inc g_old rot_mat S s * rotate_tensor_rank_2 rot_mat (Schmid_tensors s) i j).
  (** Fp_inv_new, slip_resistance_new, slip_new, Fe, F *)
  Record helper_out := mkHelper { Fp_inv_new : tensor; slip_resistance_new : vect; slip_new : vect; h_Fe : tensor; h_F : tensor }.
  Definition helper (u_grad Fp_inv_old : tensor) (g_old slip_old : vect) (rot_mat S : tensor) : helper_out :=
    let F := def_grad u_grad in
    let Fp := mul3 Fp_inv_old (fun i j => eye3 i j - h_L g_old rot_mat S i j) in
    mkHelper Fp (fun s => g_old s + h_g_inc g_old rot_mat S s) (fun s => slip_old s + h_gamma_inc g_old rot_mat S s) (mul3 F Fp) F.

  (** jax.flatten_util.ravel_pytree of a (3, 3) array (row by row) and its inverse, models.py:131 *)
  Definition ravel9 (T : tensor) : vect := fun k => if (k <? 9)%nat then T (k / 3)%nat (k mod 3)%nat else 0.
  Definition unflatten_fn (y : vect) : tensor := fun i j => y (3 * i + j)%nat.
  (** ravel_pytree of [u_grad, Fp_inv_old, slip_resistance_old, slip_old, rot_mat] and its inverse, models.py:132, 135, 144, 169 *)
  Definition ravel_params (u_grad Fp_inv_old : tensor) (g_old slip_old : vect) (rot_mat : tensor) : vect := fun k =>
    let n := num_slip_sys in
    if (k <? 9)%nat then ravel9 u_grad k else if (k <? 18)%nat then ravel9 Fp_inv_old (k - 9)%nat
    else if (k <? 18 + n)%nat then g_old (k - 18)%nat else if (k <? 18 + n + n)%nat then slip_old (k - (18 + n))%nat
    else ravel9 rot_mat (k - (18 + n + n))%nat.
  Definition num_params : nat := 27 + num_slip_sys + num_slip_sys.
  Definition x_u_grad (x : vect) : tensor := unflatten_fn x.
  Definition x_Fp_inv (x : vect) : tensor := unflatten_fn (fun k => x (9 + k)%nat).
  Definition x_g (x : vect) : vect := fun s => x (18 + s)%nat.
  Definition x_slip (x : vect) : vect := fun s => x (18 + num_slip_sys + s)%nat.
  Definition x_rot (x : vect) : tensor := unflatten_fn (fun k => x (18 + num_slip_sys + num_slip_sys + k)%nat).

  (** models.py:168-174 *)
  Definition implicit_residual (x y : vect) : vect :=
    let S := unflatten_fn y in
    let Fe := h_Fe (helper (x_u_grad x) (x_Fp_inv x) (x_g x) (x_slip x) (x_rot x) S) in
    let RC := rotate_tensor_rank_4 (x_rot x) stiffness in
    let S_ : tensor := fun i j => sum_n (K := Rops) 3 (fun k => sum_n (K := Rops) 3 (fun l => RC i j k l * 1 / 2 * (mul3 (trans3 Fe) Fe k l - eye3 k l))) in
    ravel9 (fun i j => S i j - S_ i j).

  (** np.linalg.norm of a vector of 9 numbers *)
  Definition norm9 (v : vect) : R := sqrt (sum_n (K := Rops) 9 (fun k => v k * v k)).
  Definition tol : R := / 10 ^ 8.
  (** models.py:205-214; [left] is max_sub_step - sub_step *)
  Fixpoint sub_loop (f_partial : vect -> vect) (y y_inc res_vec : vect) (left : nat) (relax_param : R) (crt_res_vec : vect) : R * vect :=
    match left with
    | O => (relax_param, crt_res_vec)
    | Datatypes.S left' =>
        if Rle_dec (norm9 res_vec) (norm9 crt_res_vec)
        then sub_loop f_partial y y_inc res_vec left' (1 / 2 * relax_param) (f_partial (fun k => y k + relax_param * y_inc k))
        else (relax_param, crt_res_vec)
    end.
  (** models.py:190-217, without the count of steps *)
  Definition body_fun (f_partial : vect -> vect) (st : vect * vect) : vect * vect :=
    let (res_vec, y) := st in
    let jac := jacfwd f_partial y in
    let y_inc := lin_solve jac (fun k => - res_vec k) in
    let max_sub_step := 5%nat in
    let (relax_param_f, res_vec_f) := sub_loop f_partial y y_inc res_vec max_sub_step 1 res_vec in
    (res_vec_f, fun k => y k + 2 * relax_param_f * y_inc k).
  (** models.py:186-188, 219-221: the while loop with [fuel] passes; None: still running *)
  Fixpoint newton_loop (f_partial : vect -> vect) (fuel : nat) (st : vect * vect) : option vect :=
    if Rlt_dec tol (norm9 (fst st)) then
      match fuel with
      | O => None
      | Datatypes.S fuel' => newton_loop f_partial fuel' (body_fun f_partial st)
      end
    else Some (snd st).
  (** models.py:177-221 *)
  Definition newton_solver (fuel : nat) (x : vect) : option vect :=
    let y0 : vect := fun _ => 0 in
    newton_loop (implicit_residual x) fuel (implicit_residual x y0, y0).
  (** models.py:224-231: the tangent; [y] is newton_solver(x) *)
  Definition f_jvp (x v y : vect) : vect :=
    let jac_x := jacfwd (fun x' => implicit_residual x' y) x in
    let jac_y := jacfwd (fun y' => implicit_residual x y') y in
    lin_solve jac_y (fun k => - sum_n (K := Rops) num_params (fun j => jac_x k j * v j)).

  (** models.py:134-137, 143-146: the stress the local solve finds *)
  Definition solved_S (fuel : nat) (u_grad Fp_inv_old : tensor) (g_old slip_old : vect) (rot_mat : tensor) : option tensor :=
    option_map unflatten_fn (newton_solver fuel (ravel_params u_grad Fp_inv_old g_old slip_old rot_mat)).
  (** models.py:138-141, for the stress S *)
  Definition PK_of (u_grad Fp_inv_old : tensor) (g_old slip_old : vect) (rot_mat S : tensor) : tensor :=
    let h := helper u_grad Fp_inv_old g_old slip_old rot_mat S in
    let Fe := h_Fe h in
    let sigma := mul3 (mul3 (fun i j => 1 / det (K := Rops) 3 Fe * Fe i j) S) (trans3 Fe) in
    mul3 (fun i j => det (K := Rops) 3 (h_F h) * sigma i j) (trans3 (inv_mat (K := Rops) 3 (h_F h))).
  (** models.py:134-141 *)
  Definition cp_stress (fuel : nat) (u_grad Fp_inv_old : tensor) (g_old slip_old : vect) (rot_mat : tensor) : option tensor :=
    option_map (PK_of u_grad Fp_inv_old g_old slip_old rot_mat) (solved_S fuel u_grad Fp_inv_old g_old slip_old rot_mat).
  (** models.py:143-148 *)
  Definition cp_update (fuel : nat) (u_grad Fp_inv_old : tensor) (g_old slip_old : vect) (rot_mat : tensor) : option (tensor * vect * vect * tensor) :=
    option_map (fun S => let h := helper u_grad Fp_inv_old g_old slip_old rot_mat S in (Fp_inv_new h, slip_resistance_new h, slip_new h, rot_mat))
      (solved_S fuel u_grad Fp_inv_old g_old slip_old rot_mat).

  (** an internal variable at a quadrature point: a (3, 3) array or one number for each slip system.  Simplification: the wrong kind, for which
      Python raises, gives zeros; custom_init and update_int_vars_gp always give the right kinds. *)
  Inductive cp_var := CT (T : tensor) | CV (v : vect).
  Definition as_t (v : cp_var) : tensor := match v with CT T => T | CV _ => fun _ _ => 0 end.
  Definition as_v (v : cp_var) : vect := match v with CT _ => fun _ => 0 | CV v => v end.
  (** models.py:235-237.  Simplification: where the local loop does not end, the map is zero; the theorems about it ask that it ends. *)
  Definition cp_tensor_map (fuel : nat) (u_grad : tensor) (iv : list cp_var) : tensor :=
    match iv with
    | [Fp; g; sl; rot] => match cp_stress fuel u_grad (as_t Fp) (as_v g) (as_v sl) (as_t rot) with Some P => P | None => fun _ _ => 0 end
    | _ => fun _ _ => 0
    end.
  Definition cp_maps (fuel : nat) : user_maps Rops cp_var := mkMaps (Some (cp_tensor_map fuel)) None None None None.

  (** models.py:51-117, with the errors for a mesh of lower dimension (self.C[2, 2, 2, 2]) and a number of slip systems that is not a multiple of
      three (self.q[i, ...]).  An index beyond the quaternions reads the last one, as jax does.  Simplification: indices are not negative. *)
  Definition cp_init (f : fe Rops) (quat : list vect) (cell_ori_inds : list nat) : result (list (list (nat -> cp_var))) :=
    if negb (num_slip_sys mod 3 =? 0)%nat then Err IndexErr
    else if (dim f <? 3)%nat then Err IndexErr
    else
      let rot_mats := map (fun i => get_rot_mat (nth (Nat.min i (length quat - 1)) quat (fun _ => 0))) cell_ori_inds in
      Ok [repeat (fun _ : nat => CT eye3) (length (cells f)); repeat (fun _ : nat => CV (fun _ => gss_initial * 1)) (length (cells f));
          repeat (fun _ : nat => CV (fun _ => 0)) (length (cells f)); map (fun (M : tensor) (_ : nat) => CT M) rot_mats].

  Section Points.
    Variables (f : fe Rops) (P : list (list Rops)) (fuel : nat).
    (** models.py:249-250, 273-274: the gradients, which are those of sol_to_grad *)
    Definition cp_grads (sol : list (list Rops)) (c q : nat) : tensor := fun i j =>
      sum_n (K := Rops) (num_nodes f) (fun n => cell_sol_at f sol c n i * get_shape_grads P f c q n j).
    (** jax.vmap over the four arrays: raises unless they have one row for each cell *)
    Definition cp_unpack (ivs : list (list (nat -> cp_var))) : result (list (nat -> cp_var) * list (nat -> cp_var) * list (nat -> cp_var) * list (nat -> cp_var)) :=
      match ivs with
      | [Fps; gs; sls; rots] =>
          if (length Fps =? num_cells f)%nat && (length gs =? num_cells f)%nat && (length sls =? num_cells f)%nat && (length rots =? num_cells f)%nat
          then Ok (Fps, gs, sls, rots) else Err ValueErr
      | _ => Err TypeErr
      end.
    Definition t_at (a : list (nat -> cp_var)) (c q : nat) : tensor := as_t (nth c a (fun _ => CV (fun _ => 0)) q).
    Definition v_at (a : list (nat -> cp_var)) (c q : nat) : vect := as_v (nth c a (fun _ => CV (fun _ => 0)) q).
    (** every point of the vmap has a value: the batched while loops all end *)
    Definition all_done {A : Type} (g : nat -> nat -> option A) : bool :=
      forallb (fun c => forallb (fun q => match g c q with Some _ => true | None => false end) (seq 0 (num_quads f))) (seq 0 (num_cells f)).
    Definition value {A : Type} (d : A) (o : option A) : A := match o with Some a => a | None => d end.
    Definition no_state : tensor * vect * vect * tensor := (fun _ _ => 0, fun _ => 0, fun _ => 0, fun _ _ => 0).
    (** models.py:245-254; None: a local loop is still running *)
    Definition cp_update_gp (sol : list (list Rops)) (ivs : list (list (nat -> cp_var))) : option (result (list (list (nat -> cp_var)))) :=
      match cp_unpack ivs with
      | Err e => Some (Err e)
      | Ok (Fps, gs, sls, rots) =>
          let upd c q := cp_update fuel (cp_grads sol c q) (t_at Fps c q) (v_at gs c q) (v_at sls c q) (t_at rots c q) in
          if all_done upd then
            let u c q := value no_state (upd c q) in
            let cs := seq 0 (num_cells f) in
            Some (Ok [map (fun c q => CT (fst (fst (fst (u c q))))) cs; map (fun c q => CV (snd (fst (fst (u c q))))) cs;
                      map (fun c q => CV (snd (fst (u c q)))) cs; map (fun c q => CT (snd (u c q))) cs])
          else None
      end.
    (** models.py:280-281 *)
    Definition P_to_sigma (Pk F : tensor) : tensor := mul3 (fun i j => 1 / det (K := Rops) 3 F * Pk i j) (trans3 F).
    (** models.py:269-291; avg_P is not returned *)
    Definition compute_avg_stress (sol : list (list Rops)) (ivs : list (list (nat -> cp_var))) : option (result (list tensor)) :=
      match cp_unpack ivs with
      | Err e => Some (Err e)
      | Ok (Fps, gs, sls, rots) =>
          let pk c q := cp_stress fuel (cp_grads sol c q) (t_at Fps c q) (v_at gs c q) (v_at sls c q) (t_at rots c q) in
          if all_done pk then
            let sigma c q := P_to_sigma (value (fun _ _ => 0) (pk c q)) (fun i j => cp_grads sol c q i j + eye3 i j) in
            Some (Ok (map (fun c i j => sum_n (K := Rops) (num_quads f) (fun q => sigma c q i j * get_JxW P f c q) / sum_n (K := Rops) (num_quads f) (fun q => get_JxW P f c q))
                      (seq 0 (num_cells f))))
          else None
      end.
  End Points.

  (** A pass of the loop: the problem given to the solver, the solution, the stresses reported and the internal variables after it. *)
  Record cp_step := mkCp { cp_problem : problem Rops cp_var; cp_sol : list (list Rops); cp_sigma : list tensor; cp_vars : list (list (nat -> cp_var)) }.
  (** polycrystal_neper.py:137-152 with set_params (models.py:256-257).  [solve k p sol] is update_Dirichlet_boundary_conditions with the k-th
      displacement followed by the solver, which starts from the last solution: any function of these. *)
  Fixpoint cp_loop (f : fe Rops) (P : list (list Rops)) (fuel : nat) (solve : nat -> problem Rops cp_var -> list (list Rops) -> result (list (list Rops)))
      (num_steps k : nat) (p : problem Rops cp_var) (sol : list (list Rops)) (params : list (list (nat -> cp_var))) : option (result (list cp_step)) :=
    match num_steps with
    | O => Some (Ok [])
    | Datatypes.S n =>
        let p' := with_vars p params in
        match solve k p' sol with
        | Err e => Some (Err e)
        | Ok sol' =>
            match compute_avg_stress f P fuel sol' params with
            | None => None | Some (Err e) => Some (Err e)
            | Some (Ok sigma) =>
                match cp_update_gp f P fuel sol' params with
                | None => None | Some (Err e) => Some (Err e)
                | Some (Ok params') =>
                    match cp_loop f P fuel solve n (Datatypes.S k) p' sol' params' with
                    | None => None | Some (Err e) => Some (Err e)
                    | Some (Ok rest) => Some (Ok (mkCp p' sol' sigma params' :: rest))
                    end
                end
            end
        end
    end.
End Crystal.
