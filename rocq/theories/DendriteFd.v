(** Model of applications/dendrite/explicit_fd/example.py: Kobayashi's solidification by finite differences on an nx x ny grid.  Real arithmetic (the file
    works in single precision, line 18).  An array of shape (nx, ny) is an index function; the entries outside the grid are never read (C100_grid). *)
From Coq Require Import List Arith Bool Reals.
From Verif Require Import Num Fe Problem Dendrite.
Import ListNotations.
Local Open Scope R_scope.
Definition grid : Type := nat -> nat -> R.

(** input/json/params.json; J and the others as in the implicit example *)
Definition fd_example : dn_params := mkDn (1 / 100) (4 / 100) 6 (9 / 10) 10 1 (1 / 100) (3 / 10000) (16 / 10) (1 / 10000).

Section Grid.
  Variables (nx ny : nat).
  (** np.concatenate((m[:, :1], m[:, :-1]), axis=1), explicit_fd/example.py:45, 56, and the other three shifts (46-48, 57-59) *)
  Definition neg_y (m : grid) : grid := fun i j => match j with O => m i 0%nat | S j' => m i j' end.
  Definition pos_y (m : grid) : grid := fun i j => if (j =? ny - 1)%nat then m i (ny - 1)%nat else m i (S j).
  Definition neg_x (m : grid) : grid := fun i j => match i with O => m 0%nat j | S i' => m i' j end.
  Definition pos_x (m : grid) : grid := fun i j => if (i =? nx - 1)%nat then m (nx - 1)%nat j else m (S i) j.
  (** grad, explicit_fd/example.py:43-52 *)
  Definition fd_grad (m : grid) (dx dy : R) : grid * grid :=
    (fun i j => (pos_x m i j - neg_x m i j) / 2 / dx, fun i j => (pos_y m i j - neg_y m i j) / 2 / dy).
  (** laplace, explicit_fd/example.py:54-60 *)
  Definition fd_laplace (m : grid) (hx hy : R) : grid :=
    fun i j => (neg_x m i j + pos_x m i j - 2 * m i j) / hx ^ 2 + (neg_y m i j + pos_y m i j - 2 * m i j) / hy ^ 2.
  (** zero_flux_BC, explicit_fd/example.py:86-92: the four .at[..].set in this order *)
  Definition zero_flux_BC (arr : grid) : grid :=
    let arr1 : grid := fun i j => if (i =? 0)%nat then arr 1%nat j else arr i j in
    let arr2 : grid := fun i j => if (j =? 0)%nat then arr1 i 1%nat else arr1 i j in
    let arr3 : grid := fun i j => if (i =? nx - 1)%nat then arr2 (nx - 2)%nat j else arr2 i j in
    fun i j => if (j =? ny - 1)%nat then arr3 i (ny - 2)%nat else arr3 i j.
  (** get_theta, explicit_fd/example.py:62-75, at one place; the masks in the order of the code, a later one overwrites.  x / 0 is a number here; where
      f_x = 0 no mask that divides is true. *)
  Definition get_theta (f_x f_y : R) : R :=
    let theta := 0 in
    let theta := if Req_EM_T f_x 0 then (if Rlt_dec 0 f_y then 5 / 10 * PI else theta) else theta in
    let theta := if Req_EM_T f_x 0 then (if Rlt_dec f_y 0 then 15 / 10 * PI else theta) else theta in
    let theta := if Rlt_dec 0 f_x then (if Rlt_dec f_y 0 then 2 * PI + atan (f_y / f_x) else theta) else theta in
    let theta := if Rlt_dec 0 f_x then (if Rlt_dec 0 f_y then atan (f_y / f_x) else theta) else theta in
    if Rlt_dec f_x 0 then PI + atan (f_y / f_x) else theta.
  Variable P : dn_params.
  (** get_eps, explicit_fd/example.py:77-79 *)
  Definition get_eps (angle : R) : R * R :=
    (eps_bar P * (1 + delta P * cos (J_mode P * angle)), - eps_bar P * J_mode P * delta P * sin (J_mode P * angle)).
  Variables (hx hy : R).
  (** T_field, explicit_fd/example.py:81-83 *)
  Definition T_field (T d_eta : grid) : grid := fun i j => T i j + dt P * fd_laplace T hx hy i j + K_lat P * d_eta i j.
  (** phase_field, explicit_fd/example.py:94-111.  [eps2_x], [eps2_y] are variables of the enclosing function, not arguments; [chi] is the array of random
      numbers less 0.5, the same in every call since its key is made anew. *)
  Definition phase_field (eps2_x eps2_y : grid) (chi : grid) (dx dy : R) (eps eps_prime p_x p_y p T : grid) : grid :=
    let part1 := fst (fd_grad (fun i j => eps i j * eps_prime i j * p_y i j) dx dy) in
    let part2 := snd (fd_grad (fun i j => eps i j * eps_prime i j * p_x i j) dx dy) in
    fun i j =>
    let part3 := eps2_x i j * p_x i j + eps2_y i j * p_y i j in
    let part4 := (eps i j) ^ 2 * fd_laplace p dx dy i j in
    let m := alpha P / PI * atan (gamma P * (T_eq P - T i j)) in
    let term1 := - part1 i j + part2 i j + part3 + part4 in
    let term2 := p i j * (1 - p i j) * (p i j - 5 / 10 + m) in
    let noise := a_noise P * p i j * (1 - p i j) * chi i j in
    p i j + dt P / tau P * (term1 + term2 + noise).
  (** jax.jit of a function that reads variables of the enclosing function: the first call is traced and the arrays found then become constants of the
      compiled function; later calls with the same shapes and dtypes run it again.  [baked] is what the earlier trace has found, if there was one.  All calls
      of phase_field in a run have the same shapes, dtypes and static arguments. *)
  Definition jit_captured (baked : option (grid * grid)) (now : grid * grid) : grid * grid := match baked with Some e => e | None => now end.
  (** one pass of the loop, explicit_fd/example.py:148-159: the constants of the compiled phase_field afterwards, and the new fields *)
  Definition fd_pass (chi : grid) (baked : option (grid * grid)) (p T : grid) : option (grid * grid) * (grid * grid) :=
    let '(p_x, p_y) := fd_grad p hx hy in
    let theta : grid := fun i j => get_theta (p_x i j) (p_y i j) in
    let eps : grid := fun i j => fst (get_eps (theta i j)) in
    let eps_prime : grid := fun i j => snd (get_eps (theta i j)) in
    let '(eps2_x, eps2_y) := fd_grad (fun i j => (eps i j) ^ 2) hx hy in
    let c := jit_captured baked (eps2_x, eps2_y) in
    let p_new := phase_field (fst c) (snd c) chi hx hy eps eps_prime p_x p_y p T in
    let p_new := zero_flux_BC p_new in
    let d_p : grid := fun i j => p_new i j - p i j in
    let T_new := T_field T d_p in
    let T_new := zero_flux_BC T_new in
    (Some c, (p_new, T_new)).
  (** the loop, explicit_fd/example.py:147-175: the fields after every pass; plots not modelled *)
  Fixpoint fd_loop (chi : grid) (n : nat) (baked : option (grid * grid)) (p T : grid) : list (grid * grid) :=
    match n with
    | O => []
    | S n' => let '(baked', (p', T')) := fd_pass chi baked p T in (p', T') :: fd_loop chi n' baked' p' T'
    end.
  (** the circle, explicit_fd/example.py:143-145: the mask has shape (ny, nx), entry (r, c) compares column c with nx / 2 and row r with ny / 2; boolean
      indexing of an (nx, ny) array with it raises unless nx = ny.   *)
  Definition fd_seed : result grid :=
    if (nx =? ny)%nat then Ok (fun r c => if Rlt_dec ((INR c - INR nx / 2) ^ 2 + (INR r - INR ny / 2) ^ 2) 20 then 1 else 0) else Err IndexErr.
  (** simulation(), explicit_fd/example.py:113-175; nIter + 1 = [n] *)
  Definition fd_run (chi : grid) (n : nat) : result (list (grid * grid)) :=
    bind fd_seed (fun p => Ok (fd_loop chi n None p (fun _ _ => 0))).
End Grid.
