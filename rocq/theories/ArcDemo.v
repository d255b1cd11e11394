(** Model of applications/arc_length/demo_analytical.py. *)
From Coq Require Import List Arith Bool Reals.
Import ListNotations.
Local Open Scope R_scope.

(** demo_analytical.py:13-17 *)
Definition internal_force (x : R) : R := - x ^ 2 + x.
Definition slope (x : R) : R := 1 - 2 * x.

(** demo_analytical.py:34-59: one pass of the loop from (u_vec, lamda); psi = 1.  None stands for nan: a zero slope or a zero a1 gives 0/0 or inf - inf,
    a negative discriminant the square root of a negative number. *)
Definition arc_pass (Delta_l prev_u_vec prev_lamda q_vec u_vec lamda : R) : option (R * R) :=
  let A_fn := slope u_vec in
  let res_vec := internal_force u_vec in
  if Req_EM_T A_fn 0 then None else
  let delta_u_bar := - (res_vec + lamda * q_vec) / A_fn in
  let delta_u_t := - q_vec / A_fn in
  let psi := 1 in
  let Delta_u := u_vec - prev_u_vec in
  let Delta_lamda := lamda - prev_lamda in
  let a1 := delta_u_t ^ 2 + psi ^ 2 * q_vec ^ 2 in
  let a2 := 2 * (Delta_u + delta_u_bar) * delta_u_t + 2 * psi ^ 2 * Delta_lamda * q_vec ^ 2 in
  let a3 := (Delta_u + delta_u_bar) ^ 2 + psi ^ 2 * Delta_lamda ^ 2 * q_vec ^ 2 - Delta_l ^ 2 in
  if Req_EM_T a1 0 then None else
  if Rlt_dec (a2 ^ 2 - 4 * a1 * a3) 0 then None else
  let delta_lamda1 := (- a2 + sqrt (a2 ^ 2 - 4 * a1 * a3)) / (2 * a1) in
  let delta_lamda2 := (- a2 - sqrt (a2 ^ 2 - 4 * a1 * a3)) / (2 * a1) in
  let delta_lamda := Rmax delta_lamda1 delta_lamda2 in
  let delta_u := delta_u_bar + delta_lamda * delta_u_t in
  Some (u_vec + delta_u, lamda + delta_lamda).
(** demo_analytical.py:35; in one dimension the norm is the absolute value *)
Definition arc_res (q_vec u_vec lamda : R) : R := Rabs (internal_force u_vec + lamda * q_vec).
(** res_val > tol; nan compares False *)
Definition above_tol (res_val : option R) : bool :=
  match res_val with Some r => if Rlt_dec (/ 10 ^ 6) r then true else false | None => false end.
(** demo_analytical.py:33-60: the loop; None when the fuel runs out, Some None when it returns nan *)
Fixpoint arc_loop (fuel : nat) (Delta_l prev_u_vec prev_lamda q_vec : R) (res_val : option R) (step : nat) (st : option (R * R)) : option (option (R * R)) :=
  if above_tol res_val || (step <=? 1)%nat then
    match fuel with
    | 0%nat => None
    | S fuel =>
        match st with
        | None => arc_loop fuel Delta_l prev_u_vec prev_lamda q_vec None (S step) None
        | Some (u_vec, lamda) => arc_loop fuel Delta_l prev_u_vec prev_lamda q_vec (Some (arc_res q_vec u_vec lamda)) (S step) (arc_pass Delta_l prev_u_vec prev_lamda q_vec u_vec lamda)
        end
    end
  else Some st.
(** demo_analytical.py:19-62 *)
Definition arc_length_solver (fuel : nat) (Delta_l prev_u_vec prev_lamda q_vec : R) : option (option (R * R)) :=
  arc_loop fuel Delta_l prev_u_vec prev_lamda q_vec (Some 1) 0 (Some (prev_u_vec, prev_lamda)).
(** demo_analytical.py:73-78: the points of the steps after the first one; ends with nan once a step gives nan *)
Fixpoint arc_steps (n fuel : nat) (Delta_l q_vec : R) (st : option (R * R)) : option (list (option (R * R))) :=
  match n with
  | 0%nat => Some [st]
  | S n =>
      match st with
      | None => match arc_steps n fuel Delta_l q_vec None with Some l => Some (None :: l) | None => None end
      | Some (u, l) =>
          match arc_length_solver fuel Delta_l u l q_vec with
          | None => None
          | Some st' => match arc_steps n fuel Delta_l q_vec st' with Some l' => Some (st :: l') | None => None end
          end
      end
  end.
