(** Concrete sub-problems, linear solvers, meshes and optimization runs. *)
From Coq Require Import List Arith Bool Lia Reals Lra.
From Verif Require Import Num Arr Fe Problem XNum Newton Mma SpecMma MmaFacts MmaMain MmaKkt MmaOpt SpecOpt OptFacts.
Import ListNotations.
Local Open Scope R_scope.

(** ** Two densities, one constraint *)
Definition o_rho : nat -> xr := fun i => match i with 0%nat => Fin (1 / 2) | _ => Fin (1 / 4) end.
Definition o_old : nat -> xr := fun i => match i with 0%nat => Fin (3 / 10) | _ => Fin (4 / 10) end.
(** the fourth design, previous designs and asymptotes as they come *)
Definition o_M : mma XF := mkMma (F := XF) 4 o_old o_rho (fun _ => Fin (- (1))) (fun _ => Fin 2) (fun _ => Fin 0) (fun _ => Fin 1) (Fin (1 / 5))
  (Fin 1) (fun _ => Fin 0) (fun _ => Fin 10000) (fun _ => Fin 0).
Definition o_df0 : nat -> xr := fun i => match i with 0%nat => Fin (- (3)) | _ => Fin 2 end.
Definition o_f : nat -> xr := fun _ => Fin (1 / 10).
Definition o_df : nat -> nat -> xr := fun _ _ => Fin 1.
Ltac fin := first [eexists; split; [reflexivity|exact I] | eexists; split; [reflexivity|lra]].
Ltac upto := let j := fresh in let H := fresh in intros j H; destruct j as [|[|j]]; try lia.
Example o_design : design_ok 2 o_M o_rho.
Proof. unfold design_ok. split; [|repeat split; try upto; fin]. upto; repeat split; do 2 eexists; (split; [reflexivity|]; split; [reflexivity|]); lra. Qed.
Example o_scaling : scaling_ok 1 o_M.
Proof. repeat split; try upto; fin. Qed.
Example o_values : values_ok 1 2 o_df0 o_f o_df.
Proof. repeat split; try upto; fin. Qed.
(** a linear solver that always answers (0, 1, 2, ...) *)
Definition o_solve : nat -> (nat -> nat -> XF) -> (nat -> XF) -> result (nat -> XF) := fun _ _ _ => Ok (fun i => Fin (INR i)).
Example o_solve_finite : solves_finite o_solve.
Proof. intros k A b x H i Hi. apply Ok_inj in H. subst x. fin. Qed.
Example o_solve_always : solves_always o_solve.
Proof. intros k A b. eexists. reflexivity. Qed.
Definition o_P : subproblem XF := mma_problem 2 o_M o_rho o_df0 o_f o_df.
Example o_wp : well_posed 1 2 o_P.
Proof. apply approx_well_posed; [exact o_design|exact o_values|exact o_scaling]. Qed.
(** the sub-problem is solved, with at least one trial step *)
Example o_run : exists st, subsolv 1 2 o_P o_solve 7 (Fin (1 / 10000000) : XF) = Done (Ok st).
Proof. apply subsolv_total; [exact o_solve_always|lia|lia]. Qed.
Example o_trial : exists st, visited 1 2 o_P o_solve st /\ st <> start o_P.
Proof.
  destruct (direction_total o_solve o_solve_always 1 2 o_P (Fin 1 : XF) (start o_P)) as (d & E).
  assert (EZ : vz d = Fin 1).
  { unfold direction in E. cbn [Nat.ltb Nat.leb] in E. unfold few, o_solve in E. unfold bind in E. cbv beta iota zeta in E. apply Ok_inj in E. subst d. cbn [vz]. reflexivity. }
  destruct (first_steg_total 1 2 ltac:(lia) o_P (start o_P) d) as (s & ES).
  assert (V : visited 1 2 o_P o_solve (move_by (start o_P) d (xdiv s (Fin (2 ^ 0)) : XF))) by (eapply visited_trial; [constructor|exact E|exact ES]).
  exists (move_by (start o_P) d (xdiv s (Fin (2 ^ 0)) : XF)). split; [exact V|].
  destruct (interior_real 1 2 o_P (start o_P) (proj1 (well_posed_real 1 2 o_P o_wp)) (visited_interior 1 2 o_P o_solve o_wp o_solve_finite _ (visited_start 1 2 o_P o_solve))) as (ET & IN).
  destruct (trial 1 2 o_P (real_S o_P) (proj1 (well_posed_real 1 2 o_P o_wp)) (proj2 (well_posed_real 1 2 o_P o_wp)) o_solve o_solve_finite (start o_P) _ 1 d s ET IN E ES) as (rd & t & _ & -> & P & _).
  intros C. apply (f_equal vz) in C. unfold move_by in C. cbn [vz] in C. rewrite EZ in C. rewrite xdivF in C by lra. unfold start in C. cbn [vz] in C. ops. cbn [xmul xadd] in C. inversion C. lra.
Qed.

(** ** A real sub-problem with one variable and one constraint; Cramer's rule *)
Definition r_T : subproblem RF := mkSub (F := RF) (fun _ => -1) (fun _ => 2) (fun _ => 0) (fun _ => 1) (fun _ => 1) (fun _ => 3) (fun _ _ => 2) (fun _ _ => 1)
  1 (fun _ => 0) (fun _ => 1) (fun _ => 10) (fun _ => 0).
Definition r_st : state RF := mkSt (F := RF) (fun _ => 1 / 2) (fun _ => 1) 1 (fun _ => 1) (fun _ => 2) (fun _ => 2) (fun _ => 5) 1 (fun _ => 1).
Definition cramer : nat -> (nat -> nat -> RF) -> (nat -> RF) -> result (nat -> RF) := fun k A b =>
  if (k =? 2)%nat then
    let det : R := A 0%nat 0%nat * A 1%nat 1%nat - A 0%nat 1%nat * A 1%nat 0%nat in
    if Req_EM_T det 0 then Err ValueErr
    else Ok (fun i => match i with 0%nat => (b 0%nat * A 1%nat 1%nat - A 0%nat 1%nat * b 1%nat) / det | _ => (A 0%nat 0%nat * b 1%nat - b 0%nat * A 1%nat 0%nat) / det end)
  else Err ValueErr.
Example cramer_exact : solves_exactly cramer.
Proof.
  intros k A b x H i Hi. unfold cramer in H. destruct (Nat.eqb_spec k 2) as [->|]; [|discriminate]. cbv zeta in H. destruct (Req_EM_T _ 0) as [|D]; [discriminate|]. apply Ok_inj in H. subst x.
  destruct i as [|[|i]]; [| |lia]; unfold sum_n, sum_over, sumK; cbn [seq map fold_right]; ops; match goal with |- ?a = ?b => change (@eq R a b) end; field; exact D.
Qed.
Example r_interior : real_interior 1 1 r_T r_st.
Proof. unfold real_interior, r_T, r_st. cbn. repeat split; intros; lra. Qed.

Example r_direction : exists d, direction 1 1 r_T (1 / 10 : RF) r_st cramer = Ok d.
Proof.
  unfold direction. cbn [Nat.ltb Nat.leb]. unfold many, cramer at 1. cbn [Nat.eqb Nat.add]. cbv zeta.
  destruct (Req_EM_T _ 0) as [D|_]; [|eexists; reflexivity]. exfalso. revert D. unfold AA_many. cbn [Nat.ltb Nat.leb].
  unfold Axx, axz, azz, diagx, diaglamyiinv, diaglamyi, GG, plam, qlam, dot, ux3, xl3, ux2, xl2, ux1, xl1, diaglam, diagyinv, diagy, r_T, r_st. cbn [Nat.eqb sum_n low upp alfa beta p0 q0 PP QQ a0 aa bb cc dd vx vy vz vlam vxsi veta vmu vzet vs]. ops. intros D.
  unfold sum_n, sum_over, sumK in D. cbn [seq map fold_right] in D. ops. match type of D with ?a = ?b => change (@eq R a b) in D end. lra.
Qed.

(** ** A strip of twenty square cells *)
Definition s_points : list (list xr) := flat_map (fun k => [[Fin (INR k); Fin 0]; [Fin (INR k); Fin 1]]) (seq 0 21).
Definition s_cells : list (list nat) := map (fun k => [2 * k; 2 * k + 2; 2 * k + 3; 2 * k + 1]%nat) (seq 0 20).
Definition s_JxW : list (list xr) := repeat [Fin (1 / 2); Fin (1 / 2)] 20.
Definition s_flex : list nat := seq 0 20.
(** all twenty cells in order: correct if there are exactly twenty *)
Definition s_query : list (list xr) -> nat -> list (xr * nat) := fun cs i => map (fun j => (Fin (dist 2 cs i j), j)) (seq 0 20).
Example s_volume : total_volume s_JxW = Fin 20.
Proof. unfold total_volume, s_JxW. cbn [repeat map]. unfold sumK. cbn [fold_right]. ops. cbn [xadd]. f_equal. lra. Qed.
Example s_mesh : mesh_ok 2 s_points s_cells s_JxW s_flex.
Proof.
  unfold mesh_ok. split; [lia|]. split; [|split; [|split]].
  - intros p H. unfold s_points in H. apply in_flat_map in H as (k & _ & [<-|[<-|[]]]); (split; [reflexivity|repeat constructor; fin]).
  - intros c H. unfold s_cells in H. apply in_map_iff in H as (k & <- & H). apply in_seq in H. split; [discriminate|]. change (length s_points) with 42%nat. repeat (apply Forall_cons; [lia|]). apply Forall_nil.
  - apply Forall_forall. intros c H. apply in_seq in H. change (length s_cells) with 20%nat. lia.
  - rewrite s_volume. fin.
Qed.
Example s_query_ok : query_correct 2 s_query (flex_centroids 2 s_points s_cells s_flex).
Proof.
  intros i Hi. change (length (flex_centroids 2 s_points s_cells s_flex)) with 20%nat in *. split; [reflexivity|]. split; [lia|]. intros _. unfold s_query. rewrite map_map. cbn [snd]. rewrite map_id. split; [apply seq_NoDup|]. split.
  - intros d j H. apply in_map_iff in H as (j' & E & H). inversion E; subst. apply in_seq in H. split; [lia|reflexivity].
  - intros j Hj H. exfalso. apply H. apply in_seq. lia.
Qed.
Example s_few : forall i l, NoDup l -> (forall k, In k l -> (k < length s_flex)%nat /\ dist 2 (flex_centroids 2 s_points s_cells s_flex) i k < radius 2 s_cells s_JxW) -> (length l <= 20)%nat.
Proof.
  intros i l ND H. rewrite <- (seq_length 20 0). apply NoDup_incl_length; [exact ND|]. intros k Hk. apply in_seq. destruct (H k Hk) as (A & _). change (length s_flex) with 20%nat in A. lia.
Qed.
Example s_filter : exists ft, compute_filter_kd_tree 2 s_points s_cells s_JxW s_flex s_query = Ok ft /\ filter_ok 20 ft.
Proof. destruct (compute_correct 2 s_points s_cells s_JxW s_flex s_query s_mesh s_query_ok) as (ft & E & FO & _); [cbn; lia|]. exists ft. auto. Qed.
(** handles: J = sum of rho_i (1 - rho_i), one constraint rho_0 <= 1/2 *)
Definition s_obj : nat -> (nat -> xr) -> result (xr * (nat -> xr)) := fun _ rho => Ok (sum_n (K := Xops) 20 (fun i => xmul (rho i) (xsub (Fin 1) (rho i))), fun i => xsub (Fin 1) (xmul (Fin 2) (rho i))).
Definition s_cons : (nat -> xr) -> nat -> result ((nat -> xr) * (nat -> nat -> xr)) := fun rho _ => Ok (fun _ => xsub (rho 0%nat) (Fin (1 / 2)), fun _ i => if (i =? 0)%nat then Fin 1 else Fin 0).
Example s_handles : handles_finite 1 20 s_obj s_cons.
Proof.
  split.
  - intros l rho J dJ R E i Hi. unfold s_obj in E. inversion E; subst. destruct (R i Hi) as (r & -> & _). fin.
  - intros l rho vc dvc R E. unfold s_cons in E. inversion E; subst. split.
    + intros i Hi. destruct (R 0%nat ltac:(lia)) as (r & -> & _). fin.
    + intros i Hi j Hj. destruct (j =? 0)%nat; fin.
Qed.
Example s_start : densities 20 (fun _ => Fin (1 / 2)).
Proof. intros i Hi. fin. Qed.
