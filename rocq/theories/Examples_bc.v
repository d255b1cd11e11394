(** Concrete problems meeting the hypotheses of C20-C23. *)
From Coq Require Import List Arith Bool Lia ZArith Reals.
From Verif Require Import Num Arr ArrFacts Fe Problem SpecAssembly SolverBc SpecBc BcFacts BcMain
  Examples_assembly Properties_bc.
Import ListNotations.

(** Two variables; on the first, two groups that overlap at (node 0, component 0). *)
Definition exb_fe : fe Zops :=
  mkFe (points ex_fe) (cells ex_fe) 2 2 1 3 3 1 (shape_vals ex_fe) (shape_grads_ref ex_fe) (quad_weights ex_fe)
    (face_shape_vals ex_fe) (face_shape_grads_ref ex_fe) (face_quad_weights ex_fe) (face_normals ex_fe) (face_inds ex_fe)
    [[0; 3]; [1; 0]] [[0; 0]; [1; 0]] [[5; 7]; [8; 9]]%Z.
Definition exb_fe2 : fe Zops :=
  mkFe (points ex2_fe) (cells ex2_fe) 1 2 1 2 3 1 (shape_vals ex2_fe) (shape_grads_ref ex2_fe) (quad_weights ex2_fe)
    (face_shape_vals ex2_fe) (face_shape_grads_ref ex2_fe) (face_quad_weights ex2_fe) (face_normals ex2_fe) (face_inds ex2_fe)
    [[2]] [[0]] [[-4]]%Z.
Definition exb_p : problem Zops Z :=
  mkProblem [exb_fe; exb_fe2] (boundary_inds_list ex2_p) (maps ex2_p) [] [[]].

Example exb_bcs_ok : bcs_ok exb_p.
Proof.
  intros f [<-|[<-|[]]] i Hi; cbn in Hi.
  - destruct i as [|[|i]]; [| |lia]; (split; [reflexivity|split; [reflexivity|]]); cbn;
      repeat constructor; cbn; intuition congruence.
  - assert (i = 0) as -> by lia. split; [reflexivity|split; [reflexivity|]]. repeat constructor; auto.
Qed.
Example exb_range : forall f, In f (fes exb_p) -> bc_in_range f.
Proof.
  intros f [<-|[<-|[]]] n j b H; cbn in H; repeat (destruct H as [H|H]; [injection H as <- <- <-; cbn; lia|]); destruct H.
Qed.
(** the later group wins; both kinds of dof occur *)
Example exb_prescribed :
  prescribed exb_fe 0 0 = Some 9%Z /\ prescribed exb_fe 3 0 = Some 7%Z /\ prescribed exb_fe 2 0 = None.
Proof. repeat split. Qed.
Definition exb_dofs : list Zops := [1; 2; 3; 4; 5; 6; 7; 8; 9; 10; 11]%Z.
Definition exb_res : list Zops := [21; 22; 23; 24; 25; 26; 27; 28; 29; 30; 31]%Z.
Example exb_apply : apply_bc_vec exb_res exb_dofs exb_p 2%Z = [-17; 22; 23; -12; 25; 26; -7; 28; 29; 30; 19]%Z.
Proof. vm_compute. reflexivity. Qed.
Example exb_assign : assign_bc exb_dofs exb_p = [9; 2; 3; 8; 5; 6; 7; 8; 9; 10; -4]%Z.
Proof. vm_compute. reflexivity. Qed.
Example exb_copy : copy_bc exb_dofs exb_p = [1; 0; 0; 4; 0; 0; 7; 0; 0; 0; 11]%Z.
Proof. vm_compute. reflexivity. Qed.
Example exb_x0 : newton_x0 exb_p exb_dofs = [8; 0; 0; 4; 0; 0; 0; 0; 0; 0; -15]%Z.
Proof. vm_compute. reflexivity. Qed.

(** An exact increment for a non-trivial matrix: identity triplets are not available (the pattern
    is the assembled one), so take the values W that put 1 on the diagonal entries that occur. *)
Definition diag_once (I J : list nat) : list Zops :=
  map (fun k => if (nth k I 0 =? nth k J 0) &&
                   negb (existsb (fun k' => (nth k' I 0 =? nth k I 0) && (nth k' J 0 =? nth k J 0)) (seq 0 k))
                then 1%Z else 0%Z) (seq 0 (length I)).
Definition exb_W : list Zops := diag_once (p_I exb_p) (p_J exb_p).
Definition exb_inc : list Zops := newton_rhs (apply_bc_vec exb_res exb_dofs exb_p 1%Z).
Example exb_exact : forall g, g < all_dofs (global_shapes exb_p) ->
  matvec (all_dofs (global_shapes exb_p)) (tangent exb_p exb_W) (fun h => nth h exb_inc 0%Z) g
  = nth g (newton_rhs (apply_bc_vec exb_res exb_dofs exb_p 1%Z)) 0%Z.
Proof.
  assert (H : forallb (fun g => Z.eqb (matvec (all_dofs (global_shapes exb_p)) (tangent exb_p exb_W) (fun h => nth h exb_inc 0%Z) g)
     (nth g (newton_rhs (apply_bc_vec exb_res exb_dofs exb_p 1%Z)) 0%Z)) (seq 0 (all_dofs (global_shapes exb_p))) = true)
    by (vm_compute; reflexivity).
  intros g Hg. rewrite forallb_forall in H. apply Z.eqb_eq. apply H. apply in_seq. lia.
Qed.
Example exb_newton_step : vadd exb_dofs exb_inc = [9; -20; -20; 8; -20; -20; 7; -20; -20; -20; -4]%Z.
Proof. vm_compute. reflexivity. Qed.

(** C22 over R: the nonlinear problem of Examples_assembly with a constraint at node 1. *)
Definition exbR_fe : fe Rops :=
  mkFe (points exR_fe) (cells exR_fe) 1 1 1 2 0 0 (shape_vals exR_fe) (shape_grads_ref exR_fe) (quad_weights exR_fe)
    (face_shape_vals exR_fe) (face_shape_grads_ref exR_fe) (face_quad_weights exR_fe) (face_normals exR_fe) []
    [[1]] [[0]] [[3]]%R.
Definition exbR_p : problem Rops unit := mkProblem [exbR_fe] [] (maps exR_p) [] [].
Definition exbR_sol : list (list (list Rops)) := [[[1]; [2]; [5]]]%R.
Definition exbR_dsol : list (list (list Rops)) := [[[1]; [-1]; [4]]]%R.
Definition exbR_kf : nat -> face_in Rops unit -> list Rops := fun _ _ => [].
Example exbR_hyps :
  wf_problem exbR_p /\ 0 < p_num_cells exbR_p /\ sol_ok exbR_p exbR_sol /\ sol_ok exbR_p exbR_dsol /\ ivs_ok exbR_p /\
  kernels_ok exbR_p exbR_kf /\
  (forall c, c < p_num_cells exbR_p -> jvp_correct exR_jvp (cell_fun exbR_p [] exbR_sol c) (cell_values exbR_p exbR_sol c)) /\
  bcs_ok exbR_p /\ (forall f, In f (fes exbR_p) -> bc_in_range f).
Proof.
  split; [|split; [cbn; lia|split; [|split; [|split; [|split; [|split; [|split]]]]]]].
  - constructor.
    + intros f [<-|[]]; reflexivity.
    + intros f cell [<-|[]] [<-|[<-|[]]]; reflexivity.
    + intros f cell n [<-|[]] [<-|[<-|[]]] Hn; cbn in Hn; unfold num_total_nodes; cbn; lia.
    + intros b c fc [].
  - split; [reflexivity|]. intros v Hv; cbn in Hv. assert (v = 0) as -> by lia. split; [reflexivity|]. intros row Hr; cbn in Hr.
    intuition (subst; reflexivity).
  - split; [reflexivity|]. intros v Hv; cbn in Hv. assert (v = 0) as -> by lia. split; [reflexivity|]. intros row Hr; cbn in Hr.
    intuition (subst; reflexivity).
  - split; [intros iv []|split; [reflexivity|]]. intros s iv Hs; cbn in Hs; lia.
  - split; [|intros s Hs; cbn in Hs; lia]. intros ci H. unfold kernel_cell. cbn [maps exbR_p exR_p universal_kernel mass_map tensor_map option_map badd unscalar].
    now rewrite map_length.
  - intros c Hc. exact (exR_hyps (cell_values exbR_p exbR_sol c)).
  - intros f [<-|[]] i Hi; cbn in Hi. assert (i = 0) as -> by lia. split; [reflexivity|split; [reflexivity|]].
    repeat constructor; auto.
  - intros f [<-|[]] n j b H; cbn in H. destruct H as [H|[]]. injection H as <- <- <-. cbn; lia.
Qed.
