(** Concrete problems and runs for the solver properties (C24-C30). *)
From Coq Require Import String List Arith Bool Lia Reals Lra ZArith Permutation.
From Verif Require Import Num Arr Fe Problem SpecAssembly SolverBc SpecBc XNum PyDict Options OptionsFacts LinSolve Newton
  SpecNewton Amgx SolverCache SpecSolver.
Import ListNotations.
Local Open Scope string_scope.

(** ** C24: two variables with one node each; the first is constrained. *)
Definition c_fe (ns vs : list (list nat)) (ws : list (list Zops)) : fe Zops :=
  mkFe (K := Zops) [[0]]%Z [[0]] 1 1 1 1 0 0
    (fun _ _ => 1%Z) (fun _ _ _ => 0%Z) (fun _ => 1%Z) (fun _ _ _ => 0%Z) (fun _ _ _ _ => 0%Z)
    (fun _ _ => 1%Z) (fun _ _ => 0%Z) [] ns vs ws.
Definition c_p : problem Zops unit :=
  mkProblem [c_fe [[0]] [[0]] [[5%Z]]; c_fe [] [] []] [] (mkMaps None None None None None) [] [].
Definition c_W : list Zops := [7; 7; 7; 7]%Z.
(** release the first variable, constrain the second, with tangent requests before and after *)
Definition c_history : list (op Zops) :=
  [GetA c_W; UpdateBC 0 None; GetA c_W; UpdateBC 1 (Some ([Loc1 (fun _ => true)], [0], [fun _ => 3%Z])); GetA c_W].
Example c_history_ok : Forall updates_and_requests c_history.
Proof. repeat constructor. Qed.
Example c_fresh_rows : let s := run (initial_state c_p) c_history in
  map (fun g => map (snd (get_A_cached s c_W) g) [0; 1]) [0; 1] = [[7; 7]; [0; 1]]%Z.
Proof. reflexivity. Qed.
(** moving the lists between the variables instead leaves the old row *)
Definition c_moved := run (initial_state c_p) [GetA c_W; MoveLists 0 1].
Example c_stale : map (fun g => map (snd (get_A_cached c_moved c_W) g) [0; 1]) [0; 1] = [[1; 0]; [7; 7]]%Z /\
  map (fun g => map (tangent (s_p c_moved) c_W g) [0; 1]) [0; 1] = [[7; 7]; [0; 1]]%Z.
Proof. split; reflexivity. Qed.

(** ** C25, C26: option dicts *)
Definition o_flat : dict unit := [("petsc_solver", VDict []); ("tol", VNum (Fin (/ 10 ^ 5))); ("colour", VStr "red")].
Definition o_nested : dict unit := [("tol", VNum (Fin (/ 10 ^ 5))); ("linear", VDict [("petsc_solver", VDict [])])].
Example o_no_method : forall m, In m METHOD_KEYS -> lookup o_flat m = None.
Proof. intros m [<-|[<-|[<-|[]]]]; reflexivity. Qed.
(** the docstring's example of the two forms *)
Example o_nested_form : nested_form o_flat o_nested.
Proof.
  split.
  - intros k [<-|[<-|[<-|[<-|[]]]]]; reflexivity.
  - cbn. exists [("petsc_solver", VDict [])]. split; [reflexivity|]. split.
    + intros k [<-|[<-|[<-|[<-|[<-|[]]]]]]; reflexivity.
    + intros k H. cbn. destruct (k =? "petsc_solver") eqn:E; [|reflexivity]. apply String.eqb_eq in E as ->.
      exfalso. apply H. cbn. tauto.
Qed.

(** ** A problem with one node, one unknown and an arbitrary residual g *)
Definition s_fe : fe Xops := mkFe (K := Xops) [[Fin 0]] [[0]] 1 1 1 1 0 0
    (fun _ _ => Fin 1) (fun _ _ _ => Fin 0) (fun _ => Fin 1) (fun _ _ _ => Fin 0) (fun _ _ _ _ => Fin 0)
    (fun _ _ => Fin 1) (fun _ _ => Fin 0) [] [] [] [].
Definition s_prob (g : xr -> xr) : problem Xops unit :=
  mkProblem [s_fe] [] (mkMaps None None (Some (fun ci => [g (nth 0 (ci_sol ci) (Fin 0))])) None None) [] [].
Lemma s_residual g pts u : compute_residual xsqrt (s_prob g) pts [[[u]]] = Ok [[[xadd (Fin 0) (g u)]]].
Proof. cbv -[Rplus IZR xadd xmul]. reflexivity. Qed.
Lemma s_newton_residual g pts u : newton_residual (s_prob g) pts None [u] [xadd (Fin 0) (g u)].
Proof.
  exists [u], [[[xadd (Fin 0) (g u)]]]. split; [reflexivity|]. split; [reflexivity|]. split; [apply s_residual|].
  cbv -[Rplus IZR xadd xmul]. reflexivity.
Qed.
Lemma xnorm1 a : xnorm [Fin a] = Fin (Rabs a).
Proof.
  pose proof (xnorm_Fin [a]) as E. cbn [map fold_right] in E. rewrite Rplus_0_r in E. rewrite <- sqrt_Rsqr_abs. exact E.
Qed.
Lemma s_helper jvp g pts (u : xr) : exists A, newton_update_helper jvp (s_prob g) pts None [u] = Ok ([xadd (Fin 0) (g u)], A).
Proof. cbv -[Rplus IZR xadd xmul]. eexists. reflexivity. Qed.
Lemma s_res_norm g pts d i alpha : res_norm_fn (s_prob g) pts [d] [i] alpha =
  Ok (xnorm [xadd (Fin 0) (g (xadd d (xmul alpha i)))]).
Proof. cbv -[Rplus IZR xadd xmul xsqrt xnorm]. reflexivity. Qed.

(** C30: a residual that is 1 at the full step, NaN at 1/2, 5 at 1/4 and 6 elsewhere. *)
Definition nan_g (u : xr) : xr :=
  if xeqb u (Fin 1) then Fin 1 else if xeqb u (Fin (/ 2)) then NaN else if xeqb u (Fin (/ 4)) then Fin 5 else Fin 6.
Lemma Req_l a b : a = b -> Reqb a b = true.
Proof. intros. now apply Reqb_true. Qed.
Lemma Req_n a b : a <> b -> Reqb a b = false.
Proof. intros. apply not_true_iff_false. rewrite Reqb_true. exact H. Qed.
Lemma nan_g_norm a x : nan_g (Fin a) = Fin x -> xnorm [xadd (Fin 0) (nan_g (Fin a))] = Fin (Rabs x).
Proof. intros ->. cbn [xadd]. rewrite xnorm1. now rewrite Rplus_0_l. Qed.
Ltac nan_val := unfold nan_g; cbn [xeqb]; repeat first [rewrite Req_l by lra | rewrite Req_n by lra]; reflexivity.
Lemma nan_1 : nan_g (xadd (Fin 0) (xmul (Fin 1) (Fin 1))) = Fin 1.
Proof. cbn [xadd xmul]. nan_val. Qed.
Lemma nan_2 : nan_g (xadd (Fin 0) (xmul (xmul (Fin 1) (Fin (/ 2))) (Fin 1))) = NaN.
Proof. cbn [xadd xmul]. nan_val. Qed.
Lemma nan_4 : nan_g (xadd (Fin 0) (xmul (xmul (xmul (Fin 1) (Fin (/ 2))) (Fin (/ 2))) (Fin 1))) = Fin 5.
Proof. cbn [xadd xmul]. nan_val. Qed.
Lemma nan_8 : nan_g (xadd (Fin 0) (xmul (xmul (xmul (xmul (Fin 1) (Fin (/ 2))) (Fin (/ 2))) (Fin (/ 2))) (Fin 1))) = Fin 6.
Proof. cbn [xadd xmul]. nan_val. Qed.
Lemma nan_line_search pts : line_search (s_prob nan_g) pts [Fin 0] [Fin 1] = Ok [Fin (/ 4)].
Proof.
  unfold line_search. rewrite s_res_norm, nan_1. cbn [bind halve]. rewrite !s_res_norm, nan_2. cbn [bind].
  change (xnorm [xadd (Fin 0) NaN]) with NaN. unfold xgtb at 1.
  replace (xltb (xnorm [xadd (Fin 0) (Fin 1)]) NaN) with false by (now destruct (xnorm _)).
  rewrite nan_4, nan_8. cbn [bind]. unfold xgtb at 1. change (xltb NaN (xnorm [xadd (Fin 0) (Fin 5)])) with false. cbv iota.
  cbn [bind xadd]. rewrite !xnorm1. unfold xgtb. cbn [xltb].
  replace (Rltb (Rabs (0 + 5)) (Rabs (0 + 6))) with true
    by (symmetry; apply Rltb_true; rewrite !Rabs_right by lra; lra).
  cbn [xmul bind]. unfold add_vec. cbn. f_equal. f_equal. f_equal. lra.
Qed.

Lemma nan_worse : exists (p : problem Xops unit) pts dofs inc d r1 r,
  line_search p pts dofs inc = Ok d /\
  newton_residual p pts None (vadd dofs (vscale (Fin 1 : Xops) inc)) r1 /\ newton_residual p pts None d r /\
  xgtb (xnorm r) (xnorm r1) = true.
Proof.
  exists (s_prob nan_g), [], [Fin 0], [Fin 1], [Fin (/ 4)].
  exists [xadd (Fin 0) (nan_g (xadd (Fin 0) (xmul (Fin 1) (Fin 1))))], [xadd (Fin 0) (nan_g (Fin (/ 4)))].
  split; [apply nan_line_search|]. split; [apply s_newton_residual|]. split; [apply s_newton_residual|].
  rewrite nan_1. assert (E2 : nan_g (Fin (/ 4)) = Fin 5) by nan_val. rewrite E2. cbn [xadd]. rewrite !xnorm1. unfold xgtb. cbn [xltb].
  apply Rltb_true. rewrite !Rabs_right by lra. lra.
Qed.

(** Newton on a constant residual with a linear solver that always returns 0. *)
Definition stuck_B : backends unit := mkBackends
  (fun _ _ _ _ _ => Err RuntimeErr) (fun _ _ _ _ _ => Err RuntimeErr) (fun _ _ _ => Ok [Fin 0])
  (fun _ _ _ _ _ _ x => (Err RuntimeErr, x)) (fun _ _ _ _ _ _ => Err RuntimeErr) false.
Definition sp_cfg : dict unit := [("linear", VDict [("spsolve_solver", VDict [])])].
Definition one_g (_ : xr) : xr := Fin 1.
Lemma pow10 n : (0 < 10 ^ n)%R.
Proof. apply pow_lt. lra. Qed.
Lemma small n : (1 <= n)%nat -> (/ 10 ^ n < 1)%R.
Proof.
  intros H. rewrite <- Rinv_1. apply Rinv_lt_contravar; [pose proof (pow10 n); lra|].
  apply Rlt_pow_R1; [lra|lia].
Qed.
Lemma stuck_runs jvp pts fuel : forall A it,
  newton_loop stuck_B jvp (s_prob one_g) pts None fuel (Fin (/ 10 ^ 8)) (Fin (/ 10 ^ 6)) (Fin 1)
    (mkState [Fin 0] [Fin 1] A it sp_cfg) = Running.
Proof.
  induction fuel as [|fuel IH]; intros A it; cbn [newton_loop st_res st_iters st_A st_dofs st_cfg].
  - rewrite xnorm1, Rabs_R1. unfold keeps_going, xgtb. cbn [xdiv]. destruct (Req_EM_T 1 0); [lra|]. cbn [xltb].
    replace (1 / 1)%R with 1%R by lra. pose proof (small 8 ltac:(lia)). pose proof (small 6 ltac:(lia)).
    now rewrite !(proj2 (Rltb_true _ _)) by assumption.
  - rewrite xnorm1, Rabs_R1. unfold keeps_going, xgtb. cbn [xdiv]. destruct (Req_EM_T 1 0); [lra|]. cbn [xltb].
    replace (1 / 1)%R with 1%R by lra. pose proof (small 8 ltac:(lia)). pose proof (small 6 ltac:(lia)).
    rewrite !(proj2 (Rltb_true _ _)) by assumption. cbn [andb].
    assert (E : newton_step stuck_B (s_prob one_g) pts None it [Fin 1] A [Fin 0] sp_cfg = Ok ([Fin (0 + 0)] : list Xops, sp_cfg)) by reflexivity.
    rewrite E. replace (0 + 0)%R with 0%R by ring. destruct (s_helper jvp one_g pts (Fin 0)) as [A' E']. rewrite E'. cbn [xadd one_g].
    rewrite Rplus_0_l. apply IH.
Qed.
Lemma stuck_forever jvp pts fuel :
  solve_newton (fun _ => []) stuck_B jvp (s_prob one_g) pts None fuel sp_cfg = Running.
Proof.
  unfold solve_newton. change (initial_dofs _ (s_prob one_g) None sp_cfg) with (Ok [Fin 0]).
  destruct (s_helper jvp one_g pts (Fin 0)) as [A' E']. rewrite E'. cbn [xadd one_g]. rewrite Rplus_0_l, xnorm1, Rabs_R1.
  change (num_option sp_cfg "rel_tol" (Fin (/ 10 ^ 8))) with (Ok (Fin (/ 10 ^ 8))).
  change (num_option sp_cfg "tol" (Fin (/ 10 ^ 6))) with (Ok (Fin (/ 10 ^ 6))).
  cbv iota. now rewrite stuck_runs.
Qed.

(** ** Two nodes, the first prescribed to 5, the residual the difference of the two values *)
Definition n_fe : fe Xops := mkFe (K := Xops) [[Fin 0]; [Fin 1]] [[0; 1]] 1 1 1 2 0 0
    (fun _ _ => Fin 1) (fun _ _ _ => Fin 0) (fun _ => Fin 1) (fun _ _ _ => Fin 0) (fun _ _ _ _ => Fin 0)
    (fun _ _ => Fin 1) (fun _ _ => Fin 0) [] [[0]] [[0]] [[Fin 5]].
Definition n_kernel (ci : cell_in Xops unit) : list Xops :=
  let u := nth 0 (ci_sol ci) (Fin 0) in let w := nth 1 (ci_sol ci) (Fin 0) in [xsub u w; xsub w u].
Definition n_prob : problem Xops unit := mkProblem [n_fe] [] (mkMaps None None (Some n_kernel) None None) [] [].
(** the kernel is linear *)
Definition n_jvp : (list Xops -> list Xops) -> list Xops -> list Xops -> list Xops := fun f _ v => f v.
Definition n_B : backends unit := mkBackends
  (fun _ _ _ _ _ => Err RuntimeErr) (fun _ _ _ _ _ => Err RuntimeErr) (fun _ _ _ => Ok [Fin 5; Fin 5])
  (fun _ _ _ _ _ _ x => (Err RuntimeErr, x)) (fun _ _ _ _ _ _ => Err RuntimeErr) false.
Definition n_pts := map points (fes n_prob).

Example n_ok : wf_problem n_prob /\ 0 < p_num_cells n_prob /\ ivs_ok n_prob /\ kernels_ok n_prob (fun _ _ => []) /\ bcs_ok n_prob.
Proof.
  split; [|split; [cbn; lia|split; [|split]]].
  - constructor.
    + intros f [<-|[]]. reflexivity.
    + intros f cell [<-|[]] [<-|[]]. reflexivity.
    + intros f cell n [<-|[]] [<-|[]] Hn; cbn in Hn; unfold num_total_nodes; cbn; lia.
    + intros b c fc [].
  - split; [intros iv []|split; [reflexivity|]]. intros s iv Hs. cbn in Hs. lia.
  - split; [reflexivity|]. intros s Hs. cbn in Hs. lia.
  - intros f [<-|[]] i Hi. cbn in Hi. assert (i = 0) as -> by lia. cbn. repeat split; try reflexivity. repeat constructor. intros [].
Qed.
Lemma n_helper a b : exists A, newton_update_helper n_jvp n_prob n_pts None [Fin a; Fin b] =
   Ok ([Fin (a + - (5) * 1); Fin (0 + (b + - a))], A).
Proof. cbv -[Rplus IZR Rmult Ropp]. eexists. reflexivity. Qed.
Lemma xnorm2 a b : xnorm [Fin a; Fin b] = Fin (sqrt (a * a + b * b)).
Proof. pose proof (xnorm_Fin [a; b]) as E. cbn [map fold_right] in E. rewrite Rplus_0_r in E. exact E. Qed.
(** Newton converges in one iteration to (5, 5). *)
Example n_run : solve_newton (fun _ => []) n_B n_jvp n_prob n_pts None 3 sp_cfg
  = Done (Ok (mkOut [[[Fin 5]; [Fin 5]]] 1 sp_cfg)).
Proof.
  unfold solve_newton. change (initial_dofs _ n_prob None sp_cfg) with (Ok [Fin 0; Fin 0]).
  destruct (n_helper 0 0) as [A E]. rewrite E.
  change (num_option sp_cfg "rel_tol" (Fin (/ 10 ^ 8))) with (Ok (Fin (/ 10 ^ 8))).
  change (num_option sp_cfg "tol" (Fin (/ 10 ^ 6))) with (Ok (Fin (/ 10 ^ 6))).
  rewrite xnorm2. replace (sqrt _) with 5%R.
  2:{ match goal with |- _ = sqrt ?e => replace e with (5 * 5)%R by ring end. now rewrite sqrt_square by lra. }
  cbv iota. assert (G : forall r, keeps_going (Fin (/ 10 ^ 8)) (Fin (/ 10 ^ 6)) (Fin 5) (Fin r) = Rltb (/ 10 ^ 8) (r / 5) && Rltb (/ 10 ^ 6) r).
  { intros r. unfold keeps_going, xgtb. cbn [xdiv]. destruct (Req_EM_T 5 0); [lra|]. reflexivity. }
  cbn [newton_loop st_res st_iters st_A st_dofs st_cfg]. rewrite xnorm2. replace (sqrt _) with 5%R.
  2:{ match goal with |- _ = sqrt ?e => replace e with (5 * 5)%R by ring end. now rewrite sqrt_square by lra. }
  rewrite G. pose proof (small 8 ltac:(lia)). pose proof (small 6 ltac:(lia)).
  rewrite !(proj2 (Rltb_true _ _)) by lra. cbn [andb].
  assert (S : newton_step n_B n_prob n_pts None 0 [Fin (0 + - (5) * 1); Fin (0 + (0 + -0))] A [Fin 0; Fin 0] sp_cfg
              = Ok ([Fin (0 + 5); Fin (0 + 5)] : list Xops, sp_cfg)) by reflexivity.
  rewrite S. rewrite Rplus_0_l. destruct (n_helper 5 5) as [A' E']. rewrite E'. cbn [newton_loop st_res st_iters st_A st_dofs st_cfg].
  rewrite xnorm2. replace (sqrt _) with 0%R.
  2:{ match goal with |- _ = sqrt ?e => replace e with 0%R by ring end. now rewrite sqrt_0. }
  rewrite G. rewrite (proj2 (Rltb_false _ (0 / 5))) by (pose proof (Rinv_0_lt_compat _ (pow10 8)); lra). cbn [andb].
  unfold newton_finish. cbn [st_res st_dofs st_iters st_cfg]. rewrite xnorm2. reflexivity.
Qed.

(** ** C27: one equation 2 x = 4; x = 2 is accepted, x = 3 is not. *)
Definition k_A : pmat := mkMat 1 1 (fun _ _ => Fin 2).
Lemma k_residual x e : linear_residual k_A [Fin x] [Fin 4] e <-> e = Rabs (2 * x - 4).
Proof.
  split.
  - intros (_ & _ & d & H & ->). specialize (H 0 ltac:(cbn; lia)).
    change (xsub (xadd (Fin (2 * x)) (Fin 0)) (Fin 4) = Fin (d 0)) in H. cbn in H. injection H as H.
    cbn. rewrite <- H. rewrite Rplus_0_r. change (sqrt (Rsqr (2 * x + 0 + -4)) = Rabs (2 * x - 4)). rewrite sqrt_Rsqr_abs. f_equal. lra.
  - intros ->. split; [reflexivity|]. split; [reflexivity|]. exists (fun _ => 2 * x + 0 + -4)%R. split.
    + intros i Hi. cbn in Hi. assert (i = 0) as -> by lia. reflexivity.
    + cbn. rewrite Rplus_0_r. change (Rabs (2 * x - 4) = sqrt (Rsqr (2 * x + 0 + -4))). rewrite sqrt_Rsqr_abs. f_equal. lra.
Qed.
Example k_good : exists e, linear_residual k_A [Fin 2] [Fin 4] e /\ (e < / 10)%R.
Proof.
  eexists. split; [apply k_residual; reflexivity|]. replace (2 * 2 - 4)%R with 0%R by ring. rewrite Rabs_R0. lra.
Qed.
Example k_bad : forall e, linear_residual k_A [Fin 3] [Fin 4] e -> (/ 10 <= e)%R.
Proof. intros e H. apply k_residual in H as ->. rewrite Rabs_right by lra. lra. Qed.
