(** Concrete dynamic relaxation runs. *)
From Coq Require Import String List Arith Lia Bool Reals Lra ZArith.
From Verif Require Import Num Arr Fe Problem SpecAssembly SolverBc SpecBc XNum PyDict Options LinSolve Newton SpecNewton ArcLength
  DynRelax SpecRelax RelaxFacts RelaxMain Examples_solver Examples_arc.
Import ListNotations.
Local Open Scope string_scope.
Local Open Scope R_scope.

(** Two nodes, the first prescribed to 5, residual (u - w, w - u) (Examples_solver.n_prob). *)
Lemma r_ok : forall f, In f (fes n_prob) -> bc_in_range f.
Proof. intros f [<-|[]] n j b [E|[]]. injection E as <- <- <-. cbn. lia. Qed.

Lemma r_vec u w : assembleVec n_prob n_pts [Fin u; Fin w] = Ok [Fin 0; Fin (0 + (w + - u))].
Proof. cbv -[Rplus IZR Rmult Ropp]. reflexivity. Qed.
Lemma r_initial : dr_initial a_B n_jvp n_prob n_pts None (VDict []) (Some [Fin 7; Fin 3]) = Ok [Fin 5; Fin 3].
Proof. cbv -[Rplus IZR Rmult Ropp]. reflexivity. Qed.
Lemma r_csr u w : exists A, assembleCSR n_jvp n_prob n_pts [Fin u; Fin w] = Ok A /\ m_rows A = 2%nat /\ m_cols A = 2%nat /\
  forall i j, (i < 2)%nat -> (j < 2)%nat ->
     m_at A i j = Fin (match i, j with O, O => 1 | O, S _ => 0 | S _, O => - (1) | S _, S _ => 1 end).
Proof.
  eexists. split; [cbv -[Rplus IZR Rmult Ropp]; reflexivity|]. split; [reflexivity|]. split; [reflexivity|].
  intros [|[|i]] [|[|j]] Hi Hj; try lia; cbv -[Rplus IZR Rmult Ropp]; f_equal; lra.
Qed.
(** equality of lists and states of finite numbers *)
Ltac fins := match goal with
  | |- Fin _ = Fin _ => apply f_equal; lra
  | |- _ => first [reflexivity | f_equal; fins]
  end.
Lemma xdivF a b : b <> 0 -> xdiv (Fin a) (Fin b) = Fin (a / b).
Proof. intros H. cbn [xdiv]. destruct (Req_EM_T b 0); [contradiction|reflexivity]. Qed.
Lemma xmaxF a b : xmax (Fin a) (Fin b) = Fin (Rmax a b).
Proof.
  unfold xmax. cbn [isnan orb xltb]. destruct (Rltb a b) eqn:E.
  - apply Rltb_true in E. now rewrite Rmax_right by lra.
  - apply Rltb_false in E. now rewrite Rmax_left by lra.
Qed.
Lemma r_masses u w : exists A, assembleCSR n_jvp n_prob n_pts [Fin u; Fin w] = Ok A /\ masses 2 A = Ok [Fin (121 / 400); Fin (121 / 200)].
Proof.
  destruct (r_csr u w) as (A & E & Er & Ec & Ea). exists A. split; [exact E|]. unfold masses. rewrite Er, Ec. cbn [Nat.eqb seq map].
  unfold sum_n, sum_over, sumK. cbn [seq map fold_right]. rewrite !Ea by lia. rewrite factor_val. cbn [xabs]. change (@add Xops) with xadd. change (@zero Xops) with (Fin 0). cbn [xadd xmul].
  rewrite Rabs_R0, (Rabs_left (- (1))), (Rabs_right 1) by lra. unfold xmul. do 2 f_equal; [|f_equal]; f_equal; lra.
Qed.
Definition r_st0 : dr_state := mkDr [Fin 5; Fin 3] [Fin 0; Fin (200 / 121)] [Fin 0; Fin 0] [Fin 0; Fin 0]
  [Fin (121 / 400); Fin (121 / 200)] [Fin 0; Fin (- (2))] 0 0 (Fin 2).
Lemma r_start : dr_start n_jvp n_prob n_pts [Fin 5; Fin 3] = Ok r_st0.
Proof.
  unfold dr_start. rewrite r_vec. cbn [bind]. destruct (r_masses 5 3) as (A & E & EM). rewrite E. cbn [bind List.length]. rewrite EM. cbn [bind].
  unfold map2. cbn [combine map fst snd]. unfold dr_h. cbn [xopp]. rewrite xdivF by lra. cbn [xmul]. rewrite !xdivF by lra. cbn [forallb isfinite andb negb].
  unfold max_abs, vmax. cbn [map fold_left xabs bind]. rewrite xmaxF.
  replace (Rmax _ _) with 2. 2:{ rewrite Rabs_R0, Rabs_left by lra. rewrite Rmax_right; lra. }
  cbn [bind]. unfold r_st0. fins.
Qed.
Lemma r_body nKMat : exists qdot qdotdot, dr_body n_jvp n_prob n_pts nKMat 500 r_st0 =
  Ok (mkDr [Fin 5; Fin (563 / 121)] qdot qdotdot [Fin 0; Fin 0] [Fin (121 / 400); Fin (121 / 200)] [Fin 0; Fin (- (42 / 121))] 1 1 (Fin (42 / 121))).
Proof.
  unfold dr_body. cbn [r_st0 dr_q dr_qdot dr_qdotdot dr_qdotdot_old dr_M dr_R dr_nIters dr_iKMat]. cbv zeta.
  assert (Q : map2 xadd [Fin 5; Fin 3] (map (xmul dr_h) [Fin 0; Fin (200 / 121)]) = [Fin 5; Fin (563 / 121)]).
  { cbv -[Rplus IZR Rmult Ropp Rdiv]. fins. }
  rewrite Q. rewrite r_vec. cbn [bind]. unfold max_abs, vmax. cbn [map fold_left xabs bind]. rewrite xmaxF. rewrite Rabs_R0, Rabs_left by lra. rewrite Rmax_right by lra.
  cbn [bind]. unfold map2. cbn [combine map fst snd fold_left bind]. cbn [xsub xadd xopp].
  assert (E1 : forall d, dr_eps (Fin (0 + - 0)) (Fin d) = Fin 0).
  { intros d. unfold dr_eps. rewrite factor_val.
    replace (if xeqb (Fin d) (Fin 0) then Fin 0 else xdiv (Fin (0 + - 0)) (Fin d)) with (Fin 0).
    - cbn [xabs xmul]. rewrite Rabs_R0. f_equal. lra.
    - cbn [xeqb]. destruct (Reqb d 0) eqn:Ed; [reflexivity|]. rewrite xdivF. { f_equal. unfold Rdiv. lra. }
      intros ->. rewrite (proj2 (Reqb_true 0 0)) in Ed; [discriminate|reflexivity]. }
  rewrite !E1. rewrite xmaxF. rewrite Rmax_left by lra. replace (xgtb (Fin 0) (Fin 1)) with false.
  2:{ unfold xgtb. cbn [xltb]. symmetry. apply Rltb_false. lra. }
  cbn [andb bind fst snd]. change (printInfo 500) with (Ok tt). cbn [bind]. do 2 eexists. f_equal. f_equal; fins.
Qed.
Definition r_cfg : dict sol_obj := [("initial_guess", VObj [[[Fin 7]; [Fin 3]]]); ("tol", VNum (Fin (19 / 10)))].
(** One iteration: the residual of the free dof goes from -2 to -42/121. *)
Example r_run : solve_dynamic_relax (@ravel Xops) a_B n_jvp n_prob n_pts None 3 r_cfg
  = Done (Ok (mkDrOut [[[Fin 5]; [Fin (563 / 121)]]] 1 true)).
Proof.
  unfold solve_dynamic_relax.
  change (lookup r_cfg "initial_guess") with (Some (@VObj sol_obj [[[Fin 7]; [Fin 3]]])). cbv iota.
  change (num_option r_cfg "tol" (Fin (/ 10 ^ 6))) with (Ok (Fin (19 / 10))).
  change (num_option r_cfg "nKMat" (Fin 1000)) with (Ok (Fin 1000)).
  change (int_option r_cfg "nPrint" 500) with (Ok 500%Z). cbv iota.
  change (get_default r_cfg "linear" (VDict [])) with (@VDict sol_obj []).
  unfold dynamic_relax_solve. match goal with |- match ?c with _ => _ end = _ => replace c with (Ok [Fin 5 : xr; Fin 3]) by (symmetry; exact r_initial) end.
  match goal with |- match ?c with _ => _ end = _ => replace c with (Ok r_st0) by (symmetry; exact r_start) end.
  cbn [dr_loop]. change (dr_error r_st0) with (Fin 2).
  replace (xgtb (Fin 2) (Fin (19 / 10))) with true. 2:{ unfold xgtb. cbn [xltb]. symmetry. apply Rltb_true. lra. }
  destruct (r_body (Fin 1000)) as (qd & qdd & E). rewrite E. cbn [dr_error].
  replace (xgtb (Fin (42 / 121)) (Fin (19 / 10))) with false. 2:{ unfold xgtb. cbn [xltb]. symmetry. apply Rltb_false. lra. }
  unfold dr_finish. cbn [dr_R dr_q dr_nIters]. unfold max_abs, vmax. cbn [map fold_left xabs bind]. rewrite xmaxF. reflexivity.
Qed.

(** ** Two variables with the same residual: the mass matrix has the size of the first one only. *)
Definition t_kernel (ci : cell_in Xops unit) : list Xops := ci_sol ci.
Definition t_fe : fe Xops := mkFe (K := Xops) [[Fin 0]; [Fin 1]] [[0%nat; 1%nat]] 1 1 1 2 0 0
    (fun _ _ => Fin 1) (fun _ _ _ => Fin 0) (fun _ => Fin 1) (fun _ _ _ => Fin 0) (fun _ _ _ _ => Fin 0)
    (fun _ _ => Fin 1) (fun _ _ => Fin 0) [] [] [] [].
Definition t_prob : problem Xops unit := mkProblem [t_fe; t_fe] [] (mkMaps None None (Some t_kernel) None None) [] [].
Definition t_pts := map points (fes t_prob).
Definition t_B : backends sol_obj := mkBackends
  (fun _ _ _ _ _ => Err RuntimeErr) (fun _ _ _ _ _ => Err RuntimeErr) (fun _ _ b => Ok b)
  (fun _ _ _ _ _ _ x => (Err RuntimeErr, x)) (fun _ _ _ _ _ _ => Err RuntimeErr) false.
Example t_run : exists e, solve_dynamic_relax (@ravel Xops) t_B n_jvp t_prob t_pts None 3 [] = Done (Err e).
Proof. exists ValueErr. cbv -[Rplus IZR Rmult Ropp]. reflexivity. Qed.
