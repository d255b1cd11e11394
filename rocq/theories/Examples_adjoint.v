(** Concrete cases for the multipoint-constraint and adjoint properties (C36, C37). *)
From Coq Require Import String List Arith Lia Bool Reals Lra ZArith.
From Verif Require Import Num Arr Fe Problem SpecAssembly SolverBc SpecBc XNum PyDict Options LinSolve Newton SpecNewton ArcLength DynRelax Solver
  DerivFacts Adjoint SpecAdjoint AdjointFacts AdjointMain Examples_solver Examples_arc Examples_relax.
Import ListNotations.
Local Open Scope R_scope.

(** ** C37: two nodes with values u and w, u prescribed to 5, residual w - th u at the free one. *)
Definition d_kernel (th : R) (ci : cell_in Rops unit) : list Rops :=
  let u := nth 0 (ci_sol ci) 0 in let w := nth 1 (ci_sol ci) 0 in [u + - w; w + - (th * u)].
Definition d_fe : fe Rops := mkFe (K := Rops) [[0]; [1]] [[0%nat; 1%nat]] 1 1 1 2 0 0
    (fun _ _ => 1) (fun _ _ _ => 0) (fun _ => 1) (fun _ _ _ => 0) (fun _ _ _ _ => 0)
    (fun _ _ => 1) (fun _ _ => 0) [] [[0%nat]] [[0%nat]] [[5]].
Definition d_prob (params : list R) : problem Rops unit :=
  mkProblem [d_fe] [] (mkMaps None None (Some (d_kernel (nth 0 params 0))) None None) [] [].
Definition d_pts (_ : list R) : list (list (list Rops)) := [[[0]; [1]]].
(** the kernel is linear *)
Definition d_jvp : (list Rops -> list Rops) -> list Rops -> list Rops -> list Rops := fun f _ v => f v.
Definition d_sol (u w : R) : list (list (list Rops)) := [[[u]; [w]]].

Lemma d_constraint u w th : constraint_fn (K := Rops) sqrt d_prob d_pts [u; w] [th] = Ok [u + - (5) * 1; 0 + (w + - (th * u))].
Proof. cbv -[Rplus IZR Rmult Ropp]. reflexivity. Qed.
Lemma d_at u w th : constraint_of sqrt d_prob d_pts 2 [u; w; th] = [u + - (5) * 1; 0 + (w + - (th * u))].
Proof. unfold constraint_of. cbn [firstn skipn]. now rewrite d_constraint. Qed.
Lemma d_tangent u w th : exists r W, newton_update d_jvp sqrt (d_prob [th]) (d_pts [th]) (d_sol u w) = Ok (r, W) /\
  forall i j, (i < 2)%nat -> (j < 2)%nat -> tangent (d_prob [th]) W i j = match i, j with O, O => 1 | O, S _ => 0 | S _, O => - th | S _, S _ => 1 end.
Proof.
  do 2 eexists. split; [cbv -[Rplus IZR Rmult Ropp]; reflexivity|].
  intros [|[|i]] [|[|j]] Hi Hj; try lia; cbv -[Rplus IZR Rmult Ropp]; lra.
Qed.

Example d_regular u w th : regular_problem d_jvp sqrt (d_prob [th]) (d_pts [th]) (d_sol u w).
Proof.
  split; [|split; [cbn; lia|split; [|split; [|split; [|split]]]]].
  - constructor.
    + intros f [<-|[]]. reflexivity.
    + intros f cell [<-|[]] [<-|[]]. reflexivity.
    + intros f cell n [<-|[]] [<-|[]] Hn; cbn in Hn; unfold num_total_nodes; cbn; lia.
    + intros b c fc [].
  - split; [reflexivity|]. intros v Hv; cbn in Hv. assert (v = 0%nat) as -> by lia. split; [reflexivity|]. intros row Hr; cbn in Hr. intuition (subst; reflexivity).
  - split; [intros iv []|split; [reflexivity|]]. intros s iv Hs. cbn in Hs. lia.
  - intros f [<-|[]] i Hi. cbn in Hi. assert (i = 0%nat) as -> by lia. cbn. repeat split; try reflexivity. repeat constructor. intros [].
  - intros f [<-|[]] n j b [E|[]]. injection E as <- <- <-. cbn. lia.
  - exists (fun _ _ => []). split; [split; [reflexivity|intros s Hs; cbn in Hs; lia]|]. split; [|intros s i Hs; cbn in Hs; lia].
    intros c Hc. assert (c = 0%nat) as -> by (unfold p_num_cells in Hc; cbn in Hc; lia). intros v k Hv.
    change (length v = 2%nat) in Hv. destruct v as [|a [|b [|]]]; try discriminate Hv.
    change (derivable_pt_lim (fun t => nth k [(u + t * a) + - (w + t * b); (w + t * b) + - (th * (u + t * a))] 0) 0
      (nth k [1 + - 0; 0 + - (th * 1)] 0 * a + (nth k [0 + - (1); 1 + - (th * 0)] 0 * b + 0))).
    assert (D : forall x y, derivable_pt_lim (fun t => x + t * y) 0 y).
    { intros x y. assert (D1 : derivable_pt_lim (fun t => x + t * y) 0 (0 + (1 * y + 0 * 0))).
      { apply (derivable_pt_lim_plus (fun _ => x) (fun t => t * y)); [apply derivable_pt_lim_const|].
        apply (derivable_pt_lim_mult (fun t => t) (fun _ => y)); [apply derivable_pt_lim_id|apply derivable_pt_lim_const]. }
      assert (Ea : 0 + (1 * y + 0 * 0) = y) by ring. rewrite Ea in D1. exact D1. }
    destruct k as [|[|k]]; cbn [nth].
    + apply (dlim_ext (fun t => (u - w) + t * (a - b))); [intros t; ring|].
      replace ((1 + - 0) * a + ((0 + - (1)) * b + 0)) with (a - b) by ring. apply D.
    + apply (dlim_ext (fun t => (w - th * u) + t * (b - th * a))); [intros t; ring|].
      replace ((0 + - (th * 1)) * a + ((1 + - (th * 0)) * b + 0)) with (b - th * a) by ring. apply D.
    + destruct k; cbn [nth]; (apply (dlim_ext (fun t => 0 + t * 0)); [intros t; ring|]; replace (0 * a + (0 * b + 0)) with 0 by ring; apply D).
Qed.

(** the derivative of the constraint with respect to (u, w, th) *)
Definition d_J (u th : R) (k j : nat) : R :=
  match k, j with O, O => 1 | O, _ => 0 | _, O => - th | _, 1%nat => 1 | _, _ => - u end.
Example d_derivative u w th : has_derivative (constraint_of sqrt d_prob d_pts 2) [u; w; th] (d_J u th).
Proof.
  intros eps He. exists eps. split; [exact He|]. intros [|a [|b [|c [|]]]] L N; try discriminate L.
  unfold plus. cbn [map2 combine map]. unfold map2. cbn [combine map fst snd]. rewrite !d_at. split; [reflexivity|].
  change (Rabs a + (Rabs b + (Rabs c + 0)) < eps) in N. change (norm1 [a; b; c]) with (Rabs a + (Rabs b + (Rabs c + 0))).
  pose proof (Rabs_pos a). pose proof (Rabs_pos b). pose proof (Rabs_pos c).
  intros [|[|k]] Hk; [| |cbn in Hk; lia]; unfold rsum; cbn [length seq map fold_right nth d_J].
  - replace (u + a + - (5) * 1 - (u + - (5) * 1) - (1 * a + (0 * b + (0 * c + 0)))) with 0 by ring. rewrite Rabs_R0.
    apply Rmult_le_pos; lra.
  - replace (0 + (w + b + - ((th + c) * (u + a))) - (0 + (w + - (th * u))) - (- th * a + (1 * b + (- u * c + 0)))) with (- (c * a)) by ring.
    rewrite Rabs_Ropp, Rabs_mult. apply Rle_trans with (Rabs c * eps); [apply Rmult_le_compat_l; lra|].
    rewrite Rmult_comm. apply Rmult_le_compat_l; lra.
Qed.

(** Cramer's rule for one and two equations *)
Definition cramer (A : mat Rops) (b : list R) : result (list R) :=
  match b with
  | [b0] => if ((m_rows A =? 1) && (m_cols A =? 1))%nat%bool
            then if Req_EM_T (m_at A 0 0) 0 then Err ValueErr else Ok [b0 / m_at A 0 0] else Err ValueErr
  | [b0; b1] => if ((m_rows A =? 2) && (m_cols A =? 2))%nat%bool
            then let D := m_at A 0 0 * m_at A 1 1 - m_at A 0 1 * m_at A 1 0 in
              if Req_EM_T D 0 then Err ValueErr
              else Ok [(b0 * m_at A 1 1 - m_at A 0 1 * b1) / D; (m_at A 0 0 * b1 - b0 * m_at A 1 0) / D] else Err ValueErr
  | _ => Err ValueErr
  end.
Example cramer_exact A b x : cramer A b = Ok x -> solves_exactly A b x.
Proof.
  unfold cramer. destruct b as [|b0 [|b1 [|]]]; try discriminate.
  - destruct (Nat.eqb_spec (m_rows A) 1) as [E1|]; [|discriminate]. destruct (Nat.eqb_spec (m_cols A) 1) as [E2|]; [|discriminate]. cbn [andb].
    destruct (Req_EM_T (m_at A 0 0) 0) as [|N]; [discriminate|]. injection 1 as <-. split; [symmetry; exact E2|]. split; [symmetry; exact E1|].
    rewrite E1, E2. intros [|i] Hi; [|lia]. unfold rsum. cbn. field. exact N.
  - destruct (Nat.eqb_spec (m_rows A) 2) as [E1|]; [|discriminate]. destruct (Nat.eqb_spec (m_cols A) 2) as [E2|]; [|discriminate]. cbn [andb]. cbv zeta.
    destruct (Req_EM_T (m_at A 0 0 * m_at A 1 1 - m_at A 0 1 * m_at A 1 0) 0) as [|N]; [discriminate|]. injection 1 as <-.
    split; [symmetry; exact E2|]. split; [symmetry; exact E1|].
    rewrite E1, E2. intros [|[|i]] Hi; [| |lia]; unfold rsum; cbn [seq map fold_right nth]; field; exact N.
Qed.

(** jax.vjp of th -> constraint, at dofs (u, w) *)
Definition d_vjp (u : R) (f : list R -> list R) (x v : list R) : list R := [- u * nth 1 v 0].
Example d_vjp_ok u w th : vjp_correct (d_vjp u) (partial_params_c_fn (K := Rops) sqrt d_prob d_pts (d_sol u w)) [th].
Proof.
  pose proof (partial_has d_jvp sqrt d_prob d_pts [th] (d_sol u w) (d_regular u w th) (d_J u th) (d_derivative u w th)) as D.
  apply (vjp_correct_at _ _ _ _ D). assert (L : @length R (partial_params_c_fn (K := Rops) sqrt d_prob d_pts (d_sol u w) [th]) = 2%nat) by reflexivity.
  rewrite L. intros v Lv. split; [reflexivity|]. intros [|j] Hj; [|cbn in Hj; lia]. unfold rsum, d_vjp. cbn. ring.
Qed.

(** Without P_mat: u = 5 and w = 5 th; at th = 2 the derivative of w is 5. *)
Definition d_v : list (list (list Rops)) := [[[0]; [1]]].
Example d_backward : implicit_vjp (K := Rops) d_jvp sqrt d_prob d_pts None (d_vjp 5) cramer (d_sol 5 10) [2] d_v = Ok [5].
Proof.
  unfold implicit_vjp. destruct (d_tangent 5 10 2) as (r & W & E & T). rewrite E. cbn [bind snd g_get_A].
  unfold cramer at 1. change (ravel d_v) with [0; 1]. cbn [mat_T m_rows m_cols m_at]. change (num_total_dofs_all_vars (d_prob [2])) with 2%nat. cbn [Nat.eqb andb].
  rewrite !T by lia. cbv zeta. destruct (Req_EM_T _ _) as [N|_]; [lra|]. cbn [bind]. unfold g_unflatten. cbn [length]. change (num_total_dofs_all_vars (d_prob [2])) with 2%nat.
  cbn [Nat.eqb bind]. unfold vjp_linear_fn, constraint_fn_sol_to_sol. change (ravel (d_sol 5 10)) with [5; 10]. rewrite d_constraint. cbn [bind].
  unfold g_unflatten. cbn [length]. change (num_total_dofs_all_vars (d_prob [2])) with 2%nat. cbn [Nat.eqb bind]. unfold d_vjp. cbn [map]. f_equal. f_equal.
  match goal with |- context [ravel ?s] => change (ravel s) with [(0 * 1 - - (2) * 1) / (1 * 1 - - (2) * 0); (1 * 1 - 0 * 0) / (1 * 1 - - (2) * 0)] end.
  cbn [nth]. change (@opp Rops) with Ropp. match goal with |- ?a = ?b => change (@eq R a b) end. field.
Qed.
Example d_curve t : equilibrium sqrt d_prob d_pts None (along [2] [1] t) [5; 5 * (2 + t)] /\ full_of None [5; 5 * (2 + t)] [5; 5 * (2 + t)].
Proof.
  split; [|reflexivity]. exists [5 + - (5) * 1; 0 + (5 * (2 + t) + - ((2 + t * 1) * 5))]. split; [exact (d_constraint 5 (5 * (2 + t)) (2 + t * 1))|].
  intros [|[|k]] Hk; cbn in *; try lia; lra.
Qed.

(** With P_mat = (1, 2)^T the state is (y, 2 y) and the equation (y - 5) + 2 (2 y - th y) = 0, so y = 5 / (5 - 2 th);
    at th = 0 the derivative of y is 2/5. *)
Definition d_P : mat Rops := mkMat 2 1 (fun i _ => match i with O => 1 | _ => 2 end).
Definition d_w : list (list (list Rops)) := [[[1]; [0]]].
Example d_backward_P : implicit_vjp (K := Rops) d_jvp sqrt d_prob d_pts (Some d_P) (d_vjp 1) cramer (d_sol 1 2) [0] d_w = Ok [2 / 5].
Proof.
  unfold implicit_vjp. destruct (d_tangent 1 2 0) as (r & W & E & T). rewrite E. cbn [bind snd g_get_A].
  change (mat_mul_vec (mat_T d_P) (ravel d_w)) with (Ok [1 * 1 + (2 * 0 + 0)] : result (list Rops)). cbn [bind].
  change (num_total_dofs_all_vars (d_prob [0])) with 2%nat.
  set (A := mat_T (mat_mul (mat_T d_P) (mat_mul (mkMat 2 2 (tangent (d_prob [0]) W)) d_P))).
  assert (EA : m_at A 0 0 = 5).
  { unfold A. cbn [mat_T mat_mul m_at m_rows m_cols d_P]. unfold sum_n, sum_over, sumK. cbn [seq map fold_right]. rewrite !T by lia.
    change (@add Rops) with Rplus. change (@mul Rops) with Rmult. change (@zero Rops) with 0. match goal with |- ?a = ?b => change (@eq R a b) end. ring. }
  unfold cramer at 1. change (m_rows A) with 1%nat. change (m_cols A) with 1%nat. cbn [Nat.eqb andb]. rewrite EA. destruct (Req_EM_T 5 0); [lra|]. cbn [bind].
  change (mat_mul_vec d_P [(1 * 1 + (2 * 0 + 0)) / 5]) with (Ok [1 * ((1 * 1 + (2 * 0 + 0)) / 5) + 0; 2 * ((1 * 1 + (2 * 0 + 0)) / 5) + 0] : result (list Rops)). cbn [bind].
  unfold g_unflatten. cbn [length]. change (num_total_dofs_all_vars (d_prob [0])) with 2%nat.
  cbn [Nat.eqb bind]. unfold vjp_linear_fn, constraint_fn_sol_to_sol. change (ravel (d_sol 1 2)) with [1; 2]. rewrite d_constraint. cbn [bind].
  unfold g_unflatten. cbn [length]. change (num_total_dofs_all_vars (d_prob [0])) with 2%nat. cbn [Nat.eqb bind]. unfold d_vjp. cbn [map]. f_equal. f_equal.
  match goal with |- context [ravel ?s] => change (ravel s) with [1 * ((1 * 1 + (2 * 0 + 0)) / 5) + 0; 2 * ((1 * 1 + (2 * 0 + 0)) / 5) + 0] end.
  cbn [nth]. change (@opp Rops) with Ropp. match goal with |- ?a = ?b => change (@eq R a b) end. field.
Qed.
Example d_curve_P t : Rabs t < 1 -> equilibrium sqrt d_prob d_pts (Some d_P) (along [0] [1] t) [5 / (5 - 2 * t); 2 * (5 / (5 - 2 * t))] /\
  full_of (Some d_P) [5 / (5 - 2 * t)] [5 / (5 - 2 * t); 2 * (5 / (5 - 2 * t))].
Proof.
  intros Ht. apply Rabs_def2 in Ht. split.
  - eexists. split; [exact (d_constraint (5 / (5 - 2 * t)) (2 * (5 / (5 - 2 * t))) (0 + t * 1))|].
    intros [|i] Hi; cbn in Hi; [|lia]. unfold rsum. cbn. field. lra.
  - split; [reflexivity|]. split; [reflexivity|]. intros [|[|i]] Hi; cbn in Hi; try lia; unfold rsum; cbn; ring.
Qed.

(** ** C36: one Newton evaluation with P_mat *)
Example d_reduced : exists r A, g_update_helper (K := Rops) d_jvp sqrt (d_prob [2]) (d_pts [2]) (Some d_P) [3] = Ok (r, A) /\
  r = [(3 - 5) + 2 * (6 - 2 * 3)] /\ m_at A 0 0 = 1 + 2 * (- (2) + 2).
Proof.
  do 2 eexists. split; [cbv -[Rplus IZR Rmult Ropp]; reflexivity|]. split.
  - cbv -[Rplus IZR Rmult Ropp Rminus]. f_equal. ring.
  - cbv -[Rplus IZR Rmult Ropp Rminus]. ring.
Qed.
Example d_reduced_all y : exists r A, g_update_helper (K := Rops) d_jvp sqrt (d_prob [2]) (d_pts [2]) (Some d_P) [y] = Ok (r, A).
Proof. do 2 eexists. cbv -[Rplus IZR Rmult Ropp]. reflexivity. Qed.

(** The dynamic relaxation method ignores P_mat = ((1, 0), (1, 0)). *)
Definition same_P : pmat := mkMat (K := Xops) 2 2 (fun _ j => match j with O => Fin 1 | _ => Fin 0 end).
Lemma p_initial : dr_initial a_B n_jvp n_prob n_pts (Some same_P) (VDict []) (Some [Fin 7; Fin 3]) = Ok [Fin 5; Fin 3].
Proof. cbv -[Rplus IZR Rmult Ropp]. reflexivity. Qed.
Local Open Scope string_scope.
Local Open Scope R_scope.
Example p_run : solve_dynamic_relax (@ravel Xops) a_B n_jvp n_prob n_pts (Some same_P) 3 r_cfg
  = Done (Ok (mkDrOut [[[Fin 5]; [Fin (563 / 121)]]] 1 true)).
Proof.
  unfold solve_dynamic_relax.
  change (lookup r_cfg "initial_guess") with (Some (@VObj sol_obj [[[Fin 7]; [Fin 3]]])). cbv iota.
  change (num_option r_cfg "tol" (Fin (/ 10 ^ 6))) with (Ok (Fin (19 / 10))).
  change (num_option r_cfg "nKMat" (Fin 1000)) with (Ok (Fin 1000)).
  change (int_option r_cfg "nPrint" 500) with (Ok 500%Z). cbv iota.
  change (get_default r_cfg "linear" (VDict [])) with (@VDict sol_obj []).
  unfold dynamic_relax_solve. match goal with |- match ?c with _ => _ end = _ => replace c with (Ok [Fin 5 : xr; Fin 3]) by (symmetry; exact p_initial) end.
  match goal with |- match ?c with _ => _ end = _ => replace c with (Ok r_st0) by (symmetry; exact r_start) end.
  cbn [dr_loop]. change (dr_error r_st0) with (Fin 2).
  replace (xgtb (Fin 2) (Fin (19 / 10))) with true. 2:{ unfold xgtb. cbn [xltb]. symmetry. apply Rltb_true. lra. }
  destruct (r_body (Fin 1000)) as (qd & qdd & E). rewrite E. cbn [dr_error].
  replace (xgtb (Fin (42 / 121)) (Fin (19 / 10))) with false. 2:{ unfold xgtb. cbn [xltb]. symmetry. apply Rltb_false. lra. }
  unfold dr_finish. cbn [dr_R dr_q dr_nIters]. unfold max_abs, vmax. cbn [map fold_left xabs bind]. rewrite xmaxF. reflexivity.
Qed.
(** (5, 563/121) is not P_mat times a vector: the rows of P_mat are equal. *)
Lemma p_not d : ~ full_dofs (Some same_P) d [Fin 5; Fin (563 / 121)].
Proof.
  intros (_ & _ & H). pose proof (H 0%nat ltac:(cbn; lia)) as H0. pose proof (H 1%nat ltac:(cbn; lia)) as H1.
  assert (E : nth 0 [Fin 5; Fin (563 / 121)] (Fin 0) = nth 1 [Fin 5; Fin (563 / 121)] (Fin 0)) by exact (eq_trans H0 (eq_sym H1)).
  cbn in E. injection E. lra.
Qed.
(** The Newton method with P_mat = (1, 1)^T on the same problem: from y = 5 no step is needed. *)
Definition col_P : pmat := mkMat (K := Xops) 2 1 (fun _ _ => Fin 1).
Definition n_from5 : dict sol_obj := [("initial_guess", VObj [[[Fin 5]]])].
Example n_reduced : exists A, newton_update_helper n_jvp n_prob n_pts (Some col_P) [Fin 5] = Ok ([Fin (1 * (1 * 5 + 0 + - (5) * 1) + (1 * (0 + (1 * 5 + 0 + - (1 * 5 + 0))) + 0))], A).
Proof. cbv -[Rplus IZR Rmult Ropp]. eexists. reflexivity. Qed.
Example n_run_P : solve_newton (@ravel Xops) a_B n_jvp n_prob n_pts (Some col_P) 3 n_from5 = Done (Ok (mkOut [[[Fin (1 * 5 + 0)]; [Fin (1 * 5 + 0)]]] 0 n_from5)).
Proof.
  unfold solve_newton. change (initial_dofs (@ravel Xops) n_prob (Some col_P) n_from5) with (Ok [Fin 5 : Xops]).
  cbv iota. destruct n_reduced as [A E].
  match type of E with _ = Ok ([Fin ?e], A) => assert (E0 : e = 0) by ring; rewrite E0 in E end.
  match goal with |- match ?c with _ => _ end = _ => replace c with (Ok ([Fin 0 : Xops], A)) by (symmetry; exact E) end. cbv iota.
  change (num_option n_from5 "rel_tol" (Fin (/ 10 ^ 8))) with (Ok (Fin (/ 10 ^ 8))).
  change (num_option n_from5 "tol" (Fin (/ 10 ^ 6))) with (Ok (Fin (/ 10 ^ 6))). cbv iota.
  assert (G : keeps_going (Fin (/ 10 ^ 8)) (Fin (/ 10 ^ 6)) (xnorm [Fin 0]) (xnorm [Fin 0]) = false).
  { rewrite xnorm1, Rabs_R0. unfold keeps_going. replace (xgtb (Fin 0) (Fin (/ 10 ^ 6))) with false; [apply andb_false_r|].
    unfold xgtb. cbn [xltb]. symmetry. apply Rltb_false. pose proof (Rinv_0_lt_compat _ (pow10 6)). lra. }
  cbn [newton_loop st_res]. match goal with |- context [keeps_going ?a ?b ?c ?d] => replace (keeps_going a b c d) with false by (symmetry; exact G) end.
  unfold newton_finish. cbn [st_res st_dofs st_iters st_cfg]. replace (xnorm [Fin 0 : Xops]) with (Fin (Rabs 0)) by (symmetry; apply xnorm1). cbv -[Rplus IZR Rmult Ropp Rabs]. reflexivity.
Qed.
