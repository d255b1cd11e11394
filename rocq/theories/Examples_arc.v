(** Concrete arc-length runs. *)
From Coq Require Import String List Arith Lia Bool Reals Lra ZArith.
From Verif Require Import Num Arr Fe Problem SolverBc XNum PyDict Options LinSolve Newton SpecNewton ArcLength SpecArc ArcFacts
  ArcMain Examples_solver.
Import ListNotations.
Local Open Scope string_scope.
Local Open Scope R_scope.

(** ** Displacement control: two nodes, the first prescribed to 5 (Examples_solver.n_prob).
    The tangent is [[1, 0], [-1, 1]]; spsolve is exact for it. *)
Definition sol_obj := list (list (list Xops)).
Definition a_B : backends sol_obj := mkBackends
  (fun _ _ _ _ _ => Err RuntimeErr) (fun _ _ _ _ _ => Err RuntimeErr)
  (fun _ _ b => Ok [nth 0 b NaN; xadd (nth 0 b NaN) (nth 1 b NaN)])
  (fun _ _ _ _ _ _ x => (Err RuntimeErr, x)) (fun _ _ _ _ _ _ => Err RuntimeErr) false.
Definition a_cfg : dict sol_obj :=
  [("control", VStr "displacement"); ("psi", VNum (Fin (1 / 2))); ("Delta_l", VNum (Fin (15 / 2)))].

Lemma a_residual lam u w : exists A, arc_residual n_jvp n_prob n_pts None (Fin lam) [Fin u; Fin w] =
   Ok ([Fin (u + - (5) * lam); Fin (0 + (w + - u))], A) /\ m_rows A = 2%nat /\ m_cols A = 2%nat /\
   forall i j, (i < 2)%nat -> (j < 2)%nat ->
     m_at A i j = Fin (match i, j with O, O => 1 | O, S _ => 0 | S _, O => - (1) | S _, S _ => 1 end).
Proof.
  eexists. split; [cbv -[Rplus IZR Rmult Ropp]; reflexivity|]. split; [reflexivity|]. split; [reflexivity|].
  intros [|[|i]] [|[|j]] Hi Hj; try lia; cbv -[Rplus IZR Rmult Ropp]; f_equal; lra.
Qed.
Definition a_start : arc_state := mkArc [Fin 0; Fin 0] (Fin 0) [Fin 0; Fin 0] (Fin 0) 0.
Lemma a_load : assign_bc (map (fun _ => zero) [Fin 0; Fin 0]) n_prob = [Fin 5; Fin 0].
Proof. cbv -[IZR]. reflexivity. Qed.
Definition a_next : arc_state := mkArc [Fin 5; Fin 5] (Fin 1) [Fin 5; Fin 5] (Fin 1) 2.

Lemma a_update : arc_update (Fin (1 / 2)) (Fin (15 / 2)) (map Fin [5; 0]) (map Fin [0; 0]) (Fin 0)
      (mkArc (map Fin [0; 0]) (Fin 0) (map Fin [0; 0]) (Fin 0) 0) (map Fin [0; 0]) (map Fin [5; 5]) 2 = Ok a_next.
Proof.
  assert (E1 : len2 [5; 5] + 1 / 2 * (1 / 2) * len2 [5; 0] = 225 / 4) by (unfold len2, dot; cbn; lra).
  rewrite (update_compute (1 / 2) (15 / 2) [5; 0] [0; 0] 0 [0; 0] 0 [0; 0] 0 [0; 0] [5; 5] 0 2 eq_refl eq_refl eq_refl eq_refl 1 (- (1)) 1).
  - unfold a_next. cbn [radd rscale rsub map]. unfold radd, rscale, rsub, map2. cbn [map combine fst snd]. repeat f_equal; lra.
  - rewrite E1. lra.
  - rewrite E1. unfold len2, dot, radd, rsub, map2. cbn. lra.
  - rewrite E1. unfold len2, dot, radd, rsub, map2. cbn [map combine fst snd fold_right].
    match goal with |- context [sqrt ?e] => replace e with (225 / 2 * (225 / 2)) by lra end. rewrite sqrt_square by lra. lra.
  - rewrite E1. unfold len2, dot, radd, rsub, map2. cbn [map combine fst snd fold_right].
    match goal with |- context [sqrt ?e] => replace e with (225 / 2 * (225 / 2)) by lra end. rewrite sqrt_square by lra. lra.
  - match goal with |- arc_choose (Fin ?a) (Fin ?b) _ _ = _ => replace a with 0; [replace b with 0|] end.
    + unfold arc_choose. cbn [xabs xltb]. rewrite Rabs_R0.
      assert (0 < / 10 ^ 10) by (apply Rinv_0_lt_compat, pow_lt; lra). rewrite !(proj2 (Rltb_true 0 _)) by assumption. cbn [andb].
      unfold xmax. cbn [isnan orb xltb]. rewrite (proj2 (Rltb_false 1 (- (1)))) by lra. reflexivity.
    + unfold arc_dot, len2, dot, radd, rsub, rscale, map2. cbn [map combine fst snd fold_right]. lra.
    + unfold arc_dot, len2, dot, radd, rsub, rscale, map2. cbn [map combine fst snd fold_right]. lra.
Qed.
Lemma a_body : disp_body a_B n_jvp n_prob n_pts None (Fin (1 / 2)) (Fin (15 / 2)) [Fin 0; Fin 0] (Fin 0) a_start = Ok (Fin 0, a_next).
Proof.
  unfold disp_body. cbv zeta. destruct (a_residual 0 0 0) as (A & E & _). unfold a_start at 1 2. cbn [ar_lam ar_u]. rewrite E. cbn [bind].
  change (assign_bc (map (fun _ => zero) [Fin 0; Fin 0]) n_prob) with (map Fin [5; 0]). unfold scipy_spsolve, a_B, a_start. cbn [b_spsolve bind ar_solves vneg map nth].
  match goal with |- bind (arc_update _ _ _ _ _ _ ?b ?t _) _ = _ => replace b with (map Fin [0; 0]); [replace t with (map Fin [5; 5])|] end.
  - pose proof a_update as U. cbn [map] in U |- *. rewrite U. cbn [bind].
    rewrite xnorm2. f_equal. f_equal. f_equal. match goal with |- sqrt ?e = _ => replace e with 0 by ring end. apply sqrt_0.
  - cbn [map xadd]. replace (5 + 0) with 5 by lra. reflexivity.
  - change (@opp Xops) with xopp. cbn [map xadd xopp].
    match goal with |- _ = [Fin ?a; Fin ?b] => replace b with 0 by lra; replace a with 0 by lra end. reflexivity.
Qed.

Lemma zero_norm2 a b : a = 0 -> b = 0 -> xnorm [Fin a; Fin b] = Fin 0.
Proof. intros -> ->. rewrite xnorm2. f_equal. replace (0 * 0 + 0 * 0) with 0 by ring. apply sqrt_0. Qed.
Lemma a_step fuel : arc_length_solver_disp_driven a_B n_jvp n_prob n_pts None (S fuel) (Fin (15 / 2)) (Fin (1 / 2)) a_start = Done (Ok a_next).
Proof.
  unfold arc_length_solver_disp_driven. cbn [arc_loop]. rewrite tol_lt_1. pose proof a_body as E. unfold a_start at 1 2. cbn [ar_u ar_lam]. rewrite E.
  assert (G : xgtb (Fin 0) (Fin (/ 10 ^ 6)) = false).
  { unfold xgtb. cbn [xltb]. apply Rltb_false. left. apply Rinv_0_lt_compat, pow_lt. lra. }
  destruct fuel; cbn [arc_loop]; now rewrite G.
Qed.
(** The whole run: one continuation step, lam = 1 reached, the polish has nothing to do. *)
Definition a_polish : dict sol_obj := [("initial_guess", VObj [[[Fin 5]; [Fin 5]]])].
Definition a_out : @arc_out sol_obj :=
  mkArcOut [[[Fin 5]; [Fin 5]]] (mkInfo (Fin 1) true [mkRecord 0 (Fin 1) [Fin 5; Fin 5]] "displacement") []
    (Some (mkOut [[[Fin 5]; [Fin 5]]] 0 a_polish)).
Lemma ge_1_1 : xgeb (Fin 1) (Fin 1) = true.
Proof. unfold xgeb, xleb. cbn. rewrite (proj2 (Reqb_true 1 1)) by reflexivity. apply orb_true_r. Qed.
Example a_run : solve_arc_length (@ravel Xops) (fun s => s) a_B n_jvp n_prob n_pts None (fun _ _ _ _ => Ok tt) 5 a_cfg = Done (Ok a_out).
Proof.
  unfold solve_arc_length. change (lookup a_cfg "control") with (Some (@VStr sol_obj "displacement")). cbn [String.eqb Ascii.eqb Bool.eqb].
  unfold solve_arc_length_disp. change (num_option a_cfg "psi" (Fin 1)) with (Ok (Fin (1 / 2))).
  change (num_option a_cfg "Delta_l" (Fin (/ 10))) with (Ok (Fin (15 / 2))).
  change (range_option a_cfg "max_continuation_steps" 600) with (Ok 600%nat). cbv iota.
  change (get_default a_cfg "step_callback" VNone) with (@VNone sol_obj).
  assert (C : continuation (fun _ _ _ _ => Ok tt) (fun _ : nat => arc_length_solver_disp_driven a_B n_jvp n_prob n_pts None 5 (Fin (15 / 2)) (Fin (1 / 2)))
            (@VNone sol_obj) 600 0 (arc_start n_prob) = Done (Ok (mkTrace a_next [mkRecord 0 (Fin 1) [Fin 5; Fin 5]] []))).
  { change 600%nat with (S 599). generalize 599%nat. intros m. cbn [continuation]. change (tr_state (arc_start n_prob)) with a_start. rewrite a_step. cbn [ar_lam a_next ar_u].
    now rewrite ge_1_1. }
  match goal with |- match ?c with _ => _ end = _ => replace c with (Done (Ok (mkTrace a_next [mkRecord 0 (Fin 1) [Fin 5; Fin 5]] []))) by (symmetry; exact C) end.
  unfold finish_arc_length. cbn [tr_state tr_history tr_calls a_next ar_u ar_lam]. rewrite ge_1_1.
  change (unflatten n_prob [Fin 5; Fin 5]) with (Ok [[[Fin 5]; [Fin 5]]]). cbv iota.
  change (polish_options (fun s => s) a_cfg [[[Fin 5]; [Fin 5]]]) with (Ok a_polish). cbv iota.
  assert (N : solve_newton (@ravel Xops) a_B n_jvp n_prob n_pts None 5 a_polish = Done (Ok (mkOut [[[Fin 5]; [Fin 5]]] 0 a_polish))).
  { unfold solve_newton. change (initial_dofs (@ravel Xops) n_prob None a_polish) with (Ok [Fin 5; Fin 5]). cbv iota.
    destruct (n_helper 5 5) as [A' E']. rewrite E'.
    change (num_option a_polish "rel_tol" (Fin (/ 10 ^ 8))) with (Ok (Fin (/ 10 ^ 8))).
    change (num_option a_polish "tol" (Fin (/ 10 ^ 6))) with (Ok (Fin (/ 10 ^ 6))). cbv iota.
    cbn [newton_loop st_res]. rewrite zero_norm2 by lra. unfold keeps_going, xgtb. cbn [xdiv]. destruct (Req_EM_T 0 0) as [_|X]; [|lra].
    unfold inf_sign. destruct (Rlt_dec 0 0); [lra|]. cbn [xltb andb]. unfold newton_finish. cbn [st_res st_dofs st_iters st_cfg].
    rewrite zero_norm2 by lra. reflexivity. }
  rewrite N. reflexivity.
Qed.

(** ** Force control: one unknown, internal force u + u^3, applied force 1.
    The derivative is exact and so is spsolve. *)
Definition c_g (u : xr) : xr := xadd (xadd u (xmul u (xmul u u))) (Fin (- (1))).
Definition c_jvp (_ : list Xops -> list Xops) (x v : list Xops) : list Xops :=
  let u := nth 0 x (Fin 0) in [xmul (xadd (Fin 1) (xmul (Fin 3) (xmul u u))) (nth 0 v (Fin 0))].
Definition c_B : backends sol_obj := mkBackends
  (fun _ _ _ _ _ => Err RuntimeErr) (fun _ _ _ _ _ => Err RuntimeErr)
  (fun _ A b => Ok [xdiv (nth 0 b NaN) (m_at A 0 0)])
  (fun _ _ _ _ _ _ x => (Err RuntimeErr, x)) (fun _ _ _ _ _ _ => Err RuntimeErr) false.
Definition c_start : arc_state := mkArc [Fin 0] (Fin 0) [Fin 0] (Fin 0) 0.
Definition c_next : arc_state := mkArc [Fin (1 / 2)] (Fin (1 / 2)) [Fin (1 / 2)] (Fin (1 / 2)) 2.
Lemma c_residual pts u : exists A, arc_residual c_jvp (s_prob c_g) pts None (Fin 1) [Fin u] =
    Ok ([Fin (0 + (u + u * (u * u) + - (1)))], A) /\ m_rows A = 1%nat /\ m_cols A = 1%nat /\ m_at A 0 0 = Fin (1 + 3 * (u * u)).
Proof.
  eexists. split; [cbv -[Rplus IZR Rmult Ropp]; reflexivity|]. split; [reflexivity|]. split; [reflexivity|].
  cbv -[Rplus IZR Rmult Ropp]. f_equal. ring.
Qed.
Lemma c_update : arc_update (Fin 0) (Fin (1 / 2)) (map Fin [1]) (map Fin [0]) (Fin 0)
      (mkArc (map Fin [0]) (Fin 0) (map Fin [0]) (Fin 0) 0) (map Fin [0]) (map Fin [1]) 2 = Ok c_next.
Proof.
  assert (E1 : len2 [1] + 0 * 0 * len2 [1] = 1) by (unfold len2, dot; cbn; lra).
  rewrite (update_compute 0 (1 / 2) [1] [0] 0 [0] 0 [0] 0 [0] [1] 0 2 eq_refl eq_refl eq_refl eq_refl (1 / 2) (- (1 / 2)) (1 / 2)).
  - unfold c_next. unfold radd, rscale, rsub, map2. cbn [map combine fst snd].
    replace (0 + (0 + 1 / 2 * 1)) with (1 / 2) by lra. replace (0 + 1 / 2) with (1 / 2) by lra. replace (1 / 2 - 0) with (1 / 2) by lra. reflexivity.
  - rewrite E1. lra.
  - rewrite E1. unfold len2, dot, radd, rsub, map2. cbn. lra.
  - rewrite E1. unfold len2, dot, radd, rsub, map2. cbn [map combine fst snd fold_right].
    match goal with |- context [sqrt ?e] => replace e with (1 * 1) by lra end. rewrite sqrt_square by lra. lra.
  - rewrite E1. unfold len2, dot, radd, rsub, map2. cbn [map combine fst snd fold_right].
    match goal with |- context [sqrt ?e] => replace e with (1 * 1) by lra end. rewrite sqrt_square by lra. lra.
  - match goal with |- arc_choose (Fin ?a) (Fin ?b) _ _ = _ => replace a with 0; [replace b with 0|] end.
    + unfold arc_choose. cbn [xabs xltb]. rewrite Rabs_R0.
      assert (0 < / 10 ^ 10) by (apply Rinv_0_lt_compat, pow_lt; lra). rewrite !(proj2 (Rltb_true 0 _)) by assumption. cbn [andb].
      unfold xmax. cbn [isnan orb xltb]. rewrite (proj2 (Rltb_false (1 / 2) (- (1 / 2)))) by lra. reflexivity.
    + unfold arc_dot, len2, dot, radd, rsub, rscale, map2. cbn [map combine fst snd fold_right]. lra.
    + unfold arc_dot, len2, dot, radd, rsub, rscale, map2. cbn [map combine fst snd fold_right]. lra.
Qed.
Lemma solves1 A a b x : m_rows A = 1%nat -> m_cols A = 1%nat -> m_at A 0 0 = Fin a -> a * x = b -> solves A [Fin b] [Fin x].
Proof.
  intros R C M E. exists (fun _ _ => a), [b], [x]. rewrite R, C. split.
  - intros i j Hi Hj. assert (i = 0%nat) as -> by lia. assert (j = 0%nat) as -> by lia. exact M.
  - do 4 (split; [reflexivity|]). intros i Hi. assert (i = 0%nat) as -> by lia. cbn. lra.
Qed.
Lemma c_body pts : exists A,
  arc_residual c_jvp (s_prob c_g) pts None (Fin 1) [Fin 0] = Ok ([Fin (- (1))], A) /\
  solves A (vneg (vadd [Fin (- (1))] (vscale (xsub (Fin 1) (Fin 0) : Xops) [Fin 1]))) [Fin 0] /\ solves A [Fin 1] [Fin 1] /\
  b_spsolve c_B 0 A (vneg (vadd [Fin (- (1))] (vscale (xsub (Fin 1) (Fin 0) : Xops) [Fin 1]))) = Ok [Fin 0] /\
  b_spsolve c_B 1 A [Fin 1] = Ok [Fin 1] /\
  force_body c_B c_jvp (s_prob c_g) pts None [Fin 1] (Fin 0) (Fin (1 / 2)) [Fin 0] (Fin 0) c_start = Ok (Fin 0, c_next).
Proof.
  destruct (c_residual pts 0) as (A & E & R & C & M). exists A.
  replace (0 + (0 + 0 * (0 * 0) + - (1))) with (- (1)) in E by lra. replace (1 + 3 * (0 * 0)) with 1 in M by lra.
  split; [exact E|].
  assert (T : vneg (vadd (K := Xops) [Fin (- (1))] (vscale (xsub (Fin 1) (Fin 0) : Xops) [Fin 1])) = [Fin 0]).
  { cbn. f_equal. f_equal. lra. }
  assert (S : forall n b, b_spsolve c_B n A [Fin b] = Ok [Fin b]).
  { intros n b. cbn [b_spsolve c_B nth]. rewrite M. cbn [xdiv]. destruct (Req_EM_T 1 0); [lra|]. f_equal. f_equal. f_equal. lra. }
  rewrite T. split; [apply (solves1 A 1); auto; lra|]. split; [apply (solves1 A 1); auto; lra|].
  split; [apply S|]. split; [apply S|].
  unfold force_body. cbv zeta. unfold c_start at 1. cbn [ar_u]. rewrite E. cbn [bind].
  change (assign_zeros_bc [Fin 1] (s_prob c_g)) with (map Fin [1]).
  unfold c_start. cbn [ar_lam ar_solves].
  change (add_vec [Fin (- (1))] (vscale (xsub (Fin 1) (Fin 0) : Xops) (map Fin [1]))) with
    (Ok (vadd (K := Xops) [Fin (- (1))] (vscale (xsub (Fin 1) (Fin 0) : Xops) [Fin 1]))). cbn [bind].
  rewrite T. unfold scipy_spsolve. rewrite S. cbn [bind]. change (map Fin [1]) with [Fin 1]. rewrite S. cbn [bind].
  pose proof c_update as U. cbn [map] in U. rewrite U. cbn [bind].
  f_equal. f_equal.
  assert (T' : vadd (K := Xops) [Fin (- (1))] (vscale (xsub (Fin 1) (Fin 0) : Xops) [Fin 1]) = [Fin 0]).
  { cbn. f_equal. f_equal. lra. }
  rewrite T'. rewrite xnorm1. now rewrite Rabs_R0.
Qed.
Lemma zero_stops : xgtb (Fin 0) (Fin (/ 10 ^ 6)) = false.
Proof. unfold xgtb. cbn [xltb]. apply Rltb_false. left. apply Rinv_0_lt_compat, pow_lt. lra. Qed.
Lemma c_step pts fuel :
  arc_length_solver_force_driven c_B c_jvp (s_prob c_g) pts None (S fuel) [Fin 1] (Fin (1 / 2)) (Fin 0) c_start = Done (Ok c_next).
Proof.
  unfold arc_length_solver_force_driven. change (_ =? _)%nat with true. cbv iota. cbn [arc_loop]. rewrite tol_lt_1.
  destruct (c_body pts) as (A & _ & _ & _ & _ & _ & E). unfold c_start at 1 2. cbn [ar_u ar_lam]. rewrite E.
  destruct fuel; cbn [arc_loop]; now rewrite zero_stops.
Qed.
(** The residual at the returned point is 1/8. *)
Lemma c_off pts : exists res A, arc_residual c_jvp (s_prob c_g) pts None (Fin 1) (ar_u c_next) = Ok (res, A) /\
  xnorm (vadd res (vscale (xsub (Fin 1) (ar_lam c_next) : Xops) [Fin 1])) = Fin (1 / 8).
Proof.
  destruct (c_residual pts (1 / 2)) as (A & E & _). eexists. exists A. split; [exact E|].
  match goal with |- xnorm ?v = _ => assert (T : v = [Fin (1 / 8)]) end.
  { cbn. f_equal. f_equal. lra. }
  rewrite T. rewrite xnorm1. rewrite Rabs_right by lra. reflexivity.
Qed.
