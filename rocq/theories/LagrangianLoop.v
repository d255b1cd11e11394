(** The loop over the load steps, for C77. *)
From Coq Require Import List Arith Bool Lia Reals Lra.
From Verif Require Import Num Arr Fe Problem ArrFacts FeFacts SpecAssembly SpecBc SpecFe SpecSelect SpecWeak SpecPatch SpecEnergy BcFacts SelectFacts AgreeFacts ElasticFacts.
From Verif Require Import Plasticity Lagrangian SpecLagrangian LagrangianFacts LagrangianMain.
Import ListNotations.
Local Open Scope R_scope.
Local Notation solver := (nat -> problem Rops ul_var -> list (list Rops) -> result (list (list Rops))).

Lemma clip_range x : RHO_MIN <= clip x <= 1.
Proof. unfold clip, RHO_MIN. unfold Rmin, Rmax. destruct (Rle_dec _ _), (Rle_dec _ _); lra. Qed.
Lemma clip_id x : RHO_MIN <= x <= 1 -> clip x = x.
Proof. unfold clip, RHO_MIN. unfold Rmin, Rmax. destruct (Rle_dec _ _), (Rle_dec _ _); lra. Qed.

(** the values set_params writes for the increment of target displacements D *)
Definition step_vals (f : fe Rops) (D : list (list Rops)) : list (list Rops) :=
  map (fun i => map2 (fun n k => nth k (gather [] D n) 0) (nth i (node_inds_list f) []) (nth i (vec_inds_list f) [])) (seq 0 (length (node_inds_list f))).
Definition target_step (points0 : list (list Rops)) (tags : list nat) (lam lam_prev : R) : list (list Rops) :=
  sub2 (nodal_displacement_total_target points0 lam tags) (nodal_displacement_total_target points0 lam_prev tags).
Lemma set_params_ok points0 tags (p : problem Rops ul_var) f0 X lam lam_prev F rho : fes p = [f0] -> length rho = length F ->
  set_params points0 tags p (mkParams X lam lam_prev F (Some rho)) =
  Ok (mkProblem [set_vals f0 (step_vals f0 (target_step points0 tags lam lam_prev))] (boundary_inds_list p) (maps p)
        [map (fun F q => Tens (F q)) F; map (fun r (_ : nat) => Scal r) rho] (internal_vars_surfaces p), X).
Proof.
  intros E L. unfold set_params, fe0. cbn [up_rho up_F_prev up_points up_lam up_lam_prev]. rewrite L, Nat.eqb_refl, E. cbn [bind hd tl]. reflexivity.
Qed.

Lemma ul_set f vals vals' (p : problem Rops ul_var) ivs : ul_problem p (set_vals f vals) ->
  ul_problem (mkProblem [set_vals f vals'] (boundary_inds_list p) (maps p) ivs (internal_vars_surfaces p)) (set_vals f vals').
Proof.
  intros (WF & NC & FES & MAPS & BND & SURF & V3 & D3).
  assert (IN : In (set_vals f vals) (fes p)) by (rewrite FES; now left).
  assert (C : p_num_cells (mkProblem [set_vals f vals'] (boundary_inds_list p) (maps p) ivs (internal_vars_surfaces p)) = p_num_cells p).
  { unfold p_num_cells, fe0. rewrite FES. reflexivity. }
  split; [|split; [now rewrite C|]; repeat split; try assumption].
  constructor.
  - intros f0 [<-|[]]. rewrite C. exact (wf_cells p WF _ IN).
  - intros f0 cell [<-|[]] H. exact (wf_cell_len p WF _ cell IN H).
  - intros f0 cell n [<-|[]] H1 H2. exact (wf_cell_node p WF _ cell n IN H1 H2).
  - intros b c fc Hb. cbn [boundary_inds_list] in Hb. rewrite BND in Hb. destruct Hb.
Qed.

Definition disp (u : list (list Rops)) (steps : list ul_step) (i : nat) : list (list Rops) := fold_left add2 (map us_delta (firstn i steps)) u.

Section Loop.
  Variables (f : fe Rops) (points0 : list (list Rops)) (tags : list nat) (rho : list Rops) (solve : solver).
  Hypothesis HP : nodal f points0.
  Hypothesis LR : length rho = num_cells f.
  Hypothesis RN : returns_nodal f solve.
  Definition lam_at (i : nat) : R := INR i / 7.
  Definition vals_at (i : nat) : list (list Rops) := step_vals f (target_step points0 tags (lam_at (S i)) (lam_at i)).
  Definition F_inv (F : nat -> nat -> tensor) (u : list (list Rops)) : Prop := forall c q, (c < num_cells f)%nat -> (q < num_quads f)%nat ->
    eq3 (K := Rops) (mm (K := Rops) (F c q) (jacobian_dx_deta points0 f c q)) (jacobian_dx_deta (add2 points0 u) f c q).
  Record step_ok (F : list (nat -> tensor)) (u : list (list Rops)) (steps : list ul_step) (step i : nat) (s : ul_step) : Prop := {
    so_problem : ul_problem (us_problem s) (set_vals f (vals_at (step + i)));
    so_points : us_points s = add2 points0 (disp u steps i);
    so_solve : solve (step + i)%nat (us_problem s) (us_points s) = Ok (us_delta s);
    so_u : us_u s = disp u steps (S i);
    so_disp : nodal f (disp u steps i);
    so_delta : nodal f (us_delta s);
    so_vars : exists Fi, length Fi = num_cells f /\ internal_vars (us_problem s) = [map (fun F q => Tens (F q)) Fi; map (fun r (_ : nat) => Scal r) rho];
    so_F : F_inv (fun c => nth c F (fun _ _ _ => 0)) u -> (forall j, (j < i)%nat -> nonsingular (add2 points0 (disp u steps j)) f) -> F_inv (kept_F (us_problem s)) (disp u steps i) }.

  Lemma push_at (g : fe Rops) X du F c q : (c < num_cells g)%nat -> nth c (push_F_prev g X du F) (fun _ _ _ => 0) q = mul3 (deformation X g du c q) (nth c F (fun _ _ _ => 0) q).
  Proof. intros Hc. unfold push_F_prev. rewrite (nth_map_in _ _ _ 0%nat) by now rewrite seq_length. rewrite seq_nth by exact Hc. reflexivity. Qed.

  Lemma loop_spec n : forall step p vals F u steps, ul_problem p (set_vals f vals) -> nodal f u -> length F = num_cells f ->
    ul_loop points0 tags rho solve n step p F u (lam_at step) = Ok steps ->
    length steps = n /\ forall i, (i < n)%nat -> step_ok F u steps step i (nth i steps no_step).
  Proof.
    induction n as [|n IH]; intros step p vals F u steps UL Hu LF H.
    { injection H as <-. split; [reflexivity|lia]. }
    cbn [ul_loop] in H. assert (FES : fes p = [set_vals f vals]) by apply UL.
    rewrite (set_params_ok points0 tags p (set_vals f vals)) in H; [|exact FES|congruence]. cbn [bind fst snd] in H.
    replace ((INR step + 1) / INR LOAD_SCHEDULE_STEPS) with (lam_at (S step)) in H by (unfold lam_at, LOAD_SCHEDULE_STEPS; rewrite S_INR; replace (INR 7) with 7 by (cbn; lra); reflexivity).
    change (step_vals (set_vals f vals) (target_step points0 tags (lam_at (S step)) (lam_at step))) with (vals_at step) in H.
    change (set_vals (set_vals f vals) (vals_at step)) with (set_vals f (vals_at step)) in H.
    set (p' := mkProblem [set_vals f (vals_at step)] _ _ _ _) in H.
    destruct (solve step p' (add2 points0 u)) as [du|] eqn:SOL; [|discriminate]. cbn [bind] in H.
    change (fe0 p') with (set_vals f (vals_at step)) in H.
    set (F' := push_F_prev (set_vals f (vals_at step)) (add2 points0 u) du F) in H.
    destruct (ul_loop points0 tags rho solve n (S step) p' F' (add2 u du) (lam_at (S step))) as [rest|] eqn:L; [|discriminate]. injection H as <-.
    assert (UL' : ul_problem p' (set_vals f (vals_at step))) by (apply (ul_set f vals); exact UL).
    pose proof (RN _ _ _ _ SOL) as Hdu.
    assert (D3 : dim f = 3%nat) by apply UL.
    assert (NODE : forall c a, (c < num_cells f)%nat -> (a < num_nodes f)%nat -> (cell_node f c a < length (points f))%nat) by exact (ul_node _ _ UL).
    assert (LF' : length F' = num_cells f) by (unfold F', push_F_prev; rewrite map_length, seq_length; reflexivity).
    assert (INV' : F_inv (fun c => nth c F (fun _ _ _ => 0)) u -> nonsingular (add2 points0 u) f -> F_inv (fun c => nth c F' (fun _ _ _ => 0)) (add2 u du)).
    { intros INV NS c q Hc Hq. unfold F'. rewrite push_at by exact Hc. match goal with |- context [mul3 ?A ?B] => change (mul3 A B) with (mm (K := Rops) A B) end. apply (compose f D3 NODE points0 u du c q); auto. }
    destruct (IH _ _ _ _ _ _ UL' (add2_nodal f u du Hu Hdu) LF' L) as (LEN & ST). split; [cbn; now rewrite LEN|].
    intros [|i] Hi; cbn [nth].
    - constructor; cbn [us_problem us_points us_delta us_u]; try assumption; try reflexivity.
      + now rewrite Nat.add_0_r.
      + now rewrite Nat.add_0_r.
      + exists F. split; [exact LF|reflexivity].
      + intros INV _ c q Hc Hq. unfold kept_F, p'. cbn [internal_vars nth us_problem]. rewrite (nth_map_in (fun (F : nat -> tensor) q => Tens (F q)) F c (fun _ _ _ => 0) (fun _ => Scal 0)) by (rewrite LF; exact Hc). apply INV; assumption.
    - destruct (ST i) as [S1 S2 S3 S4 S5 S6 S7 S8]; [lia|]. assert (E : (step + S i)%nat = (S step + i)%nat) by lia. constructor; try rewrite E; try assumption.
      intros INV NS. apply S8.
      + apply INV'; [exact INV|]. apply (NS 0%nat). lia.
      + intros j Hj. apply (NS (S j)). lia.
  Qed.
End Loop.

Lemma last_nth' {A} (l : list A) d : last l d = match l with [] => d | _ => nth (length l - 1) l d end.
Proof.
  destruct l as [|a l]; [reflexivity|]. revert a. induction l as [|b l IH]; intros a; [reflexivity|].
  change (last (a :: b :: l) d) with (last (b :: l) d). rewrite IH. cbn [length nth]. rewrite Nat.sub_succ, !Nat.sub_0_r. cbn [nth]. reflexivity.
Qed.
Lemma sum_n_head (g : nat -> R) n : sum_n (K := Rops) (S n) g = g 0%nat + sum_n (K := Rops) n (fun i => g (S i)).
Proof. unfold sum_n, sum_over. cbn [seq map]. rewrite <- seq_shift, map_map. reflexivity. Qed.
Lemma sum_row (row : list Rops) : fold_right (fun x s => x ^ 2 + s) 0 row = sum_n (K := Rops) (length row) (fun k => nth k row 0 ^ 2).
Proof. induction row as [|x row IH]; [reflexivity|]. cbn [fold_right length]. rewrite IH, (sum_n_head (fun k => nth k (x :: row) 0 ^ 2)). reflexivity. Qed.
Lemma sum_rows (g : list Rops -> R) (u : list (list Rops)) : fold_right Rplus 0 (map g u) = sum_n (K := Rops) (length u) (fun n => g (nth n u [])).
Proof. induction u as [|x u IH]; [reflexivity|]. cbn [map fold_right length]. rewrite IH, (sum_n_head (fun n => g (nth n (x :: u) []))). reflexivity. Qed.
Lemma firstn_S_nth {A} i (l : list A) d : (i < length l)%nat -> firstn (S i) l = firstn i l ++ [nth i l d].
Proof.
  revert i. induction l as [|a l IH]; intros [|i] H; cbn in H; try lia; [reflexivity|]. cbn [firstn nth app]. f_equal. apply IH. lia.
Qed.

Section Run.
  Variables (p : problem Rops ul_var) (f : fe Rops) (points0 : list (list Rops)) (tags : list nat) (rho_design : list Rops) (solve : solver).
  Hypothesis UL : ul_problem p f.
  Hypothesis HP : nodal f points0.
  Hypothesis LR : length rho_design = num_cells f.
  Hypothesis RN : returns_nodal f solve.
  Variables (n : nat) (J : R) (steps : list ul_step).
  Hypothesis RUN : end_to_end_ul rho_design points0 tags p solve n = Ok (J, steps).

  Lemma eyes_inv : nonsingular points0 f -> F_inv f points0 (fun c => nth c (eyes f) (fun _ _ _ => 0)) (zeros_like points0).
  Proof.
    intros _ c q Hc Hq. unfold eyes. rewrite (nth_indep _ _ (fun _ => eye3)) by (rewrite repeat_length; exact Hc). rewrite nth_repeat.
    assert (D3 : dim f = 3%nat) by apply UL.
    change eye3 with (id3 (K := Rops)). eapply eq3_trans; [apply (mm_id_l Rops_field)|]. apply eq3_sym.
    intros i j Hi Hj. rewrite (jac_add f (ul_node p f UL) points0 (zeros_like points0) c q HP (zeros_nodal f points0 HP) Hc i j Hi Hj).
    assert (Z : grad_ref f (zeros_like points0) c q i j = 0).
    { unfold grad_ref. apply (ProblemFacts.sum_n_zero_ext Rops_ring). intros a Ha. unfold cell_sol_at. rewrite gather_in.
      - pose proof (zeros_at points0 (cell_node f c a) i) as E. cbn [zero Rops] in *. rewrite E. cbn [mul Rops]. req; ring.
      - rewrite (proj1 (zeros_nodal f points0 HP)). now apply (ul_node p f UL). }
    rewrite Z. cbn [add Rops]. req; ring.
  Qed.
  Lemma run_steps : length steps = n /\ forall i, (i < n)%nat -> step_ok f points0 tags (map clip rho_design) solve (eyes f) (zeros_like points0) steps 0 i (nth i steps no_step).
  Proof.
    unfold end_to_end_ul in RUN. assert (FES : fes p = [f]) by apply UL. unfold fe0 in RUN. rewrite FES in RUN. cbn [hd] in RUN.
    destruct (ul_loop _ _ _ _ _ _ _ _ _ _) as [st|] eqn:L; [|discriminate]. cbn [bind] in RUN. injection RUN as _ E. rewrite E in L.
    eapply (loop_spec f points0 tags (map clip rho_design) solve HP) with (p := p) (vals := vals_list f); auto.
    - now rewrite map_length.
    - now rewrite set_vals_same.
    - now apply zeros_nodal.
    - unfold eyes. apply repeat_length.
    - unfold lam_at. cbn [INR]. replace (0 / 7) with 0 by field. exact L.
  Qed.
  Lemma run_displacement i : (i <= n)%nat -> nodal f (displacement points0 steps i).
  Proof.
    destruct run_steps as (L & ST). intros Hi. destruct i as [|i]; [apply zeros_nodal; exact HP|]. destruct (ST i) as [_ _ _ _ S5 S6 _ _]; [lia|].
    unfold displacement. rewrite (firstn_S_nth i steps no_step) by lia. rewrite map_app, fold_left_app. cbn [map fold_left]. now apply add2_nodal.
  Qed.
  Lemma run_objective : J = sum_n (K := Rops) (length (points f)) (fun m => sum_n (K := Rops) 3 (fun k => get2 0 (displacement points0 steps n) m k ^ 2)).
  Proof.
    pose proof (run_displacement n (le_n n)) as (LN & LW). destruct run_steps as (L & ST). unfold end_to_end_ul in RUN. destruct (ul_loop _ _ _ _ _ _ _ _ _ _) as [st|]; [|discriminate]. cbn [bind] in RUN.
    injection RUN as EJ E. subst st. rewrite <- EJ.
    assert (LAST : last (map us_u steps) (zeros_like points0) = displacement points0 steps n).
    { rewrite last_nth'. destruct steps as [|s0 rest] eqn:ES; [cbn in L; now rewrite <- L|]. rewrite <- ES in *. cbn [map].
      assert (N : (0 < n)%nat) by (rewrite <- L, ES; cbn; lia).
      replace (match map us_u steps with [] => zeros_like points0 | _ :: _ => nth (length (map us_u steps) - 1) (map us_u steps) (zeros_like points0) end)
        with (nth (length (map us_u steps) - 1) (map us_u steps) (zeros_like points0)) by now rewrite ES.
      rewrite map_length, L. rewrite (nth_map_in us_u steps (n - 1) no_step) by lia. rewrite (so_u _ _ _ _ _ _ _ _ _ _ _ (ST (n - 1)%nat ltac:(lia))).
      unfold disp, displacement. now replace (S (n - 1)) with n by lia. }
    etransitivity; [exact (f_equal (fun u => fold_right Rplus 0 (map (fun row => fold_right (fun x s => x ^ 2 + s) 0 row) u)) LAST)|]. cbv beta. rewrite sum_rows. rewrite LN. apply sum_n_ext. intros m Hm. rewrite sum_row.
    rewrite (LW (nth m (displacement points0 steps n) [])); [reflexivity|]. apply nth_In. now rewrite LN.
  Qed.
  Lemma run_gradient i c q : (i < n)%nat -> valid_until f points0 steps i -> (c < num_cells f)%nat -> (q < num_quads f)%nat ->
    eq3 (K := Rops) (kept_F (us_problem (nth i steps no_step)) c q) (deformation points0 f (displacement points0 steps i) c q).
  Proof.
    intros Hi (N0 & NS) Hc Hq. destruct run_steps as (L & ST). pose proof (ST i Hi) as [_ _ _ _ S5 _ _ S8].
    assert (D3 : dim f = 3%nat) by apply UL. apply (recover f D3 (ul_node p f UL)); auto.
    - apply S8; [now apply eyes_inv| |assumption|assumption]. intros j Hj. apply NS. lia.
  Qed.
  Lemma run_rho i c q : (i < n)%nat -> (c < num_cells f)%nat -> kept_rho (us_problem (nth i steps no_step)) c q = clip (nth c rho_design 0).
  Proof.
    intros Hi Hc. destruct run_steps as (L & ST). destruct (so_vars _ _ _ _ _ _ _ _ _ _ _ (ST i Hi)) as (Fi & LF & E). unfold kept_rho. rewrite E. cbn [nth].
    rewrite map_map. rewrite (nth_map_in (fun (x : R) (_ : nat) => Scal (clip x)) rho_design c (@zero Rops)) by (apply (Nat.lt_le_trans _ _ _ Hc); rewrite <- LR; apply le_n). reflexivity.
  Qed.
  Lemma run_equal sqrtK i du : (i < n)%nat -> valid_until f points0 steps i -> nodal f du ->
    let s := nth i steps no_step in let u := displacement points0 steps i in
    (forall c q, (c < num_cells f)%nat -> (q < num_quads f)%nat -> tiny <= det (K := Rops) 3 (deformation (add2 points0 u) f du c q)) ->
    (forall c q, (c < num_cells f)%nat -> (q < num_quads f)%nat -> tiny <= det (K := Rops) 3 (deformation points0 f (add2 u du) c q)) ->
    compute_residual sqrtK (us_problem s) [us_points s] [du] = compute_residual sqrtK (reference_problem (us_problem s)) [points0] [add2 u du].
  Proof.
    intros Hi (N0 & NS) Hdu s u TI TF. destruct run_steps as (L & ST). pose proof (ST i Hi) as [S1 S2 S3 S4 S5 S6 (Fi & LF & EV) S8]. unfold s. rewrite S2.
    eapply (residual_equal _ _ S1 _ _ EV); auto.
    - now rewrite map_length.
    - now rewrite !map_length.
    - intros c q Hc Hq. assert (I : F_inv f points0 (kept_F (us_problem (nth i steps no_step))) (disp (zeros_like points0) steps i)).
      { apply S8; [now apply eyes_inv|]. intros j Hj. apply NS. lia. }
      specialize (I c q Hc Hq). unfold kept_F in I. rewrite EV in I. exact I.
    - exact (NS i (le_n i)).
  Qed.
End Run.

(** ** the boundary *)
Lemma combine_map2 {A B C} (g : A -> B -> C) l m : combine (combine l m) (map2 g l m) = map (fun u => (u, g (fst u) (snd u))) (combine l m).
Proof. revert m. induction l as [|a l IH]; intros [|b m]; [reflexivity..|]. cbn. now rewrite IH. Qed.
Definition bc_keys (f : fe Rops) : list (nat * nat) :=
  flat_map (fun i => combine (nth i (node_inds_list f) []) (nth i (vec_inds_list f) [])) (seq 0 (length (node_inds_list f))).
Lemma step_entries f D : bc_entries (set_vals f (step_vals f D)) = map (fun u => (u, nth (snd u) (gather [] D (fst u)) 0)) (bc_keys f).
Proof.
  unfold bc_entries, bc_keys. cbn [node_inds_list vec_inds_list vals_list set_vals]. rewrite flat_map_concat_map, flat_map_concat_map, concat_map, map_map. f_equal.
  apply map_ext_in. intros i Hi. apply in_seq in Hi. unfold step_vals.
  rewrite (nth_map_in _ _ i 0%nat) by (rewrite seq_length; lia). rewrite seq_nth by lia. cbn [Nat.add]. apply (combine_map2 (fun n k => nth k (gather [] D n) 0)).
Qed.
Lemma step_prescribed f D n k : In (n, k) (bc_keys f) -> prescribed (set_vals f (step_vals f D)) n k = Some (nth k (gather [] D n) 0).
Proof.
  intros H. rewrite prescribed_last, step_entries. rewrite (last_upd_fun (fun u => nth (snd u) (gather [] D (fst u)) 0)).
  replace (existsb _ _) with true; [reflexivity|]. symmetry. apply existsb_exists. exists (n, k). cbn. now rewrite !Nat.eqb_refl.
Qed.
Lemma tag_keys f tags n k : dirichlet_ok (points f) (fst (fst (build_dirichlet_bc_by_tag tags))) (snd (fst (build_dirichlet_bc_by_tag tags))) (snd (build_dirichlet_bc_by_tag tags))
    (node_inds_list f) (vec_inds_list f) (vals_list f) -> (n < length (points f))%nat -> (k < 3)%nat -> (nth n tags 0 = 1 \/ nth n tags 0 = 2)%nat -> In (n, k) (bc_keys f).
Proof.
  intros (L1 & L2 & L3 & S) Hn Hk T. cbn [build_dirichlet_bc_by_tag fst snd length] in *.
  assert (G : forall i, (i < 6)%nat -> loc_holds (nth i (fst (fst (build_dirichlet_bc_by_tag tags))) (LocOther 0)) (nth n (points f) []) n = true -> nth i [0; 1; 2; 0; 1; 2]%nat 0%nat = k -> In (n, k) (bc_keys f)).
  { intros i Hi LH E. destruct (S i Hi) as (S1 & _ & S3 & _). apply in_flat_map. exists i. split; [apply in_seq; rewrite L1; lia|].
    rewrite S3, E. assert (I : In n (nth i (node_inds_list f) [])) by (apply S1; split; [exact Hn|exact LH]).
    clear - I. induction (nth i (node_inds_list f) []) as [|x l IH]; [destruct I|]. destruct I as [->|I]; [now left|right; now apply IH]. }
  destruct T as [T|T].
  - apply (G k); [lia| |]; destruct k as [|[|[|k]]]; try lia; cbn; rewrite ?T; reflexivity.
  - apply (G (3 + k)%nat); [lia| |]; destruct k as [|[|[|k]]]; try lia; cbn; rewrite ?T; reflexivity.
Qed.

Lemma target_shape f points0 tags lam : nodal f points0 -> length tags = length points0 -> nodal f (nodal_displacement_total_target points0 lam tags).
Proof.
  intros (L & W) LT. unfold nodal_displacement_total_target. split; [rewrite length_map2, LT, Nat.min_id; exact L|]. intros row H.
  unfold map2 in H. apply in_map_iff in H as ((a & b) & <- & _). reflexivity.
Qed.
Lemma target_at f points0 tags lam n k : nodal f points0 -> length tags = length points0 -> (n < length (points f))%nat ->
  get2 0 (nodal_displacement_total_target points0 lam tags) n k =
  let y0 := nth 1 (nth n points0 []) 0 in let z0 := nth 2 (nth n points0 []) 0 in
  if (nth n tags 0 =? 2)%nat then nth k [lam * RIGHT_PULL; y0 * (cos (lam * PI) - 1) - z0 * sin (lam * PI); y0 * sin (lam * PI) + z0 * (cos (lam * PI) - 1)] 0 else 0.
Proof.
  intros (L & W) LT Hn. assert (L1 : (n < length points0)%nat) by (rewrite L; exact Hn). assert (L2 : (n < length tags)%nat) by (rewrite LT; exact L1).
  unfold nodal_displacement_total_target, get2. rewrite (nth_map2 _ _ _ _ [] 0%nat) by (exact L1 || exact L2). cbv zeta.
  destruct (nth n tags 0%nat =? 2)%nat eqn:T2.
  - apply Nat.eqb_eq in T2. rewrite T2. reflexivity.
  - destruct (nth n tags 0%nat =? 1)%nat; destruct k as [|[|[|[|k]]]]; reflexivity.
Qed.
Lemma get2_sub2 f (x y : list (list Rops)) n k : nodal f x -> nodal f y -> (n < length (points f))%nat -> (k < 3)%nat ->
  get2 0 (sub2 x y) n k = get2 0 x n k - get2 0 y n k.
Proof.
  intros Hx Hy Hn Hk. unfold get2, sub2. rewrite (nth_map2 _ _ _ _ [] []) by (rewrite ?(proj1 Hx), ?(proj1 Hy); exact Hn).
  rewrite (nth_map2 _ _ _ _ (@zero Rops) (@zero Rops)) by (rewrite nodal_row with (f := f); assumption). reflexivity.
Qed.
Lemma get2_add f (x y : list (list Rops)) n k : nodal f x -> nodal f y -> (n < length (points f))%nat -> (k < 3)%nat ->
  get2 0 (add2 x y) n k = get2 0 x n k + get2 0 y n k.
Proof. exact (get2_add2 f x y n k). Qed.
Lemma target_zero f points0 tags n k : nodal f points0 -> length tags = length points0 -> (n < length (points f))%nat ->
  get2 0 (nodal_displacement_total_target points0 0 tags) n k = 0.
Proof.
  intros HP LT Hn. rewrite (target_at f) by assumption. cbv zeta. destruct (_ =? 2)%nat; [|reflexivity]. rewrite Rmult_0_l, Rmult_0_l, sin_0, cos_0.
  destruct k as [|[|[|[|k]]]]; cbn; lra.
Qed.

Section Held.
  Variables (p : problem Rops ul_var) (f : fe Rops) (points0 : list (list Rops)) (tags : list nat) (rho_design : list Rops) (solve : solver).
  Hypothesis UL : ul_problem p f.
  Hypothesis HP : nodal f points0.
  Hypothesis LR : length rho_design = num_cells f.
  Hypothesis RN : returns_nodal f solve.
  Variables (n : nat) (J : R) (steps : list ul_step).
  Hypothesis RUN : end_to_end_ul rho_design points0 tags p solve n = Ok (J, steps).
  Hypothesis LT : length tags = length points0.
  Hypothesis MP : meets_prescribed solve.
  Hypothesis BC : dirichlet_ok (points f) (fst (fst (build_dirichlet_bc_by_tag tags))) (snd (fst (build_dirichlet_bc_by_tag tags))) (snd (build_dirichlet_bc_by_tag tags))
    (node_inds_list f) (vec_inds_list f) (vals_list f).

  Lemma held_target m k : (m < length (points f))%nat -> (k < 3)%nat -> (nth m tags 0 = 1 \/ nth m tags 0 = 2)%nat ->
    forall i, (i <= n)%nat -> get2 0 (displacement points0 steps i) m k = get2 0 (nodal_displacement_total_target points0 (INR i / 7) tags) m k.
  Proof.
    intros Hm Hk T. pose proof (run_steps p f points0 tags rho_design solve UL HP LR RN n J steps RUN) as (L & ST). induction i as [|i IH]; intros Hi.
    - cbn [INR]. replace (0 / 7) with 0 by field. rewrite (target_zero f) by assumption. apply zeros_at.
    - specialize (IH ltac:(lia)). pose proof (ST i ltac:(lia)) as [S1 S2 S3 S4 S5 S6 _ _].
      unfold displacement. rewrite (firstn_S_nth i steps no_step) by lia. rewrite map_app, fold_left_app. cbn [map fold_left].
      change (fold_left add2 (map us_delta (firstn i steps)) (zeros_like points0)) with (displacement points0 steps i).
      transitivity (get2 0 (displacement points0 steps i) m k + get2 0 (us_delta (nth i steps no_step)) m k);
        [exact (get2_add2 f (displacement points0 steps i) _ m k S5 S6 Hm Hk)|]. rewrite IH.
      assert (E : get2 0 (us_delta (nth i steps no_step)) m k = get2 0 (target_step points0 tags (lam_at (S i)) (lam_at i)) m k).
      { apply (MP _ _ _ _ m k _ S3). destruct S1 as (_ & _ & FES & _). unfold fe0. rewrite FES. cbn [hd]. unfold vals_at. rewrite step_prescribed by (apply (tag_keys f tags); assumption).
        cbn [Nat.add]. unfold get2. rewrite gather_in; [reflexivity|]. unfold target_step, sub2. rewrite length_map2.
        rewrite (proj1 (target_shape f points0 tags (lam_at (S i)) HP LT)), (proj1 (target_shape f points0 tags (lam_at i) HP LT)), Nat.min_id. exact Hm. }
      rewrite E. unfold target_step. rewrite (get2_sub2 f) by (try apply target_shape; assumption). unfold lam_at. lra.
  Qed.
  Lemma held_left m k i : (m < length (points f))%nat -> (k < 3)%nat -> (i <= n)%nat -> nth m tags 0%nat = 1%nat -> get2 0 (add2 points0 (displacement points0 steps i)) m k = get2 0 points0 m k.
  Proof.
    intros Hm Hk Hi T. rewrite (get2_add f) by (try apply (run_displacement p f points0 tags rho_design solve UL HP LR RN n J steps RUN); assumption).
    rewrite (held_target m k) by auto. rewrite (target_at f) by assumption. rewrite T. cbn. lra.
  Qed.
  Lemma held_right m i : (m < length (points f))%nat -> (i <= n)%nat -> nth m tags 0%nat = 2%nat ->
    let x := add2 points0 (displacement points0 steps i) in let lam := INR i / 7 in
    get2 0 x m 0 = get2 0 points0 m 0 - lam / 10 /\ (get2 0 x m 1, get2 0 x m 2) = rotated (lam * PI) (get2 0 points0 m 1) (get2 0 points0 m 2).
  Proof.
    intros Hm Hi T x lam. assert (E : forall k, (k < 3)%nat -> get2 0 x m k = get2 0 points0 m k + nth k [lam * RIGHT_PULL;
        get2 0 points0 m 1 * (cos (lam * PI) - 1) - get2 0 points0 m 2 * sin (lam * PI); get2 0 points0 m 1 * sin (lam * PI) + get2 0 points0 m 2 * (cos (lam * PI) - 1)] 0).
    { intros k Hk. unfold x. rewrite (get2_add f) by (try apply (run_displacement p f points0 tags rho_design solve UL HP LR RN n J steps RUN); assumption).
      rewrite (held_target m k) by auto. rewrite (target_at f) by assumption. rewrite T. reflexivity. }
    split.
    - rewrite E by lia. cbn [nth]. unfold RIGHT_PULL. lra.
    - rewrite !E by lia. cbn [nth]. unfold rotated. f_equal; ring.
  Qed.
End Held.

(** tags *)
Lemma tag_right points0 n : (n < length points0)%nat -> nth 0 (nth n points0 []) 0 = 1 -> nth n (boundary_node_tags points0) 0%nat = 2%nat.
Proof.
  intros Hn E. unfold boundary_node_tags. rewrite (nth_map_in _ _ n []) by exact Hn. cbv zeta. rewrite E. unfold isclose.
  destruct (Rle_dec _ _) as [|N]; [reflexivity|]. exfalso. apply N. replace (1 - 1) with 0 by ring. rewrite Rabs_R0, Rabs_R1. 
  assert (0 < / 10 ^ 7) by (apply Rinv_0_lt_compat, pow_lt; lra). assert (0 < / 10 ^ 5) by (apply Rinv_0_lt_compat, pow_lt; lra). lra.
Qed.
Lemma isclose_far x y : Rabs y <= 1 -> / 10 ^ 4 <= Rabs (x - y) -> isclose x y (/ 10 ^ 7) = false.
Proof.
  intros Y H. unfold isclose. destruct (Rle_dec _ _) as [L|]; [exfalso|reflexivity].
  assert (E5 : / 10 ^ 5 = / 10 * / 10 ^ 4) by (field; lra). assert (E7 : / 10 ^ 7 = / 1000 * / 10 ^ 4) by (field; lra). assert (P : 0 < / 10 ^ 4) by (apply Rinv_0_lt_compat, pow_lt; lra).
  rewrite E5, E7 in L. set (e := / 10 ^ 4) in *. pose proof (Rabs_pos y). assert (/ 10 * e * Rabs y <= / 10 * e) by nra. lra.
Qed.
Lemma tag_left points0 n : (n < length points0)%nat -> nth 0 (nth n points0 []) 0 = 0 -> nth n (boundary_node_tags points0) 0%nat = 1%nat.
Proof.
  intros Hn E. unfold boundary_node_tags. rewrite (nth_map_in _ _ n []) by exact Hn. cbv zeta. rewrite E. rewrite isclose_far.
  - unfold isclose. destruct (Rle_dec _ _) as [|N]; [reflexivity|]. exfalso. apply N. replace (0 - 0) with 0 by ring. rewrite Rabs_R0.
    assert (0 < / 10 ^ 7) by (apply Rinv_0_lt_compat, pow_lt; lra). lra.
  - rewrite Rabs_R1. lra.
  - replace (0 - 1) with (- (1)) by ring. rewrite Rabs_Ropp, Rabs_R1. assert (/ 10 ^ 4 <= / 1) by (apply Rinv_le_contravar; lra). lra.
Qed.
Lemma tag_inside points0 n : (n < length points0)%nat -> / 10 ^ 4 <= nth 0 (nth n points0 []) 0 <= 1 - / 10 ^ 4 -> nth n (boundary_node_tags points0) 0%nat = 0%nat.
Proof.
  intros Hn E. unfold boundary_node_tags. rewrite (nth_map_in _ _ n []) by exact Hn. cbv zeta. assert (P : 0 < / 10 ^ 4) by (apply Rinv_0_lt_compat, pow_lt; lra).
  rewrite isclose_far; [rewrite isclose_far; [reflexivity|rewrite Rabs_R0; lra|]|rewrite Rabs_R1; lra|].
  - rewrite Rminus_0_r, Rabs_pos_eq; lra.
  - rewrite Rabs_left; lra.
Qed.
