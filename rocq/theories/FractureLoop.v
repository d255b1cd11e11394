(** The staggered loop, for C88. *)
From Coq Require Import Reals List Arith Lia Lra Bool.
From Verif Require Import Num Arr ArrFacts Fe Problem SpecAssembly SpecBc SpecWeak SpecEnergy Elastic ElasticFacts ElasticMain EigenFacts Plasticity SpecPlasticity PlasticityMain SpecEigen SpecLinear SpecPosed SpecMonotone MonoUse XNum
  Fracture SpecFracture FractureFacts FractureMore FractureMain.
Import ListNotations.
Local Open Scope R_scope.
Local Notation sum n g := (sum_n (K := Rops) n g).
Local Ltac rr := cbv beta; cbn [add mul zero Rops]; req; try change (car Rops) with R; ring.

(** ** The stopping test *)
Lemma norm2_nn x : 0 <= norm2 x.
Proof. apply sqrt_pos. Qed.
Lemma change_cases x y : (norm2 x <> 0 /\ change x y = Fin (norm2 (sub2 x y) / norm2 x)) \/ (norm2 x = 0 /\ norm2 (sub2 x y) = 0 /\ change x y = NaN) \/ (norm2 x = 0 /\ norm2 (sub2 x y) <> 0 /\ change x y = PInf).
Proof.
  unfold change, xdiv. destruct (Req_EM_T (norm2 x) 0) as [E|E]; [right|left; auto]. unfold inf_sign. pose proof (norm2_nn (sub2 x y)) as N.
  destruct (Req_EM_T (norm2 (sub2 x y)) 0) as [Z|Z].
  - left. rewrite Z. split; [exact E|]. split; [reflexivity|]. destruct (Rlt_dec 0 0); [lra|]. destruct (Rlt_dec 0 0); [lra|reflexivity].
  - right. split; [exact E|]. split; [exact Z|]. destruct (Rlt_dec 0 (norm2 (sub2 x y))) as [L|L]; [reflexivity|lra].
Qed.
Lemma tol_pos : 0 < frac_tol.
Proof. unfold frac_tol. lra. Qed.
Lemma div_tol a b : 0 <= b -> b <> 0 -> (a / b <= frac_tol <-> a <= frac_tol * b).
Proof.
  intros N Z. assert (0 < b) by lra. split; intros H1.
  - apply (Rmult_le_compat_r b) in H1; [|lra]. unfold Rdiv in H1. rewrite Rmult_assoc, Rinv_l, Rmult_1_r in H1 by lra. exact H1.
  - apply Rmult_le_reg_r with b; [assumption|]. unfold Rdiv. rewrite Rmult_assoc, Rinv_l, Rmult_1_r by lra. exact H1.
Qed.
Lemma stop_iff u u_old d d_old : xltb (Fin frac_tol) (xmax (change u u_old) (change d d_old)) = false <-> stops u u_old d d_old.
Proof.
  unfold stops. pose proof (norm2_nn u) as NU. pose proof (norm2_nn d) as ND.
  destruct (change_cases u u_old) as [(U1 & ->)|[(U1 & U2 & ->)|(U1 & U2 & ->)]]; destruct (change_cases d d_old) as [(D1 & ->)|[(D1 & D2 & ->)|(D1 & D2 & ->)]]; unfold xmax; cbn [isnan orb xltb]; try (split; [intros; tauto || discriminate|reflexivity || tauto]).
  - pose proof (div_tol (norm2 (sub2 u u_old)) (norm2 u) NU U1) as TU. pose proof (div_tol (norm2 (sub2 d d_old)) (norm2 d) ND D1) as TD.
    set (a := norm2 (sub2 u u_old) / norm2 u) in *. set (b := norm2 (sub2 d d_old) / norm2 d) in *. unfold Rltb. destruct (Rlt_dec a b) as [L|L]; cbn [xltb]; unfold Rltb.
    + destruct (Rlt_dec frac_tol b) as [L2|L2]; split; try discriminate; try tauto.
      * intros [(_ & _ & _ & X)|[(X & _)|(X & _)]]; try contradiction. apply TD in X. lra.
      * intros _. left. repeat split; auto; [apply TU; lra|apply TD; lra].
    + destruct (Rlt_dec frac_tol a) as [L2|L2]; split; try discriminate; try tauto.
      * intros [(_ & _ & X & _)|[(X & _)|(X & _)]]; try contradiction. apply TU in X. lra.
      * intros _. left. repeat split; auto; [apply TU; lra|apply TD; lra].
Qed.

(** ** set_params *)
Lemma set_last_spec {A} (l : list A) x r : set_last l x = Ok r -> l <> [] /\ length r = length l /\ forall i y, nth_error r i = Some y -> if (S i =? length r)%nat then y = x else nth_error l i = Some y.
Proof.
  revert r. induction l as [|a [|b t] IH]; intros r H; [discriminate| |].
  - injection H as <-. split; [discriminate|]. split; [reflexivity|]. intros [|i] y E; cbn in E; [|destruct i; discriminate]. injection E as <-. reflexivity.
  - change (bind (set_last (b :: t) x) (fun r => Ok (a :: r)) = Ok r) in H. destruct (set_last (b :: t) x) as [r0|] eqn:E0; [|discriminate]. injection H as <-.
    destruct (IH r0 eq_refl) as (_ & L & N). split; [discriminate|]. split; [cbn; now rewrite L|]. intros [|i] y E.
    + cbn in E. injection E as <-. cbn. rewrite L. reflexivity.
    + cbn in E. specialize (N i y E). cbn [length]. change (S (S i) =? S (length r0))%nat with (S i =? length r0)%nat. destruct (S i =? length r0)%nat; [exact N|]. exact N.
Qed.
Lemma set_last_ok {A} (l : list A) x : l <> [] -> exists r, set_last l x = Ok r.
Proof.
  induction l as [|a [|b t] IH]; intros H; [contradiction|now eexists|]. destruct IH as (r & E); [discriminate|]. exists (a :: r). change (bind (set_last (b :: t) x) (fun r => Ok (a :: r)) = Ok (a :: r)). now rewrite E.
Qed.
Lemma set_last_twice {A} (l : list A) x y r : set_last l x = Ok r -> set_last r y = set_last l y.
Proof.
  revert r. induction l as [|a [|b t] IH]; intros r H; [discriminate| |].
  - injection H as <-. reflexivity.
  - change (bind (set_last (b :: t) x) (fun r => Ok (a :: r)) = Ok r) in H. destruct (set_last (b :: t) x) as [r0|] eqn:E0; [|discriminate]. injection H as <-.
    destruct (set_last_spec (b :: t) x r0 E0) as (_ & L & _). destruct r0 as [|b' t']; [discriminate|].
    change (bind (set_last (b' :: t') y) (fun r => Ok (a :: r)) = bind (set_last (b :: t) y) (fun r => Ok (a :: r))). now rewrite (IH (b' :: t') eq_refl).
Qed.
(** what a change of the Dirichlet conditions leaves alone *)
Definition rebound (f f' : fe Rops) : Prop := exists ns vs ws, f' = mkFe (points f) (cells f) (vec f) (dim f) (num_quads f) (num_nodes f) (num_faces f) (num_face_quads f) (shape_vals f) (shape_grads_ref f) (quad_weights f)
              (face_shape_vals f) (face_shape_grads_ref f) (face_quad_weights f) (face_normals f) (face_inds f) ns vs ws.
Lemma rebound_refl f : rebound f f.
Proof. exists (node_inds_list f), (vec_inds_list f), (vals_list f). destruct f. reflexivity. Qed.
Lemma update_rebound f info f' : update_Dirichlet_boundary_conditions f info = Ok f' -> rebound f f'.
Proof. unfold update_Dirichlet_boundary_conditions. destruct (Dirichlet_boundary_conditions _ _) as [[[ns vs] ws]|]; [|discriminate]. intros H. injection H as <-. now exists ns, vs, ws. Qed.
Lemma update_again f f' info : rebound f f' -> update_Dirichlet_boundary_conditions f' info = update_Dirichlet_boundary_conditions f info.
Proof. intros (ns & vs & ws & ->). reflexivity. Qed.

Section Loop.
  Variables (s : solid) (eigh : tensor -> (nat -> R) * tensor) (solve_u solve_d : problem Rops R -> result (list (list Rops))) (P : list (list Rops)).
  Variables (p0 pd0 : problem Rops R) (info0 : list (location_fn Rops) * list nat * list (list Rops -> Rops)) (f : fe Rops) (rest : list (fe Rops)).
  Hypothesis F0 : fes p0 = f :: rest.
  Local Notation pass := (stagger_pass s eigh solve_u solve_d P).
  Local Notation loop := (stagger_loop s eigh solve_u solve_d P).
  (** problem_u and problem_d are the initial ones with other parameters *)
  Definition from_start (st : frac_state) : Prop :=
    (exists f', fes (fs_pu st) = f' :: rest /\ rebound f f') /\ boundary_inds_list (fs_pu st) = boundary_inds_list p0 /\ maps (fs_pu st) = maps p0 /\ internal_vars_surfaces (fs_pu st) = internal_vars_surfaces p0 /\
    fst (fs_info st) = fst info0 /\ (forall x, set_last (snd (fs_info st)) x = set_last (snd info0) x) /\
    (exists ivs, fs_pd st = with_vars pd0 ivs).
  Definition old_is_now (st : frac_state) : Prop := fs_u_old st = fs_u st /\ fs_d_old st = fs_d st.
  Lemma starts st : p0 = fs_pu st -> pd0 = fs_pd st -> info0 = fs_info st -> from_start st.
  Proof.
    intros E1 E2 E3. unfold from_start. rewrite <- E1, E2, <- E3. split; [exists f; split; [exact F0|apply rebound_refl]|]. do 5 (split; [reflexivity|]). exists (internal_vars (fs_pd st)). now destruct (fs_pd st).
  Qed.
  (** what a pass does *)
  Lemma pass_spec disp st st' err : from_start st -> pass disp st = Ok (st', err) ->
    from_start st' /\ old_is_now st' /\ fs_history_old st' = fs_history_old st /\
    posed_u p0 info0 (fs_d st) disp (fs_pu st') /\ solve_u (fs_pu st') = Ok (fs_u st') /\
    length (fs_history_old st) = num_cells f /\ length (fs_history st') = num_cells f /\
    (forall c q, (c < num_cells f)%nat -> history_at (fs_history st') c q = Rmax (drive s eigh f P (fs_u st') c q) (history_at (fs_history_old st) c q)) /\
    fs_pd st' = with_vars pd0 [fs_history st'] /\ solve_d (fs_pd st') = Ok (fs_d st') /\
    err = xmax (change (fs_u st') (fs_u_old st)) (change (fs_d st') (fs_d_old st)).
  Proof.
    intros ((f1 & E1 & RB) & B1 & M1 & S1 & I1 & I2 & (ivs & PD)) H. unfold stagger_pass in H.
    unfold set_params_u in H at 1. rewrite E1 in H. rewrite (I2 (fun _ => disp)) in H. destruct (set_last (snd info0) (fun _ => disp)) as [vals|] eqn:EV; [|discriminate]. cbn [bind] in H.
    rewrite (update_again f f1 _ RB), I1 in H. destruct (update_Dirichlet_boundary_conditions f (Some (fst info0, vals))) as [f'|] eqn:EU; [|discriminate]. cbn [bind] in H.
    destruct (solve_u _) as [u|] eqn:ES; [|discriminate]. cbn [bind fes] in H.
    pose proof (update_rebound f _ f' EU) as RB'. assert (NCE : num_cells f' = num_cells f /\ num_cells f1 = num_cells f) by (destruct RB as (? & ? & ? & ->), RB' as (? & ? & ? & ->); split; reflexivity).
    destruct NCE as (NCE & NCE1).
    unfold compute_history in H. rewrite NCE in H. destruct (length (fs_history_old st) =? num_cells f)%nat eqn:EL; [|discriminate]. apply Nat.eqb_eq in EL. cbn [bind] in H.
    destruct (solve_d _) as [d|] eqn:ED; [|discriminate]. cbn [bind] in H. injection H as <- <-.
    destruct (set_last_spec _ _ _ EV) as (V0 & V1 & V2).
    split; [|split; [|split; [|split; [|split; [|split; [|split; [|split; [|split; [|split]]]]]]]]]; cbn [fs_pu fs_pd fs_info fs_u fs_d fs_u_old fs_d_old fs_history fs_history_old]; auto.
    - split; [exists f'; auto|]. split; [exact B1|]. split; [exact M1|]. split; [exact S1|]. split; [reflexivity|]. split; [intros x; exact (set_last_twice _ _ x _ EV)|]. exists [map (fun c q => Rmax (psi_plus_fn s eigh (dim f') (sol_to_grad P f' u c q)) (nth c (fs_history_old st) (fun _ => 0) q)) (seq 0 (num_cells f))]. rewrite PD. reflexivity.
    - split; reflexivity.
    - exists f, rest, f', vals. split; [exact F0|]. split; [reflexivity|]. split; [exact V1|]. split; [exact V0|]. split; [exact V2|]. split; [exact EU|]. split; [exact B1|]. split; [exact M1|]. split; [exact S1|].
      eexists. split; [reflexivity|]. rewrite NCE1. split; [now rewrite map_length, seq_length|]. intros c q Hc. unfold history_at.
      rewrite (nth_map_in _ _ _ 0%nat) by now rewrite seq_length. rewrite seq_nth by exact Hc. cbn [Nat.add]. destruct RB as (? & ? & ? & ->). reflexivity.
    - now rewrite map_length, seq_length.
    - intros c q Hc. unfold history_at, drive. rewrite (nth_map_in _ _ _ 0%nat) by now rewrite seq_length. rewrite seq_nth by exact Hc. cbn [Nat.add]. destruct RB' as (? & ? & ? & ->). reflexivity.
    - rewrite PD. reflexivity.
  Qed.
  (** what a load step returns *)
  Definition step_done (disp : R) (h_old : list (nat -> R)) (st : frac_state) : Prop :=
    exists u_old d_old, posed_u p0 info0 d_old disp (fs_pu st) /\ solve_u (fs_pu st) = Ok (fs_u st) /\
    fs_pd st = with_vars pd0 [fs_history st] /\ solve_d (fs_pd st) = Ok (fs_d st) /\
    length (fs_history st) = num_cells f /\
    (forall c q, (c < num_cells f)%nat -> history_at (fs_history st) c q = Rmax (drive s eigh f P (fs_u st) c q) (history_at h_old c q)) /\
    stops (fs_u st) u_old (fs_d st) d_old.
  Lemma loop_spec passes disp : forall err st st', from_start st -> old_is_now st -> loop passes disp err st = Finished st' ->
    (xltb (Fin frac_tol) err = false /\ st' = st) \/ (from_start st' /\ old_is_now st' /\ fs_history_old st' = fs_history_old st /\ step_done disp (fs_history_old st) st').
  Proof.
    induction passes as [|n IH]; intros err st st' FS ON H; cbn [stagger_loop] in H; destruct (xltb (Fin frac_tol) err) eqn:EX; try discriminate; try (left; split; [reflexivity|now injection H as <-]).
    destruct (pass disp st) as [[st1 err1]|] eqn:EP; [|discriminate]. destruct (pass_spec disp st st1 err1 FS EP) as (FS1 & ON1 & HO & PU & SU & LO & LH & HH & PDE & SD & EE). right.
    destruct (IH err1 st1 st' FS1 ON1 H) as [(Z & ->)|(FS' & ON' & HO' & D)].
    - split; [exact FS1|]. split; [exact ON1|]. split; [exact HO|]. exists (fs_u_old st), (fs_d st). split; [exact PU|]. split; [exact SU|]. split; [exact PDE|]. split; [exact SD|]. split; [exact LH|]. split; [exact HH|].
      rewrite EE in Z. apply stop_iff in Z. destruct ON as (_ & OD). now rewrite OD in Z.
    - split; [exact FS'|]. split; [exact ON'|]. split; [now rewrite HO'|]. rewrite HO in D. exact D.
  Qed.
  Lemma xltb_one : xltb (Fin frac_tol) (Fin 1) = true.
  Proof. cbn. unfold Rltb, frac_tol. destruct (Rlt_dec (/ 100000) 1); [reflexivity|lra]. Qed.
  (** the steps *)
  Lemma steps_spec passes disps : forall st sts, from_start st -> old_is_now st -> frac_steps s eigh solve_u solve_d P passes disps st = Finished sts ->
    length sts = length disps /\
    forall k stk disp, nth_error sts k = Some stk -> nth_error disps k = Some disp ->
      fs_history_old stk = fs_history stk /\ step_done disp (match k with O => fs_history_old st | S j => match nth_error sts j with Some sj => fs_history sj | None => [] end end) stk.
  Proof.
    induction disps as [|disp ds IH]; intros st sts FS ON H; cbn [frac_steps] in H.
    - injection H as <-. split; [reflexivity|]. intros k stk disp0 E. destruct k; discriminate.
    - destruct (loop passes disp (Fin 1) st) as [st1| |] eqn:EL; try discriminate.
      destruct (loop_spec passes disp (Fin 1) st st1 FS ON EL) as [(Z & _)|(FS1 & ON1 & HO & D)]; [rewrite xltb_one in Z; discriminate|].
      set (st' := mkFrac _ _ _ _ _ _ _ _ _) in H. destruct (frac_steps s eigh solve_u solve_d P passes ds st') as [l| |] eqn:ER; try discriminate. injection H as <-.
      destruct (IH st' l) as (LL & N); [exact FS1|exact ON1|exact ER|]. split; [cbn; now rewrite LL|]. intros k stk disp0 E1 E2. destruct k as [|k].
      + cbn in E1, E2. injection E1 as <-. injection E2 as <-. split; [reflexivity|]. exact D.
      + cbn in E1, E2. destruct (N k stk disp0 E1 E2) as (N1 & N2). split; [exact N1|]. destruct k as [|k]; cbn [nth_error]; exact N2.
  Qed.
  (** the history is the largest value so far *)
  Lemma history_max passes disps st sts : from_start st -> old_is_now st -> frac_steps s eigh solve_u solve_d P passes disps st = Finished sts ->
    forall k stk, nth_error sts k = Some stk -> forall c q, (c < num_cells f)%nat ->
      history_at (fs_history_old st) c q <= history_at (fs_history stk) c q /\
      (forall i sti, (i <= k)%nat -> nth_error sts i = Some sti -> drive s eigh f P (fs_u sti) c q <= history_at (fs_history stk) c q) /\
      (history_at (fs_history stk) c q = history_at (fs_history_old st) c q \/ exists i sti, (i <= k)%nat /\ nth_error sts i = Some sti /\ history_at (fs_history stk) c q = drive s eigh f P (fs_u sti) c q).
  Proof.
    intros FS ON H. destruct (steps_spec passes disps st sts FS ON H) as (LL & N).
    induction k as [|k IH]; intros stk E c q Hc.
    - assert (exists disp, nth_error disps 0 = Some disp) as (disp & ED) by (destruct (nth_error disps 0) eqn:ED; [eauto|]; apply nth_error_None in ED; assert (0 < length sts)%nat by (apply nth_error_Some; congruence); lia).
      destruct (N 0%nat stk disp E ED) as (_ & (uo & do & _ & _ & _ & _ & _ & HH & _)). rewrite (HH c q Hc). split; [apply Rmax_r|]. split.
      + intros i sti Hi Ei. assert (i = 0)%nat as -> by lia. rewrite E in Ei. injection Ei as <-. apply Rmax_l.
      + unfold Rmax. destruct (Rle_dec _ _); [now left|]. right. exists 0%nat, stk. auto.
    - assert (exists disp, nth_error disps (S k) = Some disp) as (disp & ED) by (destruct (nth_error disps (S k)) eqn:ED; [eauto|]; apply nth_error_None in ED; assert (S k < length sts)%nat by (apply nth_error_Some; congruence); lia).
      destruct (N (S k) stk disp E ED) as (_ & (uo & do & _ & _ & _ & _ & _ & HH & _)). rewrite (HH c q Hc).
      assert (exists sk, nth_error sts k = Some sk) as (sk & EK) by (destruct (nth_error sts k) eqn:EK; [eauto|]; apply nth_error_None in EK; assert (S k < length sts)%nat by (apply nth_error_Some; congruence); lia).
      rewrite EK. destruct (IH sk EK c q Hc) as (A & B & C). split; [apply Rle_trans with (1 := A); apply Rmax_r|]. split.
      + intros i sti Hi Ei. destruct (Nat.eq_dec i (S k)) as [->|NE]; [rewrite E in Ei; injection Ei as <-; apply Rmax_l|]. apply Rle_trans with (history_at (fs_history sk) c q); [apply (B i sti); [lia|exact Ei]|apply Rmax_r].
      + destruct (Rle_dec (drive s eigh f P (fs_u stk) c q) (history_at (fs_history sk) c q)) as [L|L]; [rewrite Rmax_right by exact L|rewrite Rmax_left by lra].
        * destruct C as [C|(i & sti & Hi & Ei & C)]; [now left|]. right. exists i, sti. split; [lia|]. split; [exact Ei|exact C].
        * right. exists (S k), stk. split; [lia|]. split; [exact E|reflexivity].
  Qed.
  (** a pass that does not change the damage has found a fixed point *)
  Lemma fixed_point disp st st1 err1 st2 err2 : from_start st -> pass disp st = Ok (st1, err1) -> fs_d st1 = fs_d st -> pass disp st1 = Ok (st2, err2) ->
    fs_u st2 = fs_u st1 /\ fs_d st2 = fs_d st1 /\ fs_history st2 = fs_history st1.
  Proof.
    intros FS P1 ED P2. assert (W : stagger_pass s eigh solve_u solve_d P disp st1 = stagger_pass s eigh solve_u solve_d P disp (mkFrac (fs_pu st1) (fs_pd st1) (fs_info st1) (fs_u st1) (fs_d st) (fs_u_old st1) (fs_d_old st1) (fs_history st1) (fs_history_old st1))).
    { destruct st1. cbn in *. now rewrite ED. }
    rewrite W in P2. clear W ED. destruct FS as ((f1 & E1 & RB) & B1 & M1 & S1 & I1 & I2 & (ivs & PD)). unfold stagger_pass in P1.
    unfold set_params_u in P1 at 1. rewrite E1 in P1. destruct (set_last (snd (fs_info st)) (fun _ => disp)) as [vals|] eqn:EV; [|discriminate]. cbn [bind] in P1.
    destruct (update_Dirichlet_boundary_conditions f1 (Some (fst (fs_info st), vals))) as [f'|] eqn:EU; [|discriminate]. cbn [bind] in P1.
    destruct (solve_u _) as [u|] eqn:ES in P1; [|discriminate]. cbn [bind fes] in P1.
    destruct (compute_history s eigh f' P u (fs_history_old st)) as [hh|] eqn:EH; [|discriminate]. cbn [bind] in P1.
    destruct (solve_d _) as [d|] eqn:ED in P1; [|discriminate]. cbn [bind] in P1. injection P1 as <- <-.
    unfold stagger_pass in P2. cbn [fs_pu fs_pd fs_info fs_u fs_d fs_u_old fs_d_old fs_history fs_history_old] in P2. unfold set_params_u in P2 at 1. cbn [fes fst snd] in P2.
    match type of P2 with context [set_last vals ?g0] => assert (TW : set_last vals g0 = Ok vals) by (etransitivity; [exact (set_last_twice _ _ g0 _ EV)|exact EV]); rewrite TW in P2 end. cbn [bind boundary_inds_list maps internal_vars_surfaces] in P2. match type of P2 with context [update_Dirichlet_boundary_conditions f' ?i0] => assert (TW2 : update_Dirichlet_boundary_conditions f' i0 = Ok f') by (etransitivity; [exact (update_again f1 f' i0 (update_rebound _ _ _ EU))|exact EU]); rewrite TW2 in P2 end. cbn [bind] in P2.
    assert (CV : map (fun c q => convert_from_dof_to_quad f' (fs_d st) c q 0%nat) (seq 0 (num_cells f')) = map (fun c q => convert_from_dof_to_quad f1 (fs_d st) c q 0%nat) (seq 0 (num_cells f1))).
    { destruct (update_rebound _ _ _ EU) as (? & ? & ? & ->). reflexivity. }
    rewrite CV, ES in P2. cbn [bind fes] in P2. rewrite EH in P2. cbn [bind] in P2. unfold set_params_d, with_vars in P2. cbn [fes boundary_inds_list maps internal_vars_surfaces] in P2.
    unfold set_params_d, with_vars in ED. rewrite ED in P2. cbn [bind] in P2. injection P2 as <- <-. cbn. auto.
  Qed.
End Loop.

(** ** Every pass poses problems of the same kind *)
Lemma posed_is stress_fn p0 f info d disp p : is_problem_u stress_fn p0 f -> posed_u p0 info d disp p -> exists f', fes p = [f'] /\ rebound f f' /\ is_problem_u stress_fn p f'.
Proof.
  intros ((FE & U1 & U2 & TM & SM) & VD & ME & IV & NB & WF & (IV1 & IV2 & IV3) & NC) (f0 & rest & f' & vals & E0 & E1 & _ & _ & _ & EU & B & M & S & (h & EH & LH & _)).
  rewrite FE in E0. injection E0 as <- <-. exists f'. split; [exact E1|]. pose proof (update_rebound f _ f' EU) as RB. split; [exact RB|].
  assert (NCE : p_num_cells p0 = num_cells f) by (unfold p_num_cells, fe0; now rewrite FE).
  assert (NCE' : p_num_cells p = num_cells f) by (unfold p_num_cells, fe0; rewrite E1; destruct RB as (? & ? & ? & ->); reflexivity).
  repeat split.
  - exact E1. - now rewrite M. - now rewrite M. - now rewrite M. - rewrite M, B. exact SM.
  - destruct RB as (? & ? & ? & ->). exact VD.
  - now rewrite M.
  - now rewrite EH.
  - now rewrite B.
  - intros x Hx. rewrite E1 in Hx. destruct Hx as [<-|[]]. rewrite NCE'. destruct RB as (? & ? & ? & ->). reflexivity.
  - intros x cell Hx Hc. rewrite E1 in Hx. destruct Hx as [<-|[]]. destruct RB as (? & ? & ? & ->). apply (wf_cell_len p0 WF f cell); [rewrite FE; now left|exact Hc].
  - intros x cell n Hx Hc Hn. rewrite E1 in Hx. destruct Hx as [<-|[]]. destruct RB as (? & ? & ? & ->). apply (wf_cell_node p0 WF f cell n); [rewrite FE; now left|exact Hc|exact Hn].
  - intros b c fc Hb. rewrite B, NB in Hb. destruct Hb.
  - intros iv Hi. rewrite EH in Hi. destruct Hi as [<-|[]]. now rewrite NCE'.
  - rewrite S, B. exact IV2.
  - intros s iv Hs. rewrite B, NB in Hs. cbn in Hs. lia.
  - now rewrite NCE', <- NCE.
Qed.
Lemma history_is s pd f h : is_problem_d s pd f -> length h = num_cells f -> is_problem_d s (with_vars pd [h]) f.
Proof.
  intros ((FE & U1 & U2 & TM & SM) & VD & ME & IV & NB & WF & (IV1 & IV2 & IV3) & NC) LH.
  assert (NCE : p_num_cells pd = num_cells f) by (unfold p_num_cells, fe0; now rewrite FE).
  repeat split; try assumption; try (intros; eapply WF; eassumption); try (destruct WF; assumption).
  intros iv [<-|[]]. rewrite LH. unfold p_num_cells, fe0. cbn. now rewrite FE.
Qed.
Lemma one_iv_at (p : problem Rops R) h c q : internal_vars p = [h] -> (c < length h)%nat -> nth 0 (iv_at p c q) 0 = history_at h c q.
Proof.
  intros E Hc. unfold iv_at, history_at. rewrite E. cbn [flat_map]. destruct (nth_error h c) as [x|] eqn:EN; [|apply nth_error_None in EN; lia]. cbn. apply nth_error_nth with (d := fun _ => 0) in EN. now rewrite EN.
Qed.

(** ** The energy in a pass *)
Section Descent.
  Variables (s : solid) (eigh : tensor -> (nat -> R) * tensor) (solve_u solve_d : problem Rops R -> result (list (list Rops))) (P : list (list Rops)).
  Variables (p0 pd0 : problem Rops R) (info0 : list (location_fn Rops) * list nat * list (list Rops -> Rops)) (f fd : fe Rops).
  Hypothesis EO : eigh_ok (dim f) eigh.
  Hypothesis L0 : 0 <= f_lmbda s.
  Hypothesis M0 : 0 <= f_mu s.
  Hypothesis GC : 0 < f_Gc s.
  Hypothesis LL : 0 < f_l s.
  Hypothesis IU : is_problem_u (stress_fn_opt2 s eigh (dim f)) p0 f.
  Hypothesis ID : is_problem_d s pd0 fd.
  Hypothesis SR : same_rule f fd.
  Hypothesis PW : forall c q, (c < num_cells f)%nat -> (q < num_quads f)%nat -> 0 < get_JxW P f c q.
  Lemma same_conv d c q k : convert_from_dof_to_quad fd d c q k = convert_from_dof_to_quad f d c q k.
  Proof. destruct SR as (E1 & E2 & E3 & E4 & E5 & E6 & E7 & E8). unfold convert_from_dof_to_quad, cell_sol_at, cell_node. now rewrite E2, E5, E6. Qed.
  Lemma same_jac c q : jacobian_dx_deta P fd c q = jacobian_dx_deta P f c q.
  Proof. destruct SR as (E1 & E2 & E3 & E4 & E5 & E6 & E7 & E8). unfold jacobian_dx_deta, coo, cell_node. now rewrite E2, E5, E7. Qed.
  Lemma same_jxw c q : get_JxW P fd c q = get_JxW P f c q.
  Proof. unfold get_JxW. rewrite same_jac. destruct SR as (E1 & E2 & E3 & E4 & E5 & E6 & E7 & E8). now rewrite E3, E8. Qed.
  Lemma same_grad d c q k j : sol_to_grad P fd d c q k j = sol_to_grad P f d c q k j.
  Proof. unfold sol_to_grad, get_shape_grads, cell_sol_at, cell_node. rewrite same_jac. destruct SR as (E1 & E2 & E3 & E4 & E5 & E6 & E7 & E8). now rewrite E2, E3, E5, E7. Qed.
  Definition surface d c q : R := f_Gc s * (f_l s / 2 * dot2 (K := Rops) 1 (dim f) (sol_to_grad P f d c q) (sol_to_grad P f d c q) + convert_from_dof_to_quad f d c q 0%nat * convert_from_dof_to_quad f d c q 0%nat / (2 * f_l s)).
  Definition total (g0 : nat -> nat -> R) : R := sum (num_cells f) (fun c => sum (num_quads f) (fun q => g0 c q * get_JxW P f c q)).
  Lemma total_plus a b : total (fun c q => a c q + b c q) = total a + total b.
  Proof. unfold total. rewrite <- Rsum_plus. apply Rsum_ext. intros c Hc. rewrite <- Rsum_plus. apply Rsum_ext. intros q Hq. rr. Qed.
  Lemma total_ext a b : (forall c q, (c < num_cells f)%nat -> (q < num_quads f)%nat -> a c q = b c q) -> total a = total b.
  Proof. intros H. unfold total. apply Rsum_ext. intros c Hc. apply Rsum_ext. intros q Hq. now rewrite H. Qed.
  Lemma pass_descends disp st st' err : from_start p0 pd0 info0 f [] st -> stagger_pass s eigh solve_u solve_d P disp st = Ok (st', err) ->
    (solves (fs_pu st') [P] [fs_u st'] -> sol_ok p0 [fs_u st] -> meets_bcs (fe0 (fs_pu st')) (fs_u st) ->
       fracture_energy s eigh f P (fs_u st') (fs_d st) <= fracture_energy s eigh f P (fs_u st) (fs_d st)) /\
    (solves (fs_pd st') [P] [fs_d st'] -> sol_ok pd0 [fs_d st] -> meets_bcs fd (fs_d st) -> (forall c q, (c < num_cells f)%nat -> (q < num_quads f)%nat -> history_at (fs_history_old st) c q <= drive s eigh f P (fs_u st') c q) ->
       fracture_energy s eigh f P (fs_u st') (fs_d st') <= fracture_energy s eigh f P (fs_u st') (fs_d st)).
  Proof.
    intros FS PS. destruct IU as ((FE & _) & VD & _). destruct (pass_spec s eigh solve_u solve_d P p0 pd0 info0 f [] FE disp st st' err FS PS) as (FS' & ON & HO & PU & EU & LO & LH & HH & PDE & ED & EE).
    destruct ID as ((FED & _) & VDD & _).
    split.
    - intros SU SK MB. destruct (posed_is _ _ _ _ _ _ _ IU PU) as (f' & E1 & RB & IS). pose proof PU as (f0 & rest & f'' & vals & E0 & E1' & _ & _ & _ & _ & _ & _ & _ & (h & EH & LH' & NH)).
      rewrite FE in E0. injection E0 as <- <-. rewrite E1 in E1'. injection E1' as <-.
      assert (NCE' : p_num_cells (fs_pu st') = num_cells f) by (unfold p_num_cells, fe0; rewrite E1; destruct RB as (? & ? & ? & ->); reflexivity).
      assert (DF : dim f' = dim f /\ num_quads f' = num_quads f) by (destruct RB as (? & ? & ? & ->); split; reflexivity). destruct DF as (DF & QF).
      assert (JF : forall c q, get_JxW P f' c q = get_JxW P f c q) by (destruct RB as (? & ? & ? & ->); reflexivity).
      assert (GF : forall x c q, sol_to_grad P f' x c q = sol_to_grad P f x c q) by (destruct RB as (? & ? & ? & ->); reflexivity).
      assert (IS2 : is_problem_u (stress_fn_opt2 s eigh (dim f')) (fs_pu st') f') by (rewrite DF; exact IS). assert (EO2 : eigh_ok (dim f') eigh) by (rewrite DF; exact EO).
      assert (PW2 : positive_weights (fs_pu st') f' P) by (intros c q Hc Hq; rewrite JF; apply PW; [now rewrite <- NCE'|now rewrite <- QF]).
      assert (SY : sol_ok (fs_pu st') [fs_u st]).
      { destruct SK as (A & B). rewrite FE in A, B. split; [now rewrite E1|]. intros v Hv. rewrite E1 in Hv. cbn in Hv. assert (v = 0)%nat as -> by lia. specialize (B 0%nat ltac:(cbn; lia)). unfold fe_of in *. rewrite FE in B. rewrite E1. destruct RB as (? & ? & ? & ->). exact B. }
      assert (MB2 : meets_bcs f' (fs_u st)) by (unfold fe0 in MB; now rewrite E1 in MB).
      pose proof (u_minimum s eigh (fs_pu st') f' P EO2 IS2 L0 M0 PW2 (fs_u st') (fs_u st) SU SY MB2) as MIN.
      assert (SE : forall x, fracture_energy s eigh f P x (fs_d st) = solid_energy s eigh (fs_pu st') f' P x + total (surface (fs_d st))).
      { intros x. transitivity (total (fun c q => damaged_energy s eigh (dim f) (convert_from_dof_to_quad f (fs_d st) c q 0%nat) (strain (sol_to_grad P f x c q)) + surface (fs_d st) c q)); [reflexivity|].
        rewrite total_plus. f_equal. unfold solid_energy, over_cells. rewrite NCE', QF. unfold total. apply Rsum_ext. intros c Hc. apply Rsum_ext. intros q Hq. rewrite JF, GF, DF.
        unfold damage_at. rewrite (one_iv_at _ h c q EH) by (now rewrite LH'). now rewrite (NH c q Hc). }
      rewrite !SE. lra.
    - intros SD SK MB HL.
      assert (NF : num_cells fd = num_cells f /\ num_quads fd = num_quads f /\ dim fd = dim f) by (destruct SR as (E1 & E2 & E3 & E4 & E5 & E6 & E7 & E8); unfold num_cells; rewrite E2; auto). destruct NF as (NF & QF & DF).
      assert (LHD : length (fs_history st') = num_cells fd) by now rewrite NF.
      pose proof (history_is s pd0 fd (fs_history st') ID LHD) as IS. rewrite <- PDE in IS.
      assert (NCE' : p_num_cells (fs_pd st') = num_cells f) by (rewrite PDE; unfold p_num_cells, fe0; cbn; now rewrite FED).
      assert (IV : internal_vars (fs_pd st') = [fs_history st']) by (now rewrite PDE).
      assert (HV : forall c q, (c < num_cells f)%nat -> nth 0 (iv_at (fs_pd st') c q) 0 = history_at (fs_history st') c q) by (intros c q Hc; apply one_iv_at; [exact IV|now rewrite LH]).
      assert (HN : forall c q, (c < p_num_cells (fs_pd st'))%nat -> (q < num_quads fd)%nat -> 0 <= nth 0 (iv_at (fs_pd st') c q) 0).
      { intros c q Hc Hq. rewrite NCE' in Hc. rewrite HV, HH by exact Hc. apply Rle_trans with (drive s eigh f P (fs_u st') c q); [|apply Rmax_l]. unfold drive. now apply psi_plus_nn. }
      assert (PW2 : positive_weights (fs_pd st') fd P) by (intros c q Hc Hq; rewrite same_jxw; apply PW; [now rewrite <- NCE'|now rewrite <- QF]).
      assert (SY : sol_ok (fs_pd st') [fs_d st]) by (rewrite PDE; exact SK).
      pose proof (d_minimum s (fs_pd st') fd P IS GC LL HN PW2 (fs_d st') (fs_d st) SD SY MB) as MIN.
      assert (SE : forall x, fracture_energy s eigh f P (fs_u st') x = crack_energy s (fs_pd st') fd P x + total (fun c q => psi_minus s eigh (dim f) (strain (sol_to_grad P f (fs_u st') c q)))).
      { intros x. unfold crack_energy, over_cells. rewrite NCE', QF. 
        transitivity (total (fun c q => (surface x c q + (1 - convert_from_dof_to_quad f x c q 0%nat) * (1 - convert_from_dof_to_quad f x c q 0%nat) * nth 0 (iv_at (fs_pd st') c q) 0) + psi_minus s eigh (dim f) (strain (sol_to_grad P f (fs_u st') c q)))).
        - apply total_ext. intros c q Hc Hq. rewrite HV, HH by exact Hc. rewrite Rmax_left by (apply HL; assumption). unfold damaged_energy, drive, surface. rr.
        - rewrite total_plus. f_equal. unfold total. apply Rsum_ext. intros c Hc. apply Rsum_ext. intros q Hq. rewrite same_jxw, !same_conv. f_equal. f_equal. unfold surface. rewrite DF.
          rewrite (dot2_ext 1 (dim f) (sol_to_grad P fd x c q) (sol_to_grad P f x c q) (sol_to_grad P fd x c q) (sol_to_grad P f x c q)); [reflexivity|]. intros i j Hi Hj. now rewrite !same_grad. }
      rewrite !SE. lra.
  Qed.
End Descent.
