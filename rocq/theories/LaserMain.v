(** Main lemmas of C101: the passes of the script. *)
From Coq Require Import String Reals List Arith Lia Lra Bool.
From Verif Require Import Num Arr ArrFacts Fe Problem SpecAssembly SpecFe SpecWeak Elastic ElasticFacts Plasticity SpecPlasticity PlasticityFacts PlasticityMain ThermalFacts Laser SpecLaser LaserFacts.
Import ListNotations.
Local Open Scope R_scope.

Lemma gather_nth {A} (z : A) l i : (i < length l)%nat -> gather z l i = nth i l z.
Proof. intros H. unfold gather. f_equal. lia. Qed.
Lemma minus_mul (x y z : R) : (x - y) * z = x * z - y * z.
Proof. ring. Qed.
Lemma minus_quad (f : fe Rops) a b c q : mesh_ok f -> (c < length (cells f))%nat -> shaped (length (points f)) 1 a -> shaped (length (points f)) 1 b ->
  convert_from_dof_to_quad f (minus_sol a b) c q 0%nat = convert_from_dof_to_quad f a c q 0%nat - convert_from_dof_to_quad f b c q 0%nat.
Proof.
  intros M Hc (La & Ra) (Lb & Rb). unfold convert_from_dof_to_quad.
  assert (E : forall x y z : nat -> R, (forall i, (i < num_nodes f)%nat -> x i = y i - z i) -> sum_n (K := Rops) (num_nodes f) x = sum_n (K := Rops) (num_nodes f) y - sum_n (K := Rops) (num_nodes f) z).
  { intros x y z H. replace (sum_n (K := Rops) (num_nodes f) z) with (- (sum_n (K := Rops) (num_nodes f) (fun i => - (1) * z i))).
    - unfold Rminus. rewrite Ropp_involutive, <- Rsum_plus. apply Rsum_ext. intros i Hi. rewrite (H i Hi). ring.
    - rewrite Rsum_mul. req; ring. }
  apply E. intros i Hi. unfold cell_sol_at, cell_node.
  destruct (M c Hc) as (LC & IN).
  assert (LM : length (minus_sol a b) = length (points f)).
  { unfold minus_sol. etransitivity; [apply length_map2|]. etransitivity; [exact (f_equal2 Nat.min La Lb)|apply Nat.min_id]. }
  set (n := nth i (nth c (cells f) []) 0%nat). assert (Hn : (n < length (points f))%nat) by (apply IN, nth_In; lia).
  assert (Na : (n < length a)%nat) by exact (eq_ind_r (fun z => (n < z)%nat) Hn La). assert (Nb : (n < length b)%nat) by exact (eq_ind_r (fun z => (n < z)%nat) Hn Lb).
  assert (Ka : (0 < length (nth n a []))%nat) by exact (eq_ind_r (fun z => (0 < z)%nat) (le_n 1) (Ra _ (nth_In a [] Na))).
  assert (Kb : (0 < length (nth n b []))%nat) by exact (eq_ind_r (fun z => (0 < z)%nat) (le_n 1) (Rb _ (nth_In b [] Nb))).
  assert (Ga : gather [] a n = nth n a []) by (apply gather_nth; exact Na). assert (Gb : gather [] b n = nth n b []) by (apply gather_nth; exact Nb).
  assert (Gm : nth 0 (gather [] (minus_sol a b) n) 0 = nth 0 (nth n a []) 0 - nth 0 (nth n b []) 0).
  { rewrite (gather_nth [] (minus_sol a b) n) by exact (eq_ind_r (fun z => (n < z)%nat) Hn LM). unfold minus_sol.
    etransitivity; [exact (f_equal (fun r : list R => nth 0 r 0) (nth_map2 (map2 Rminus) a b n [] [] [] Na Nb))|]. exact (nth_map2 Rminus _ _ 0 0 0 0 Ka Kb). }
  transitivity ((nth 0 (gather [] (minus_sol a b) n) 0 : R) * shape_vals f q i); [reflexivity|]. rewrite Gm, <- Ga, <- Gb. exact (minus_mul _ _ _).
Qed.

Lemma repeat_nth {A} (x y : A) n i : (i < n)%nat -> nth i (repeat x n) y = x.
Proof. revert i. induction n as [|n IH]; intros i H; [lia|]. destruct i; [reflexivity|]. apply IH. lia. Qed.

Section Run.
  Variables (solve_T : problem Rops lval -> result (list (list Rops))) (solve_u : problem Rops lval -> list (list Rops) -> result (list (list Rops))).
  Variables (problem_T problem_u : problem Rops lval) (fu : fe Rops) (P : list (list Rops)).
  Hypothesis D : (0 < dim fu)%nat.
  Hypothesis MU : tensor_map (maps problem_u) = Some (laser_stress (dim fu)).
  Let nc := num_cells fu.
  Let pass := laser_pass solve_T solve_u problem_T problem_u fu P.

  Lemma loop_spec n : forall i s h, laser_loop solve_T solve_u problem_T problem_u fu P n i s = Ok h ->
    length h = n /\ forall k, (k < n)%nat -> pass (i + k) (nth k (s :: h) no_state) = Ok (nth k h no_state).
  Proof.
    induction n as [|n IH]; intros i s h E; cbn [laser_loop] in E.
    - injection E as <-. split; [reflexivity|]. intros k Hk. lia.
    - fold pass in E. destruct (pass i s) as [s'|e] eqn:E1; cbn [bind] in E; [|discriminate].
      destruct (laser_loop _ _ _ _ _ _ n (S i) s') as [r|e] eqn:E2; cbn [bind] in E; [|discriminate]. injection E as <-.
      destruct (IH _ _ _ E2) as (L & H). split; [cbn; now rewrite L|]. intros [|k] Hk.
      + rewrite Nat.add_0_r. exact E1.
      + replace (i + S k)%nat with (S i + k)%nat by lia. apply (H k). lia.
  Qed.

  (** the variables of the mechanical problem *)
  Definition vars_ok (s : laser_state) : Prop := exists ss es ds ps, l_vars s = [ss; es; ds; ps] /\
    length ss = nc /\ length es = nc /\ length ds = nc /\ length ps = nc /\
    forall c q, (c < nc)%nat -> exists t e v ph, has_stress s c q t /\ has_strain s c q e /\ entry ds c q = LVec v /\ has_phase s c q ph /\
      carried (dim fu) t /\ symmetric (dim fu) t /\ symmetric (dim fu) e.
  Lemma zero_carried d : (0 < d)%nat -> carried d (fun _ _ => 0).
  Proof. intros Hd. pose proof (zero_admissible d Hd (fun _ _ => 0) (fun _ _ => 0) (fun _ _ => 0)) as H. refine (Rle_trans _ _ _ H _). lra. Qed.
  Lemma start_ok : vars_ok (laser_start fu).
  Proof.
    unfold vars_ok, laser_start, mech_init. cbn [l_vars]. do 4 eexists. split; [reflexivity|]. rewrite !repeat_length. do 4 (split; [reflexivity|]). intros c q Hc.
    exists (fun _ _ => 0), (fun _ _ => 0), (fun _ => 0), POWDER. unfold has_stress, has_strain, has_phase, var, entry. cbn [l_vars nth]. rewrite !repeat_nth by exact Hc.
    do 4 (split; [reflexivity|]). split; [now apply zero_carried|]. split; intros i j _ _; reflexivity.
  Qed.

  Lemma map_seq_nth {A} (g : nat -> A) z c : (c < nc)%nat -> nth c (map g (seq 0 nc)) z = g c.
  Proof. intros H. rewrite (nth_map_in _ _ _ 0%nat) by (rewrite seq_length; exact H). f_equal. now apply seq_nth. Qed.

  Definition mech_step (s s' : laser_state) : Prop := exists params, solve_u (with_vars problem_u params) (l_u s) = Ok (l_u s') /\
    forall c q, (c < nc)%nat -> let G := sol_to_grad P fu (l_u s') c q in
      forall so eo ph, has_stress s c q so -> has_strain s c q eo -> has_phase s c q ph ->
      let ph' := next_phase ph (temperature fu s' c q) in let s1 := laser_return (dim fu) G so eo (convert_from_dof_to_quad fu (minus_sol (l_T s') (l_Tu s)) c q 0%nat) ph' in
      has_phase s' c q ph' /\ has_strain s' c q (strain G) /\ has_stress s' c q s1 /\ stress (with_vars problem_u params) fu P (l_u s') c q = s1.

  Lemma pass_spec i s s' : vars_ok s -> pass i s = Ok s' -> vars_ok s' /\
    (exists pT, heat_params problem_T (l_T s) (beam_center i) (beam_switch i) = Ok pT /\ solve_T pT = Ok (l_T s')) /\
    (((i + 1) mod 10)%nat <> 0%nat -> l_Tu s' = l_Tu s /\ l_vars s' = l_vars s /\ l_u s' = l_u s) /\
    (((i + 1) mod 10)%nat = 0%nat -> l_Tu s' = l_T s' /\ mech_step s s').
  Proof.
    intros (ss & es & ds & ps & EV & Ls & Le & Ld & Lp & H) E. unfold pass, laser_pass in E.
    destruct (heat_params _ _ _ _) as [pT|] eqn:E1; cbn [bind] in E; [|discriminate]. destruct (solve_T pT) as [T|] eqn:E2; cbn [bind] in E; [|discriminate].
    destruct (Nat.eqb_spec ((i + 1) mod 10) 0) as [M|M].
    - unfold update_dT_and_phase in E. rewrite EV in E. fold nc in E. rewrite Lp, Nat.eqb_refl in E. cbn [bind] in E.
      set (params := [ss; es; _; _]) in E. destruct (solve_u _ _) as [u|] eqn:E3; cbn [bind] in E; [|discriminate].
      unfold mech_update, params in E. fold nc in E. rewrite Ls, Le, !map_length, !seq_length, !Nat.eqb_refl in E. cbn [andb bind] in E. injection E as <-.
      assert (STEP : mech_step s (mkLaser T T [map (fun c q => LTen (laser_return (dim fu) (sol_to_grad P fu u c q) (as_ten (entry ss c q)) (as_ten (entry es c q))
            (as_vec (entry (map (fun c q => LVec (convert_from_dof_to_quad fu (minus_sol T (l_Tu s)) c q)) (seq 0 nc)) c q) 0%nat)
            (as_phase (entry (map (fun c q => LPhase (next_phase (as_phase (entry ps c q)) (convert_from_dof_to_quad fu T c q 0%nat))) (seq 0 nc)) c q)))) (seq 0 nc);
            map (fun c q => LTen (strain (sol_to_grad P fu u c q))) (seq 0 nc);
            map (fun c q => LVec (convert_from_dof_to_quad fu (minus_sol T (l_Tu s)) c q)) (seq 0 nc);
            map (fun c q => LPhase (next_phase (as_phase (entry ps c q)) (convert_from_dof_to_quad fu T c q 0%nat))) (seq 0 nc)] u)).
      { exists params. split; [exact E3|]. intros c q Hc G so eo ph H1 H2 H3 ph' s1.
        unfold has_stress, has_strain, has_phase, var in H1, H2, H3. rewrite EV in H1, H2, H3. cbn [nth] in H1, H2, H3.
        assert (F1 : entry ss c q = LTen so) by exact H1. assert (F2 : entry es c q = LTen eo) by exact H2. assert (F3 : entry ps c q = LPhase ph) by exact H3.
        unfold has_stress, has_strain, has_phase, var. cbn [l_vars nth l_u]. rewrite !map_seq_nth by exact Hc. cbn beta.
        assert (S1 : LTen (laser_return (dim fu) (sol_to_grad P fu u c q) (as_ten (entry ss c q)) (as_ten (entry es c q))
            (as_vec (entry (map (fun c q => LVec (convert_from_dof_to_quad fu (minus_sol T (l_Tu s)) c q)) (seq 0 nc)) c q) 0%nat)
            (as_phase (entry (map (fun c q => LPhase (next_phase (as_phase (entry ps c q)) (convert_from_dof_to_quad fu T c q 0%nat))) (seq 0 nc)) c q))) = LTen s1).
        { unfold entry at 3 4. rewrite !map_seq_nth by exact Hc. cbn beta. rewrite F1, F2, F3. reflexivity. }
        split; [rewrite F3; reflexivity|]. split; [reflexivity|]. split; [exact S1|].
        unfold stress. cbn [with_vars maps]. rewrite MU.
        assert (IV : iv_at (with_vars problem_u params) c q = [LTen so; LTen eo; LVec (convert_from_dof_to_quad fu (minus_sol T (l_Tu s)) c q); LPhase ph']).
        { unfold iv_at, with_vars, params. cbn [internal_vars flat_map]. rewrite (nth_error_nth' ss (fun _ => LNum 0)) by lia. rewrite (nth_error_nth' es (fun _ => LNum 0)) by lia.
          rewrite !(nth_error_map_seq _ nc c Hc). cbn [app]. unfold entry in F1, F2, F3. rewrite F1, F2. unfold entry. rewrite F3. reflexivity. }
        rewrite IV. reflexivity. }
      split; [|split; [exists pT; split; [first [reflexivity|exact E1]|first [reflexivity|exact E2]]|split; [intros X; contradiction|intros _; split; [reflexivity|exact STEP]]]].
      unfold vars_ok. cbn [l_vars]. do 4 eexists. split; [reflexivity|]. rewrite !map_length, !seq_length. do 4 (split; [reflexivity|]). intros c q Hc.
      destruct (H c q Hc) as (t & e & v & ph & A1 & A2 & A3 & A4 & A5 & A6 & A7). destruct STEP as (pr & _ & ST). destruct (ST c q Hc t e ph A1 A2 A4) as (B1 & B2 & B3 & _).
      do 4 eexists. split; [exact B3|]. split; [exact B2|]. split; [unfold entry; rewrite map_seq_nth by exact Hc; reflexivity|]. split; [exact B1|].
      split; [apply lreturn_carried; exact D|]. split; [apply lreturn_symmetric; auto|]. intros a b _ _. unfold strain. req; ring.
    - injection E as <-. split; [|split; [exists pT; split; [first [reflexivity|exact E1]|first [reflexivity|exact E2]]|split; [intros _; cbn; auto|intros X; contradiction]]].
      exists ss, es, ds, ps. cbn [l_vars]. split; [exact EV|]. do 4 (split; [assumption|]). exact H.
  Qed.

  Section History.
    Variables (n : nat) (h : list laser_state).
    Hypothesis RUN : laser_run solve_T solve_u problem_T problem_u fu P n = Ok h.
    Let s0 := laser_start fu.
    Lemma h_len : length h = n.
    Proof. exact (proj1 (loop_spec n 0 s0 h RUN)). Qed.
    Lemma h_pass i : (i < n)%nat -> pass i (nth i (s0 :: h) no_state) = Ok (nth i h no_state).
    Proof. exact (proj2 (loop_spec n 0 s0 h RUN) i). Qed.
    Lemma h_ok i : (i <= n)%nat -> vars_ok (nth i (s0 :: h) no_state).
    Proof.
      induction i as [|i IH]; intros Hi; [exact start_ok|]. change (nth (S i) (s0 :: h) no_state) with (nth i h no_state).
      exact (proj1 (pass_spec i _ _ (IH ltac:(lia)) (h_pass i ltac:(lia)))).
    Qed.

    (** temperatures seen by the mechanical problem up to pass i - 1 *)
    Definition sampled (m c q : nat) : list R := map (fun j => temperature fu (nth (10 * j + 9) h no_state) c q) (seq 0 m).
    Lemma sampled_S m c q : sampled (S m) c q = sampled m c q ++ [temperature fu (nth (10 * m + 9) h no_state) c q].
    Proof. unfold sampled. rewrite seq_S, map_app. reflexivity. Qed.
    Lemma tens i : (((i + 1) mod 10)%nat = 0%nat -> ((i + 1) / 10 = S (i / 10) /\ 10 * (i / 10) + 9 = i)%nat) /\ (((i + 1) mod 10)%nat <> 0%nat -> ((i + 1) / 10 = i / 10)%nat).
    Proof.
      pose proof (Nat.div_mod i 10 ltac:(lia)) as A. pose proof (Nat.div_mod (i + 1) 10 ltac:(lia)) as B. pose proof (Nat.mod_upper_bound i 10 ltac:(lia)) as C. pose proof (Nat.mod_upper_bound (i + 1) 10 ltac:(lia)).
      set (a := (i / 10)%nat) in *. set (b := ((i + 1) / 10)%nat) in *. set (r := (i mod 10)%nat) in *. set (r' := ((i + 1) mod 10)%nat) in *. split; intros; lia.
    Qed.
    Lemma h_phase i c q : (i <= n)%nat -> (c < nc)%nat -> has_phase (nth i (s0 :: h) no_state) c q (phase_fold (sampled (i / 10) c q)).
    Proof.
      intros Hi Hc. induction i as [|i IH].
      - unfold has_phase, var, s0, laser_start, mech_init. cbn [nth l_vars]. now rewrite repeat_nth by exact Hc.
      - specialize (IH ltac:(lia)). destruct (pass_spec i _ _ (h_ok i ltac:(lia)) (h_pass i ltac:(lia))) as (_ & _ & SK & ST). destruct (tens i) as (T1 & T2).
        change (nth (S i) (s0 :: h) no_state) with (nth i h no_state). replace (S i) with (i + 1)%nat by lia.
        destruct (Nat.eq_dec ((i + 1) mod 10) 0) as [M|M].
        + destruct (T1 M) as (Q1 & Q2). rewrite Q1, sampled_S, phase_snoc, Q2. destruct (ST M) as (_ & pr & _ & STEP).
          destruct (h_ok i ltac:(lia)) as (ss & es & ds & ps & _ & _ & _ & _ & _ & V). destruct (V c q Hc) as (t & e & v & ph & A1 & A2 & _).
          exact (proj1 (STEP c q Hc t e _ A1 A2 IH)).
        + rewrite (T2 M). unfold has_phase, var in IH |- *. rewrite (proj1 (proj2 (SK M))). exact IH.
    Qed.
    (** the temperatures subtracted are those of the last mechanical pass *)
    Lemma h_Tu i : (i <= n)%nat -> l_Tu (nth i (s0 :: h) no_state) = l_T (nth (10 * (i / 10)) (s0 :: h) no_state).
    Proof.
      induction i as [|i IH]; intros Hi; [reflexivity|]. specialize (IH ltac:(lia)). destruct (pass_spec i _ _ (h_ok i ltac:(lia)) (h_pass i ltac:(lia))) as (_ & _ & SK & ST). destruct (tens i) as (T1 & T2).
      change (nth (S i) (s0 :: h) no_state) with (nth i h no_state). replace (S i) with (i + 1)%nat by lia. destruct (Nat.eq_dec ((i + 1) mod 10) 0) as [M|M].
      - destruct (T1 M) as (Q1 & Q2). rewrite Q1. rewrite (proj1 (ST M)). replace (10 * S (i / 10))%nat with (S i) by lia. reflexivity.
      - rewrite (T2 M), (proj1 (SK M)). exact IH.
    Qed.
    Hypothesis SHAPE : forall p T, solve_T p = Ok T -> shaped (length (points fu)) 1 T.
    Lemma h_shape i : (i <= n)%nat -> shaped (length (points fu)) 1 (l_T (nth i (s0 :: h) no_state)).
    Proof.
      destruct i as [|i]; intros Hi.
      - unfold s0, laser_start. cbn [nth l_T]. split; [apply repeat_length|]. intros row R. apply repeat_spec in R. now subst.
      - destruct (pass_spec i _ _ (h_ok i ltac:(lia)) (h_pass i ltac:(lia))) as (_ & (pT & _ & E) & _). exact (SHAPE _ _ E).
    Qed.
    Hypothesis MESH : mesh_ok fu.
    (** a mechanical pass *)
    Lemma h_mech m : (10 * m + 9 < n)%nat -> let before := nth (10 * m) (s0 :: h) no_state in let after := nth (10 * m + 9) h no_state in
      exists params, solve_u (with_vars problem_u params) (l_u before) = Ok (l_u after) /\
      forall c q, (c < nc)%nat -> let e := strain (sol_to_grad P fu (l_u after) c q) in
        exists so eo s1 ph, has_stress before c q so /\ has_strain before c q eo /\ has_stress after c q s1 /\ has_strain after c q e /\ has_phase after c q ph /\
          s1 = laser_return (dim fu) (sol_to_grad P fu (l_u after) c q) so eo (temperature fu after c q - temperature fu before c q) ph /\
          stress (with_vars problem_u params) fu P (l_u after) c q = s1.
    Proof.
      intros Hm before after. set (i := (10 * m + 9)%nat) in *.
      assert (MM : ((i + 1) mod 10 = 0)%nat) by (unfold i; replace (10 * m + 9 + 1)%nat with ((m + 1) * 10)%nat by lia; apply Nat.mod_mul; lia).
      assert (QQ : (i / 10 = m)%nat) by (destruct (proj1 (tens i) MM) as (_ & Q); unfold i in Q at 2; lia).
      assert (SAME : forall k, (k <= 9)%nat -> l_vars (nth (10 * m + k) (s0 :: h) no_state) = l_vars before /\ l_u (nth (10 * m + k) (s0 :: h) no_state) = l_u before).
      { induction k as [|k IH]; intros Hk; [rewrite Nat.add_0_r; auto|]. destruct (IH ltac:(lia)) as (I1 & I2).
        destruct (pass_spec (10 * m + k) _ _ (h_ok (10 * m + k) ltac:(lia)) (h_pass (10 * m + k) ltac:(lia))) as (_ & _ & SK & _).
        assert (NZ : ((10 * m + k + 1) mod 10 <> 0)%nat) by (replace (10 * m + k + 1)%nat with ((k + 1) + m * 10)%nat by lia; rewrite Nat.mod_add, Nat.mod_small by lia; lia).
        replace (10 * m + S k)%nat with (S (10 * m + k)) by lia. change (nth (S (10 * m + k)) (s0 :: h) no_state) with (nth (10 * m + k) h no_state).
        destruct (SK NZ) as (_ & S2 & S3). rewrite S2, S3. auto. }
      destruct (SAME 9%nat ltac:(lia)) as (SV & SU). fold i in SV, SU.
      destruct (pass_spec i _ _ (h_ok i ltac:(lia)) (h_pass i Hm)) as (_ & _ & _ & ST). destruct (ST MM) as (_ & params & E & STEP). fold after in E, STEP.
      exists params. rewrite SU in E. split; [exact E|]. intros c q Hc e. destruct (h_ok i ltac:(lia)) as (ss & es & ds & ps & _ & _ & _ & _ & _ & V).
      destruct (V c q Hc) as (so & eo & v & ph & A1 & A2 & _ & A4 & _). destruct (STEP c q Hc so eo ph A1 A2 A4) as (B1 & B2 & B3 & B4).
      assert (EDT : convert_from_dof_to_quad fu (minus_sol (l_T after) (l_Tu (nth i (s0 :: h) no_state))) c q 0%nat = temperature fu after c q - temperature fu before c q).
      { rewrite (h_Tu i ltac:(lia)), QQ. fold before. apply minus_quad; [exact MESH|exact Hc|exact (h_shape (S i) ltac:(lia))|exact (h_shape (10 * m) ltac:(lia))]. }
      rewrite EDT in B3, B4. exists so, eo. eexists. exists (next_phase ph (temperature fu after c q)).
      split; [unfold has_stress, var in A1 |- *; rewrite <- SV; exact A1|]. split; [unfold has_strain, var in A2 |- *; rewrite <- SV; exact A2|]. split; [exact B3|]. split; [exact B2|]. split; [exact B1|]. split; [reflexivity|exact B4].
    Qed.
  End History.
  Lemma loop_runs n : (exists f b0 b1 r, fes problem_T = f :: r /\ boundary_inds_list problem_T = [b0; b1]) ->
    (forall p, exists T, solve_T p = Ok T) -> (forall p g, exists u, solve_u p g = Ok u) ->
    forall i s, vars_ok s -> exists h, laser_loop solve_T solve_u problem_T problem_u fu P n i s = Ok h.
  Proof.
    intros (f & b0 & b1 & r & EF & EB) ST SU. induction n as [|n IH]; intros i s OK; [eexists; reflexivity|]. cbn [laser_loop]. fold pass.
    assert (exists s', pass i s = Ok s') as (s' & E).
    { destruct OK as (ss & es & ds & ps & EV & Ls & Le & Ld & Lp & _). unfold pass, laser_pass, heat_params. rewrite EF, EB. cbn [bind].
      match goal with |- context [solve_T ?p] => destruct (ST p) as (T & ->) end. cbn [bind]. destruct (_ =? _)%nat; [|eexists; reflexivity].
      unfold update_dT_and_phase. rewrite EV. fold nc. rewrite Lp, Nat.eqb_refl. cbn [bind].
      match goal with |- context [solve_u ?p ?g] => destruct (SU p g) as (u & ->) end. cbn [bind]. unfold mech_update. fold nc. rewrite Ls, Le, !map_length, !seq_length, !Nat.eqb_refl. cbn [andb bind]. eexists; reflexivity. }
    rewrite E. cbn [bind]. destruct (IH (S i) s' (proj1 (pass_spec i s s' OK E))) as (h & ->). eexists; reflexivity.
  Qed.
End Run.
