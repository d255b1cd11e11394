(** Load histories of crystal plasticity, for C93. *)
From Coq Require Import Reals List Arith Lia Lra Bool.
From Verif Require Import Num Arr ArrFacts Fe FeFacts SpecFe Problem SpecAssembly SpecWeak SpecEnergy Elastic ElasticFacts Plasticity SpecPlasticity PlasticityFacts
  Lagrangian SpecLagrangian LagrangianFacts LagrangianMain FinPlast SpecFinPlast FinPlastFacts FinPlastMain CrystalPlast SpecCrystal CrystalFacts CrystalSolve CrystalMain.
Import ListNotations.
Local Open Scope R_scope.

Section Loop.
  Variables (tb : list (list R)) (dt : R) (LS : tensor -> vect -> vect).
  Variables (f : fe Rops) (P : list (list Rops)) (fuel : nat) (solve : nat -> problem Rops cp_var -> list (list Rops) -> result (list (list Rops))).
  Definition four_arrays (ivs : list (list (nat -> cp_var))) : Prop :=
    exists a b c d, ivs = [a; b; c; d] /\ length a = num_cells f /\ length b = num_cells f /\ length c = num_cells f /\ length d = num_cells f.
  Definition orientation (quat : list vect) (inds : list nat) (c : nat) : tensor := get_rot_mat (nth (Nat.min (nth c inds 0%nat) (length quat - 1)) quat (fun _ => 0)).
  Lemma cinit quat inds ivs : cp_init tb f quat inds = Ok ivs -> length inds = num_cells f -> four_arrays ivs /\
    forall c q, (c < num_cells f)%nat -> kept_Fp ivs c q = eye3 /\ (forall s, kept_g ivs c q s = 608 / 10) /\ (forall s, kept_slip ivs c q s = 0) /\ kept_rot ivs c q = orientation quat inds c.
  Proof.
    unfold cp_init. destruct (negb (num_slip_sys tb mod 3 =? 0)%nat); [discriminate|]. destruct (dim f <? 3)%nat; [discriminate|]. cbv zeta. intros H HI. injection H as <-. split.
    - do 4 eexists. split; [reflexivity|]. rewrite !repeat_length, !map_length. auto.
    - intros c q Hc. unfold kept_Fp, kept_g, kept_slip, kept_rot, ckept. cbn [nth].
      assert (N : forall (x : nat -> cp_var), nth c (repeat x (length (cells f))) (fun _ => CV (fun _ => 0)) = x) by (intros x; rewrite (nth_indep _ _ x) by (rewrite repeat_length; exact Hc); apply nth_repeat).
      rewrite !N. cbn [as_t as_v]. split; [reflexivity|]. split; [intros s; unfold gss_initial; lra|]. split; [reflexivity|].
      rewrite map_map. rewrite (nth_map_in _ _ _ 0%nat) by (rewrite HI; exact Hc). reflexivity.
  Qed.
  Lemma cunpack a b c d : length a = num_cells f -> length b = num_cells f -> length c = num_cells f -> length d = num_cells f -> cp_unpack f [a; b; c; d] = Ok (a, b, c, d).
  Proof. intros H1 H2 H3 H4. unfold cp_unpack. now rewrite H1, H2, H3, H4, !Nat.eqb_refl. Qed.
  Lemma nth_ccells {A} (g : nat -> A) c d : (c < num_cells f)%nat -> nth c (map g (seq 0 (num_cells f))) d = g c.
  Proof. intros H. rewrite (nth_indep _ d (g 0%nat)) by (rewrite map_length, seq_length; exact H). rewrite map_nth, seq_nth by exact H. reflexivity. Qed.
  Lemma all_done_true {A} (g : nat -> nat -> option A) : all_done f g = true <-> forall c q, (c < num_cells f)%nat -> (q < num_quads f)%nat -> exists a, g c q = Some a.
  Proof.
    unfold all_done. rewrite forallb_forall. split.
    - intros H c q Hc Hq. specialize (H c ltac:(apply in_seq; lia)). rewrite forallb_forall in H. specialize (H q ltac:(apply in_seq; lia)). destruct (g c q); [now eexists|discriminate].
    - intros H c Hc. apply in_seq in Hc. apply forallb_forall. intros q Hq. apply in_seq in Hq. destruct (H c q) as (a & ->); [lia|lia|reflexivity].
  Qed.
  Definition S_at (sol : list (list Rops)) (ivs : list (list (nat -> cp_var))) (c q : nat) : option tensor :=
    solved_S tb dt LS fuel (sol_to_grad P f sol c q) (kept_Fp ivs c q) (kept_g ivs c q) (kept_slip ivs c q) (kept_rot ivs c q).
  Definition new_at (sol : list (list Rops)) (ivs : list (list (nat -> cp_var))) (c q : nat) (S : tensor) : helper_out :=
    helper tb dt (sol_to_grad P f sol c q) (kept_Fp ivs c q) (kept_g ivs c q) (kept_slip ivs c q) (kept_rot ivs c q) S.
  Lemma update_cases sol ivs : four_arrays ivs ->
    (cp_update_gp tb dt LS f P fuel sol ivs = None /\ ~ (forall c q, (c < num_cells f)%nat -> (q < num_quads f)%nat -> exists S, S_at sol ivs c q = Some S)) \/
    exists ivs', cp_update_gp tb dt LS f P fuel sol ivs = Some (Ok ivs') /\ four_arrays ivs' /\ forall c q, (c < num_cells f)%nat -> (q < num_quads f)%nat -> exists S, S_at sol ivs c q = Some S /\
      kept_Fp ivs' c q = Fp_inv_new (new_at sol ivs c q S) /\ kept_g ivs' c q = slip_resistance_new (new_at sol ivs c q S) /\ kept_slip ivs' c q = slip_new (new_at sol ivs c q S) /\
      kept_rot ivs' c q = kept_rot ivs c q.
  Proof.
    intros (a & b & c0 & d & -> & H1 & H2 & H3 & H4). unfold cp_update_gp. rewrite (cunpack a b c0 d H1 H2 H3 H4).
    match goal with |- context [all_done f ?g] => set (upd := g) end; destruct (all_done f upd) eqn:AD.
    - right. rewrite all_done_true in AD. eexists. split; [reflexivity|]. split; [do 4 eexists; split; [reflexivity|]; now rewrite !map_length, seq_length|].
      intros c q Hc Hq. destruct (AD c q Hc Hq) as (x & Ex). pose proof Ex as Ex'. unfold upd, cp_update in Ex. change (cp_grads f P sol c q) with (sol_to_grad P f sol c q) in Ex.
      set (ivs := [a; b; c0; d]). assert (ES : exists S, S_at sol ivs c q = Some S).
      { unfold S_at, kept_Fp, kept_g, kept_slip, kept_rot, ckept, ivs. cbn [nth]. unfold t_at, v_at in Ex. destruct (solved_S tb dt LS fuel (sol_to_grad P f sol c q) _ _ _ _) as [S|]; [now exists S|discriminate]. }
      destruct ES as (S & ES). exists S. split; [exact ES|]. unfold S_at, kept_Fp, kept_g, kept_slip, kept_rot, ckept, ivs in ES. cbn [nth] in ES. unfold t_at, v_at in Ex. rewrite ES in Ex. cbn [option_map] in Ex. injection Ex as Ex.
      unfold kept_Fp at 1, kept_g at 1, kept_slip at 1, kept_rot at 1, ckept. cbn [nth]. rewrite !nth_ccells by exact Hc. cbn [as_t as_v]. unfold upd in Ex'; cbv beta in Ex'; rewrite ?Ex'; unfold upd; rewrite ?Ex'. cbn [value]. rewrite <- Ex. cbn [fst snd]. repeat split.
    - left. split; [reflexivity|]. intros H. assert (C : all_done f upd = true); [|rewrite AD in C; discriminate]. apply all_done_true. intros c q Hc Hq. destruct (H c q Hc Hq) as (S & ES).
      unfold S_at, kept_Fp, kept_g, kept_slip, kept_rot, ckept in ES. cbn [nth] in ES. unfold upd, cp_update, t_at, v_at. change (cp_grads f P sol c q) with (sol_to_grad P f sol c q). rewrite ES. now eexists.
  Qed.
  Definition PK_at sol ivs c q (S : tensor) : tensor := PK_of tb dt (sol_to_grad P f sol c q) (kept_Fp ivs c q) (kept_g ivs c q) (kept_slip ivs c q) (kept_rot ivs c q) S.
  Lemma avg_cases sol ivs : four_arrays ivs ->
    (compute_avg_stress tb dt LS f P fuel sol ivs = None /\ ~ (forall c q, (c < num_cells f)%nat -> (q < num_quads f)%nat -> exists S, S_at sol ivs c q = Some S)) \/
    exists sg, compute_avg_stress tb dt LS f P fuel sol ivs = Some (Ok sg) /\ length sg = num_cells f /\ forall T, (forall c q, (c < num_cells f)%nat -> (q < num_quads f)%nat -> S_at sol ivs c q = Some (T c q)) ->
      forall c i j, (c < num_cells f)%nat -> nth c sg (fun _ _ => 0) i j =
      sum_n (K := Rops) (num_quads f) (fun q => P_to_sigma (PK_at sol ivs c q (T c q)) (def_grad (sol_to_grad P f sol c q)) i j * get_JxW P f c q) / sum_n (K := Rops) (num_quads f) (fun q => get_JxW P f c q).
  Proof.
    intros (a & b & c0 & d & -> & H1 & H2 & H3 & H4). unfold compute_avg_stress. rewrite (cunpack a b c0 d H1 H2 H3 H4).
    match goal with |- context [all_done f ?g] => set (pk := g) end; destruct (all_done f pk) eqn:AD.
    - right. eexists. split; [reflexivity|]. split; [now rewrite map_length, seq_length|]. intros T HT c i j Hc. rewrite nth_ccells by exact Hc. f_equal. apply sum_n_ext. intros q Hq. f_equal.
      pose proof (HT c q Hc Hq) as ES. unfold S_at, kept_Fp, kept_g, kept_slip, kept_rot, ckept in ES. cbn [nth] in ES.
      assert (EP : pk c q = Some (PK_at sol [a; b; c0; d] c q (T c q))).
      { unfold pk, cp_stress, t_at, v_at. change (cp_grads f P sol c q) with (sol_to_grad P f sol c q). rewrite ES. reflexivity. }
      unfold pk in EP; cbv beta in EP; rewrite ?EP; unfold pk; rewrite ?EP. reflexivity.
    - left. split; [reflexivity|]. intros H. assert (C : all_done f pk = true); [|rewrite AD in C; discriminate]. apply all_done_true. intros c q Hc Hq. destruct (H c q Hc Hq) as (S & ES).
      unfold S_at, kept_Fp, kept_g, kept_slip, kept_rot, ckept in ES. cbn [nth] in ES. unfold pk, cp_stress, t_at, v_at. change (cp_grads f P sol c q) with (sol_to_grad P f sol c q). rewrite ES. now eexists.
  Qed.
  Lemma civ_kept (p : problem Rops cp_var) ivs c q : four_arrays ivs -> (c < num_cells f)%nat ->
    iv_at (with_vars p ivs) c q = [ckept ivs 0 c q; ckept ivs 1 c q; ckept ivs 2 c q; ckept ivs 3 c q].
  Proof.
    intros (a & b & c0 & d & -> & H1 & H2 & H3 & H4) Hc. unfold iv_at, ckept. cbn [internal_vars with_vars flat_map nth].
    rewrite (nth_error_nth' a (fun _ => CV (fun _ => 0))) by lia. rewrite (nth_error_nth' b (fun _ => CV (fun _ => 0))) by lia. rewrite (nth_error_nth' c0 (fun _ => CV (fun _ => 0))) by lia.
    rewrite (nth_error_nth' d (fun _ => CV (fun _ => 0))) by lia. reflexivity.
  Qed.
  Definition no_cp : cp_step := mkCp (mkProblem [] [] (cp_maps tb dt LS fuel) [] []) [] [] [].
  Lemma cloop_spec n : forall k p sol ivs h, four_arrays ivs -> cp_loop tb dt LS f P fuel solve n k p sol ivs = Some (Ok h) -> length h = n /\
    forall i, (i < n)%nat -> let before := nth i (ivs :: map cp_vars h) [] in let s := nth i h no_cp in
      four_arrays before /\ four_arrays (cp_vars s) /\ (exists p0, cp_problem s = with_vars p0 before /\ fes p0 = fes p /\ maps p0 = maps p /\ boundary_inds_list p0 = boundary_inds_list p) /\
      solve (k + i)%nat (cp_problem s) (nth i (sol :: map cp_sol h) []) = Ok (cp_sol s) /\
      compute_avg_stress tb dt LS f P fuel (cp_sol s) before = Some (Ok (cp_sigma s)) /\ cp_update_gp tb dt LS f P fuel (cp_sol s) before = Some (Ok (cp_vars s)).
  Proof.
    induction n as [|n IH]; intros k p sol ivs h T L.
    - injection L as <-. split; [reflexivity|]. intros i Hi. lia.
    - cbn in L. destruct (solve k (with_vars p ivs) sol) as [sol'|e] eqn:ES; [|discriminate].
      destruct (avg_cases sol' ivs T) as [(EG & _)|(sg & EG & _)]; rewrite EG in L; [discriminate|].
      destruct (update_cases sol' ivs T) as [(EU & _)|(ivs' & EU & T' & _)]; rewrite EU in L; [discriminate|].
      destruct (cp_loop tb dt LS f P fuel solve n (Datatypes.S k) (with_vars p ivs) sol' ivs') as [[rest|e]|] eqn:EL; [|discriminate|discriminate]. injection L as <-.
      destruct (IH _ _ _ _ _ T' EL) as (LN & HI). split; [cbn; f_equal; exact LN|]. intros [|i] Hi.
      + cbn. rewrite Nat.add_0_r. split; [exact T|]. split; [exact T'|]. split; [exists p; auto|]. auto.
      + specialize (HI i ltac:(lia)). cbv zeta in HI. cbv zeta. cbn [map cp_vars cp_sol nth]. replace (k + Datatypes.S i)%nat with (Datatypes.S k + i)%nat by lia.
        exact HI.
  Qed.
  (** it ends with a history or with the solver's error, or a local solve is still running *)
  Lemma cloop_cases n : forall k p sol ivs, four_arrays ivs -> cp_loop tb dt LS f P fuel solve n k p sol ivs = None \/ (exists h, cp_loop tb dt LS f P fuel solve n k p sol ivs = Some (Ok h)) \/
    exists e i p' s, cp_loop tb dt LS f P fuel solve n k p sol ivs = Some (Err e) /\ solve i p' s = Err e.
  Proof.
    induction n as [|n IH]; intros k p sol ivs T; [right; left; now eexists|]. cbn. destruct (solve k (with_vars p ivs) sol) as [sol'|e] eqn:ES; [|right; right; now exists e, k, (with_vars p ivs), sol].
    destruct (avg_cases sol' ivs T) as [(-> & _)|(sg & -> & _)]; [now left|]. destruct (update_cases sol' ivs T) as [(-> & _)|(ivs' & -> & T' & _)]; [now left|].
    destruct (IH (Datatypes.S k) (with_vars p ivs) sol' ivs' T') as [-> | [(h & ->)|(e & i & p' & s & -> & E)]]; [now left|right; left; now eexists|right; right; now exists e, i, p', s].
  Qed.
  Lemma cloop_next ivs (h : list cp_step) m : (m < length h)%nat -> nth (Datatypes.S m) (ivs :: map cp_vars h) [] = cp_vars (nth m h no_cp).
  Proof. intros H. cbn [nth]. rewrite (nth_indep _ [] (cp_vars no_cp)) by (rewrite map_length; lia). apply map_nth. Qed.
  (** orientation and resistances *)
  Lemma cloop_kept n k p sol ivs h c q M : four_arrays ivs -> cp_loop tb dt LS f P fuel solve n k p sol ivs = Some (Ok h) -> (c < num_cells f)%nat -> (q < num_quads f)%nat ->
    kept_rot ivs c q = M -> (forall s s', kept_g ivs c q s = kept_g ivs c q s') ->
    forall m, (m <= n)%nat -> let v := nth m (ivs :: map cp_vars h) [] in kept_rot v c q = M /\ forall s s', kept_g v c q s = kept_g v c q s'.
  Proof.
    intros T L Hc Hq HM HG. destruct (cloop_spec n k p sol ivs h T L) as (LN & H). induction m as [|m IH]; intros Hm; [split; assumption|].
    specialize (IH ltac:(lia)). cbv zeta in *. rewrite cloop_next by lia. destruct (H m ltac:(lia)) as (T1 & _ & _ & _ & _ & EU).
    destruct (update_cases (cp_sol (nth m h no_cp)) _ T1) as [(EU' & _)|(ivs' & EU' & _ & K)]; rewrite EU' in EU; [discriminate|]. injection EU as <-.
    destruct (K c q Hc Hq) as (S & _ & _ & K2 & _ & K4). rewrite K4, K2. split; [exact (proj1 IH)|]. intros s s'. unfold new_at. rewrite !hardening, (proj2 IH s s'). reflexivity.
  Qed.
End Loop.
