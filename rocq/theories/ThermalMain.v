(** Main theorems of C72. *)
From Coq Require Import String Reals List Arith Lia Bool Permutation.
From Verif Require Import Num Arr ArrFacts Fe Problem SpecAssembly BatchFacts ProblemFacts AssemblyFacts SolverBc Basis SpecBasis SpecFe FeFacts GeomFacts SpecBc BcFacts BcMain
  SpecSelect SelectFacts SpecWeak KernelFacts BalanceFacts Init SpecInit InitFacts Quiet SpecQuiet QuietFacts QuietMain Thermal SpecThermal ThermalFacts.
Import ListNotations.

Section Loop.
  Variables (solve : problem Rops tval -> result (list (list Rops))) (info : list (location_fn Rops) * list nat * list (list Rops -> Rops)).
  Variable cf : list (list (list nat)).
  Lemma simulate_snoc passes : forall s ps, simulate solve info cf s (passes ++ [ps]) =
    bind (simulate solve info cf s passes) (fun r => bind (prepare info cf (snd r) ps) (fun s' =>
      bind (solve (sm_problem s')) (fun T => Ok (s', mkSim (sm_faces s') (sm_tables s') (sm_problem s') T)))).
  Proof.
    induction passes as [|p0 rest IH]; intros s ps; [reflexivity|]. cbn [app simulate].
    destruct (prepare info cf s p0) as [s1|]; [|reflexivity]. cbn [bind].
    destruct rest as [|p1 rest].
    - cbn [app]. destruct (solve (sm_problem s1)) as [T|]; [|reflexivity]. reflexivity.
    - change ((p1 :: rest) ++ [ps]) with (p1 :: (rest ++ [ps])) in IH |- *. cbn iota.
      destruct (solve (sm_problem s1)) as [T|]; [|reflexivity]. cbn [bind]. exact (IH _ ps).
  Qed.
End Loop.

Lemma activated_snoc tab passes ps c : activated tab (passes ++ [ps]) c = activated tab passes c || ps_born ps c.
Proof. unfold activated. rewrite existsb_app. cbn. now rewrite orb_false_r, orb_assoc. Qed.
Lemma after_nth n tab passes c : c < n -> nth c (active_after n tab passes) false = activated tab passes c.
Proof. intros H. unfold active_after. rewrite (nth_map_in _ _ _ 0) by (now rewrite seq_length). now rewrite seq_nth. Qed.
Lemma after_length n tab passes : length (active_after n tab passes) = n.
Proof. unfold active_after. now rewrite map_length, seq_length. Qed.
Lemma after_nil n tab : length tab = n -> active_after n tab [] = tab.
Proof.
  intros <-. apply (list_ext false); [apply after_length|]. intros c Hc. rewrite after_length in Hc. rewrite after_nth by auto. unfold activated. cbn. apply orb_false_r.
Qed.
Lemma after_snoc n tab passes ps : map (fun c => nth c (active_after n tab passes) false || ps_born ps c) (seq 0 n) = active_after n tab (passes ++ [ps]).
Proof. apply map_ext_in. intros c Hc. apply in_seq in Hc. rewrite after_nth by lia. symmetry. apply activated_snoc. Qed.
Lemma map2_eqb_refl (a : list bool) : forallb (fun b => b) (map2 Bool.eqb a a) = true.
Proof. induction a as [|x a IH]; [reflexivity|]. cbn. now rewrite Bool.eqb_reflx. Qed.

Section Run.
  Variables (sqrtK : Rops -> Rops) (s : string) (quad fquad : list (list Rops) * list Rops) (normals : nat -> nat -> Rops)
    (pts : list (list Rops)) (cls : list (list nat)) (f0 : fe Rops).
  Let built f := exists dir, fe_init sqrtK s quad fquad normals pts cls 1 3 dir = Ok f.
  Hypothesis BUILT0 : built f0.
  Hypothesis MESH : mesh_ok f0.
  Let fi := face_inds f0.
  Variable b : list (nat * nat).
  Hypothesis NDB : NoDup b.
  Hypothesis INB : forall c fc, In (c, fc) b <-> c < length cls /\ fc < length fi.
  Variable tab0 : list bool.
  Hypothesis L0 : length tab0 = length cls.
  Let n := length cls.
  Let cf := faces_of cls fi.

  Definition tables_ok (tab : list bool) (top : list (list R) -> bool) (ft : list (bool * bool)) (q : list nat) : Prop :=
    length ft = length b /\
    (forall i c fc, nth_error b i = Some (c, fc) ->
        (fst (nth i ft (false, false)) = true <-> outer_face cls fi tab c fc) /\
        (snd (nth i ft (false, false)) = true <-> outer_face cls fi tab c fc /\ top (map (fun n => nth n pts []) (face_nodes cls fi c fc)) = true)) /\
    get_quiet_point_inds_set (length pts) cls tab = Ok q.
  Definition like (p : problem Rops tval) : Prop := exists f, fes p = [f] /\ built f /\ cells f = cls /\ points f = pts /\ face_inds f = fi /\
    boundary_inds_list p = [b] /\ maps p = thermal_maps.
  Definition inv (passes : list pass) (x : sim) : Prop :=
    like (sm_problem x) /\
    (exists st, sm_faces x = (active_after n tab0 passes, set_minus (h_all st) (h_inner st), st) /\ good cf st /\ covers cf (active_after n tab0 passes) st) /\
    match sm_tables x with
    | None => forall c, c < n -> activated tab0 passes c = activated tab0 [] c
    | Some (ft, q) => exists psb, last_birth n tab0 passes psb /\ tables_ok (active_after n tab0 passes) (ps_top psb) ft q
    end.

  Lemma quiet_update_ok (f : fe Rops) q : exists f', update_Dirichlet_boundary_conditions f (Some ([Loc2 (dirichlet_location_fn q)], [0], [ambient])) = Ok f'.
  Proof.
    unfold update_Dirichlet_boundary_conditions.
    destruct (proj2 (proj2 (dirichlet_spec (K := Rops) (points f) [Loc2 (dirichlet_location_fn q)] [0] [ambient]))) as (ns & vs & ws & E & _); try reflexivity.
    rewrite E. eauto.
  Qed.
  (** set_params always succeeds and gives the problem of [ThermalFacts] *)
  Lemma set_params_ok p T dt ctr sw q tab ft : like p ->
    exists f, set_params p thermal_bc T dt ctr sw q tab ft = Ok (the_problem f b T dt ctr sw tab ft) /\ built f /\ cells f = cls /\ points f = pts /\ face_inds f = fi /\
      exists f1, cells f1 = cls /\ points f1 = pts /\ update_Dirichlet_boundary_conditions f1 (Some ([Loc2 (dirichlet_location_fn q)], [0], [ambient])) = Ok f.
  Proof.
    intros (f1 & EF & (dir & BF) & EC & EP & EI & EB & EM). destruct (quiet_update_ok f1 q) as (f & U).
    exists f. pose proof (fe_init_update _ _ _ _ _ _ _ _ _ _ _ _ _ BF U) as BF'.
    unfold set_params. rewrite EF, EB, EM. cbn [thermal_bc]. rewrite U. cbn [bind].
    unfold update_Dirichlet_boundary_conditions in U. destruct (Dirichlet_boundary_conditions _ _) as [[[ns vs] ws]|] eqn:ED; [|discriminate]. injection U as <-.
    split; [reflexivity|]. split; [eexists; exact BF'|]. cbn [cells points face_inds]. repeat (split; [assumption|]).
    exists f1. repeat (split; [assumption|]). unfold update_Dirichlet_boundary_conditions. now rewrite ED.
  Qed.

  (** the outcome of a pass: the new problem and the facts the theorems use *)
  Definition prepared (passes : list pass) (last : pass) (Told : list (list Rops)) (p : problem Rops tval) : Prop :=
    exists f ft q psb, p = the_problem f b Told (ps_dt last) (ps_center last) (ps_switch last) (active_after n tab0 passes) ft /\
      built f /\ cells f = cls /\ points f = pts /\ face_inds f = fi /\ last_birth n tab0 passes psb /\ tables_ok (active_after n tab0 passes) (ps_top psb) ft q /\
      exists f1, cells f1 = cls /\ points f1 = pts /\ update_Dirichlet_boundary_conditions f1 (Some ([Loc2 (dirichlet_location_fn q)], [0], [ambient])) = Ok f.

  Lemma birth_found passes ps : active_after n tab0 (passes ++ [ps]) <> active_after n tab0 passes ->
    exists c, c < n /\ activated tab0 passes c = false /\ ps_born ps c = true.
  Proof.
    intros NE. destruct (existsb (fun c => negb (activated tab0 passes c) && ps_born ps c) (seq 0 n)) eqn:E.
    - apply existsb_exists in E as (c & I & B). apply in_seq in I. apply andb_true_iff in B as [B1 B2]. apply negb_true_iff in B1. exists c. split; [lia|auto].
    - exfalso. apply NE. unfold active_after. apply map_ext_in. intros c I. rewrite activated_snoc.
      destruct (activated tab0 passes c) eqn:A; [reflexivity|]. destruct (ps_born ps c) eqn:B; [|reflexivity].
      assert (X : existsb (fun c => negb (activated tab0 passes c) && ps_born ps c) (seq 0 n) = true) by (apply existsb_exists; exists c; split; [auto|now rewrite A, B]).
      congruence.
  Qed.

  Lemma prepare_ok passes x ps : inv passes x ->
    ((sm_tables x <> None \/ exists c, c < n /\ activated tab0 passes c = false /\ ps_born ps c = true) ->
       exists x', prepare thermal_bc cf x ps = Ok x' /\ inv (passes ++ [ps]) x' /\ sm_tables x' <> None /\ sm_T x' = sm_T x /\ prepared (passes ++ [ps]) ps (sm_T x) (sm_problem x')) /\
    (~ (sm_tables x <> None \/ exists c, c < n /\ activated tab0 passes c = false /\ ps_born ps c = true) -> prepare thermal_bc cf x ps = Err NameErr).
  Proof.
    intros (LK & (st & EF & G & C) & TB). pose proof LK as (f & Ef & BF & EC & EP & EI & EB & EM).
    assert (LA : length (active_after n tab0 passes) = length cf) by (unfold cf; now rewrite after_length, faces_length).
    assert (GR : grows (active_after n tab0 passes) (active_after n tab0 (passes ++ [ps]))).
    { split; [now rewrite !after_length|]. intros c Hc. destruct (Nat.lt_ge_cases c n) as [H|H].
      - rewrite after_nth in Hc |- * by auto. rewrite activated_snoc, Hc. reflexivity.
      - rewrite nth_overflow in Hc by (rewrite after_length; lia). discriminate. }
    destruct (forallb (fun b0 => b0) (map2 Bool.eqb (active_after n tab0 (passes ++ [ps])) (active_after n tab0 passes))) eqn:F.
    - assert (SAME : active_after n tab0 (passes ++ [ps]) = active_after n tab0 passes) by (apply map2_eqb_same; [now rewrite !after_length|exact F]).
      assert (NB : ~ exists c, c < n /\ activated tab0 passes c = false /\ ps_born ps c = true).
      { intros (c & Hc & A & B). pose proof (after_nth n tab0 (passes ++ [ps]) c Hc) as X. rewrite SAME, after_nth, activated_snoc, A, B in X by auto. discriminate. }
      assert (ACT : forall c, c < n -> activated tab0 (passes ++ [ps]) c = activated tab0 passes c).
      { intros c Hc. rewrite <- !(after_nth n) by auto. now rewrite SAME. }
      assert (PRE : prepare thermal_bc cf x ps = match sm_tables x with None => Err NameErr | Some (ft, q) =>
          bind (set_params (sm_problem x) thermal_bc (sm_T x) (ps_dt ps) (ps_center ps) (ps_switch ps) q (active_after n tab0 (passes ++ [ps])) ft) (fun p =>
          Ok (mkSim (active_after n tab0 (passes ++ [ps]), set_minus (h_all st) (h_inner st), st) (Some (ft, q)) p (sm_T x))) end).
      { unfold prepare. rewrite Ef, EB, EF. cbn [fst snd]. rewrite EC. fold n. rewrite after_snoc. unfold step. rewrite F. cbn [bind].
        destruct (sm_tables x) as [[ft q]|]; reflexivity. }
      destruct (sm_tables x) as [[ft q]|] eqn:ET.
      + split; [|intros N; exfalso; apply N; left; discriminate]. intros _. destruct TB as (psb & LB & TOK).
        destruct (set_params_ok (sm_problem x) (sm_T x) (ps_dt ps) (ps_center ps) (ps_switch ps) q (active_after n tab0 (passes ++ [ps])) ft LK) as (f' & SP & B1 & B2 & B3 & B4 & B5).
        rewrite PRE, SP. cbn [bind]. eexists. split; [reflexivity|].
        assert (LB' : last_birth n tab0 (passes ++ [ps]) psb).
        { destruct LB as (bf & af & EQ & X & Y). exists bf, (af ++ [ps]). split; [rewrite EQ, <- app_assoc; reflexivity|]. split; [exact X|].
          intros c Hc. rewrite ACT by auto. now apply Y. }
        assert (TOK' : tables_ok (active_after n tab0 (passes ++ [ps])) (ps_top psb) ft q) by now rewrite SAME.
        split; [|split; [discriminate|split; [reflexivity|]]].
        * split; [|split].
          -- exists f'. cbn. repeat (split; [assumption || reflexivity|]). reflexivity.
          -- exists st. cbn. split; [reflexivity|]. split; [exact G|]. rewrite SAME. exact C.
          -- cbn. exists psb. auto.
        * exists f', ft, q, psb. cbn. repeat (split; [assumption || reflexivity|]). exact B5.
      + split; [intros [N|N]; [congruence|contradiction]|]. intros _. exact PRE.
    - assert (NE : active_after n tab0 (passes ++ [ps]) <> active_after n tab0 passes) by (intros X; rewrite X, map2_eqb_refl in F; discriminate).
      destruct (birth_found passes ps NE) as (c & Hc & A & B). split; [intros _|intros N; exfalso; apply N; right; eauto].
      destruct (update_ok cf (active_after n tab0 passes) (active_after n tab0 (passes ++ [ps])) st LA GR G C) as (st' & EU & G' & C').
      set (ext := set_minus (h_all st') (h_inner st')) in *.
      assert (IE : forall c f, In (c, f) ext <-> outer_face cls fi (active_after n tab0 (passes ++ [ps])) c f).
      { intros c1 f1. unfold ext. rewrite (ext_outer cf _ st' G' C'). apply outer_iff. }
      destruct (table_ok (ps_top ps) pts cls fi b ext NDB) as [T1 T2].
      destruct (proj2 T1) as (ft & EFT). { intros [c1 f1] H. apply INB. apply IE in H as [(H1 & H2 & _) _]. auto. }
      destruct (T2 ft EFT) as [LFT TF].
      destruct (proj1 (quiet_ok (length pts) cls (active_after n tab0 (passes ++ [ps]))) ltac:(now rewrite after_length)) as (q & EQ).
      destruct (set_params_ok (sm_problem x) (sm_T x) (ps_dt ps) (ps_center ps) (ps_switch ps) q (active_after n tab0 (passes ++ [ps])) ft LK) as (f' & SP & B1 & B2 & B3 & B4 & B5).
      eexists. split.
      { unfold prepare. rewrite Ef, EB, EF. cbn [fst snd]. rewrite EC. fold n. rewrite after_snoc. unfold step. rewrite F, EU. cbn [bind fst snd].
        rewrite EP, EI, EFT. cbn [bind]. rewrite EQ. cbn [bind]. rewrite SP. cbn [bind]. reflexivity. }
      assert (LB' : last_birth n tab0 (passes ++ [ps]) ps).
      { exists passes, []. split; [reflexivity|]. split; [eauto|]. reflexivity. }
      assert (TOK' : tables_ok (active_after n tab0 (passes ++ [ps])) (ps_top ps) ft q).
      { split; [exact LFT|]. split; [|exact EQ]. intros i c1 f1 Hi. destruct (TF i (c1, f1) Hi) as [A1 A2]. rewrite A1, A2, IE. split; [reflexivity|].
        unfold face_points, face_nodes. cbn [fst snd]. now rewrite map_map. }
      split; [|split; [discriminate|split; [reflexivity|]]].
      + split; [|split].
        * exists f'. cbn. repeat (split; [assumption || reflexivity|]). reflexivity.
        * exists st'. cbn. auto.
        * cbn. exists ps. auto.
      + exists f', ft, q, ps. cbn. repeat (split; [assumption || reflexivity|]). exact B5.
  Qed.

  Variable solve : problem Rops tval -> result (list (list Rops)).
  Lemma simulate_inv passes x r : inv [] x -> simulate solve thermal_bc cf x passes = Ok r ->
    inv passes (snd r) /\ (passes <> [] -> exists ps rest, passes = rest ++ [ps] /\ prepared passes ps (sm_T (fst r)) (sm_problem (fst r)) /\
      solve (sm_problem (fst r)) = Ok (sm_T (snd r)) /\ sm_tables (snd r) <> None).
  Proof.
    intros I0. revert r. induction passes as [|ps rest IH] using rev_ind; intros r E.
    - cbn in E. injection E as <-. split; [exact I0|congruence].
    - rewrite simulate_snoc in E. destruct (simulate solve thermal_bc cf x rest) as [r0|] eqn:E0; [|discriminate]. cbn [bind] in E.
      destruct (IH r0 eq_refl) as [I1 _]. destruct (prepare_ok rest (snd r0) ps I1) as [P1 P2].
      destruct (prepare thermal_bc cf (snd r0) ps) as [x'|] eqn:EP; [|discriminate]. cbn [bind] in E.
      assert (CASE : sm_tables (snd r0) <> None \/ exists c, c < n /\ activated tab0 rest c = false /\ ps_born ps c = true).
      { destruct (sm_tables (snd r0)) eqn:ET; [left; discriminate|]. right.
        destruct (existsb (fun c => negb (activated tab0 rest c) && ps_born ps c) (seq 0 n)) eqn:EX.
        - apply existsb_exists in EX as (c & I & B). apply in_seq in I. apply andb_true_iff in B as [B1 B2]. apply negb_true_iff in B1. exists c. split; [lia|auto].
        - discriminate P2. intros [N|(c & Hc & A & B)]; [congruence|]. assert (X : existsb (fun c => negb (activated tab0 rest c) && ps_born ps c) (seq 0 n) = true).
          { apply existsb_exists. exists c. split; [apply in_seq; lia|now rewrite A, B]. } congruence. }
      destruct (P1 CASE) as (x1 & X1 & I2 & X2 & X3 & X4). injection X1 as <-.
      destruct (solve (sm_problem x')) as [T|] eqn:ES; [|discriminate]. cbn [bind] in E. injection E as <-. cbn [fst snd].
      split; [exact I2|]. intros _. exists ps, rest. split; [reflexivity|]. split; [rewrite X3; exact X4|]. split; [exact ES|]. exact X2.
  Qed.
  (** no error except from the solver, once a cell is born in the first pass *)
  Lemma simulate_total passes x : inv [] x -> (forall p, exists T, solve p = Ok T) ->
    (forall ps rest, passes = ps :: rest -> exists c, c < n /\ nth c tab0 false = false /\ ps_born ps c = true) ->
    exists r, simulate solve thermal_bc cf x passes = Ok r.
  Proof.
    intros I0 SV. induction passes as [|ps rest IH] using rev_ind; intros B; [cbn; eauto|].
    destruct IH as (r0 & E0). { intros p1 r1 ->. now apply (B p1 (r1 ++ [ps])). }
    rewrite simulate_snoc, E0. cbn [bind]. destruct (simulate_inv rest x r0 I0 E0) as [I1 T1].
    destruct (prepare_ok rest (snd r0) ps I1) as [P1 _]. destruct P1 as (x' & EP & _).
    - destruct rest as [|p1 r1].
      + right. destruct (B ps [] eq_refl) as (c & Hc & N & BC). exists c. split; auto. split; auto. unfold activated. now rewrite N.
      + left. destruct T1 as (? & ? & _ & _ & _ & T1); [discriminate|exact T1].
    - rewrite EP. cbn [bind]. destruct (SV (sm_problem x')) as (T & ES). rewrite ES. cbn. eauto.
  Qed.
  Lemma simulate_no_birth x ps rest : inv [] x -> sm_tables x = None -> (forall c, c < n -> nth c tab0 false = false -> ps_born ps c = false) ->
    simulate solve thermal_bc cf x (ps :: rest) = Err NameErr.
  Proof.
    intros I0 N H. cbn [simulate]. destruct (prepare_ok [] x ps I0) as [_ P2]. rewrite P2; [reflexivity|].
    intros [X|(c & Hc & A & B)]; [congruence|]. unfold activated in A. cbn in A. rewrite orb_false_r in A. rewrite (H c Hc A) in B. discriminate.
  Qed.
End Run.

Section Final.
  Variables (sqrtK : Rops -> Rops) (s : string) (quad fquad : list (list Rops) * list Rops) (normals : nat -> nat -> Rops)
    (pts : list (list Rops)) (cls : list (list nat)) (p : problem Rops tval) (solve : problem Rops tval -> result (list (list Rops))) (tab : list bool).
  Hypothesis INIT : problem_init sqrtK 3 [thermal_var s quad fquad normals pts cls] (Some [Loc1 (fun _ => true)]) thermal_maps (fun a b => (a, b)) = Ok p.
  Hypothesis MESH : mesh_arg_ok (thermal_var s quad fquad normals pts cls).
  Hypothesis LT : length tab = length cls.
  Lemma thermal_start : exists f0 b x, (exists dir, fe_init sqrtK s quad fquad normals pts cls 1 3 dir = Ok f0) /\ mesh_ok f0 /\ NoDup b /\
    (forall c fc, In (c, fc) b <-> c < length cls /\ fc < length (face_inds f0)) /\
    start p tab = Ok (faces_of cls (face_inds f0), x) /\ inv sqrtK s quad fquad normals pts cls f0 b tab [] x /\ sm_tables x = None /\ sm_T x = repeat [300%R] (length pts).
  Proof.
    unfold problem_init, make_fes in INIT. cbn [mapM thermal_var va_ele_type va_quad va_fquad va_normals va_points va_cells va_vec va_bc] in INIT.
    destruct (fe_init sqrtK s quad fquad normals pts cls 1 3 (Some thermal_bc)) as [f0|] eqn:B; [|discriminate]. cbn [bind] in INIT.
    pose proof (built_cells _ _ _ _ _ _ _ _ _ _ _ B) as EC. pose proof (built_points _ _ _ _ _ _ _ _ _ _ _ B) as EP.
    assert (MO : mesh_ok f0).
    { intros c Hc. rewrite EC in Hc. rewrite EC, EP, (built_nodes _ _ _ _ _ _ _ _ _ _ _ B). destruct MESH as (_ & M & _). apply M. now apply nth_In. }
    destruct (all_boundary f0 (built_faces_ok _ _ _ _ _ _ _ _ _ _ _ B MO)) as (b & EB & ND & IB). rewrite EB in INIT. cbn [bind forallb] in INIT.
    rewrite Nat.eqb_refl in INIT. cbn in INIT. injection INIT as <-. rewrite EC in IB.
    assert (LC : length tab = length (faces_of cls (face_inds f0))) by now rewrite faces_length.
    destruct (init_ok (faces_of cls (face_inds f0)) tab LC) as (st & E & G & C).
    exists f0, b. eexists. split; [eexists; exact B|]. split; [exact MO|]. split; [exact ND|]. split; [exact IB|].
    unfold start, initialize_hash_map. cbn [fes]. rewrite EC. rewrite E. cbn [bind fst snd]. split; [reflexivity|]. cbn. rewrite EP. split; [|split; reflexivity].
    split; [|split]; cbn.
    - exists f0. cbn. repeat (split; [assumption || reflexivity || (eexists; exact B)|]). reflexivity.
    - exists st. rewrite after_nil by auto. auto.
    - auto.
  Qed.

  Section Pass.
    Variables (passes : list pass) (r : sim * sim).
    Hypothesis RUN : quiet_element_simulation solve thermal_bc p tab passes = Ok r.
    Variables (rest : list pass) (ps : pass) (f : fe Rops).
    Hypothesis LAST : passes = rest ++ [ps].
    Hypothesis FE : fes (sm_problem (fst r)) = [f].
    Let now := active_after (length cls) tab passes.
    Let Told := sm_T (fst r).

    Lemma pass_facts : exists b ft psb q, NoDup b /\ (forall c fc, In (c, fc) b <-> c < length cls /\ fc < length (face_inds f)) /\
      (exists dir, fe_init sqrtK s quad fquad normals pts cls 1 3 dir = Ok f) /\ cells f = cls /\ points f = pts /\
      sm_problem (fst r) = the_problem f b Told (ps_dt ps) (ps_center ps) (ps_switch ps) now ft /\ last_birth (length cls) tab passes psb /\
      length ft = length b /\
      (forall i c fc, nth_error b i = Some (c, fc) ->
        (fst (nth i ft (false, false)) = true <-> outer_face (cells f) (face_inds f) now c fc) /\
        (snd (nth i ft (false, false)) = true <-> outer_face (cells f) (face_inds f) now c fc /\ at_top (ps_top psb) f c fc = true)) /\
      solve (sm_problem (fst r)) = Ok (sm_T (snd r)) /\ get_quiet_point_inds_set (length pts) cls now = Ok q /\
      exists f1, cells f1 = cls /\ points f1 = pts /\ update_Dirichlet_boundary_conditions f1 (Some ([Loc2 (dirichlet_location_fn q)], [0], [ambient])) = Ok f.
    Proof.
      destruct thermal_start as (f0 & b & x & B0 & MO & ND & IB & ST & IV & _).
      unfold quiet_element_simulation in RUN. rewrite ST in RUN. cbn [bind fst snd] in RUN.
      destruct (simulate_inv sqrtK s quad fquad normals pts cls f0 b ND IB tab LT solve passes x r IV RUN) as [_ S].
      destruct S as (ps' & rest' & EQ & (f' & ft & q & psb & EP & BF & E1 & E2 & E3 & LB & (T1 & T2 & T3) & f1 & F1 & F2 & F3) & SV & _).
      { rewrite LAST. now destruct rest. }
      rewrite LAST in EQ. apply app_inj_tail in EQ as [<- <-].
      pose proof FE as FE'. rewrite EP in FE'. cbn in FE'. injection FE' as <-.
      exists b, ft, psb, q. rewrite E3. repeat (split; [assumption|]). split.
      { rewrite E1. unfold at_top. rewrite E1, E2, E3. exact T2. }
      split; [exact SV|]. split; [exact T3|]. exists f1. auto.
    Qed.
    Lemma pass_mesh : mesh_ok f.
    Proof.
      destruct pass_facts as (b & ft & psb & q & _ & _ & (dir & B) & EC & EP & _). intros c Hc. rewrite EC in Hc. rewrite EC, EP, (built_nodes _ _ _ _ _ _ _ _ _ _ _ B).
      destruct MESH as (_ & M & _). apply M. now apply nth_In.
    Qed.

    Variables (ext : list (nat * nat)) (T : list (list Rops)).
    Hypothesis EXT : outer_faces f now ext.
    Hypothesis NC : cls <> [].
    Hypothesis TS : shaped (length pts) 1 T.
    Lemma pass_weak : exists psb res, last_birth (length cls) tab passes psb /\ compute_residual sqrtK (sm_problem (fst r)) [pts] [T] = Ok [res] /\ shaped (length pts) 1 res /\
      forall n, n < length pts -> get2 0%R res n 0 =
      (sum_n (K := Rops) (length cls) (fun c => if nth c now false then sum_n (K := Rops) (num_nodes f) (fun a =>
         if (nth a (nth c cls []) 0 =? n)%nat then sum_n (K := Rops) (num_quads f) (fun q =>
           (sum_n (K := Rops) 3 (fun j => 15 * sol_to_grad pts f T c q 0 j * get_shape_grads pts f c q a j)
            + heat_rate (convert_from_dof_to_quad f T c q 0) (convert_from_dof_to_quad f Told c q 0) (ps_dt ps) * shape_vals f q a) * get_JxW pts f c q) else 0) else 0)
       - sum_over (K := Rops) ext (fun x => sum_n (K := Rops) (num_nodes f) (fun a =>
         if (nth a (nth (fst x) cls []) 0 =? n)%nat then sum_n (K := Rops) (num_face_quads f) (fun q =>
           heat_flux (ps_center ps) (ps_switch ps) (at_top (ps_top psb) f (fst x) (snd x)) (convert_from_dof_to_face_quad f Told (fst x) (snd x) q 0)
             (get_physical_surface_quad_points pts f (fst x) (snd x) q) * face_shape_vals f (snd x) q a * nanson_scale sqrtK pts f (fst x) (snd x) q) else 0)))%R.
    Proof.
      destruct pass_facts as (b & ft & psb & q & ND & IB & (dir & B) & EC & EP & EPB & LB & LF & MK & SV & QQ & f1 & F1 & F2 & F3).
      exists psb. rewrite EPB. pose proof pass_mesh as PM. rewrite <- EC in IB.
      assert (LN : length now = length (cells f)) by (unfold now; now rewrite after_length, EC).
      destruct (step_weak sqrtK s quad fquad normals pts cls dir f B PM b ND IB Told (ps_dt ps) (ps_center ps) (ps_switch ps) now ft (ps_top psb) LN LF MK pts T ext EXT) as (res & E & SH & W).
      - rewrite EC. destruct cls; [congruence|cbn; lia].
      - now rewrite EP.
      - exists res. rewrite EP in SH, W. rewrite EC in W. auto.
    Qed.
    Lemma active_dec n : active_node cls now n \/ ~ active_node cls now n.
    Proof.
      destruct (existsb (fun c => nth c now false && existsb (Nat.eqb n) (nth c cls [])) (seq 0 (length cls))) eqn:E.
      - left. apply existsb_exists in E as (c & I & H). apply in_seq in I. apply andb_true_iff in H as [H1 H2]. apply existsb_exists in H2 as (m & Im & Em).
        apply Nat.eqb_eq in Em. subst m. exists c. split; [lia|auto].
      - right. intros (c & Hc & A & I). assert (X : existsb (fun c => nth c now false && existsb (Nat.eqb n) (nth c cls [])) (seq 0 (length cls)) = true).
        { apply existsb_exists. exists c. split; [apply in_seq; lia|]. rewrite A. cbn. apply existsb_exists. exists n. now rewrite Nat.eqb_refl. } congruence.
    Qed.
    (** the held nodes are those of no active cell; the residual vanishes there before the Dirichlet rows are applied *)
    Lemma pass_quiet n : n < length pts ->
      (active_node cls now n -> prescribed f n 0 = None) /\
      (~ active_node cls now n -> prescribed f n 0 = Some 300%R /\
         forall res, compute_residual sqrtK (sm_problem (fst r)) [pts] [T] = Ok [res] -> get2 0%R res n 0 = 0%R).
    Proof.
      intros Hn. destruct pass_facts as (b & ft & psb & q & ND & IB & (dir & B) & EC & EP & EPB & LB & LF & MK & SV & QQ & f1 & F1 & F2 & F3).
      rewrite <- F1, <- F2 in QQ. destruct (quiet_held f1 f now q 300%R QQ F3 n) as (H1 & H2 & _); [now rewrite F2|]. rewrite F1 in H1, H2. split.
      - intros (c & Hc). apply H2. eauto.
      - intros NA. split; [apply H1; intros c Hc A I; apply NA; exists c; auto|]. intros res E.
        destruct pass_weak as (psb' & res' & _ & E' & _ & W). rewrite E in E'. injection E' as <-. rewrite (W n Hn).
        assert (NN : forall c a, c < length cls -> nth c now false = true -> a < num_nodes f -> (nth a (nth c cls []) 0 =? n)%nat = false).
        { intros c a Hc A Ha. apply Nat.eqb_neq. intros X. apply NA. exists c. split; auto. split; auto. rewrite <- X. apply nth_In.
          destruct (pass_mesh c) as [L _]; [now rewrite EC|]. rewrite EC in L. lia. }
        rewrite (sum_n_zero_ext Rops_ring).
        + assert (Z : sum_over (K := Rops) ext (fun x => sum_n (K := Rops) (num_nodes f) (fun a =>
            if (nth a (nth (fst x) cls []) 0 =? n)%nat then sum_n (K := Rops) (num_face_quads f) (fun q =>
             (heat_flux (ps_center ps) (ps_switch ps) (at_top (ps_top psb') f (fst x) (snd x)) (convert_from_dof_to_face_quad f Told (fst x) (snd x) q 0)
             (get_physical_surface_quad_points pts f (fst x) (snd x) q) * face_shape_vals f (snd x) q a * nanson_scale sqrtK pts f (fst x) (snd x) q)%R) else 0%R)) = 0%R).
          { erewrite sum_over_ext_in; [apply (sum_over_zero Rops_ring)|]. intros [c fc] I. cbn [fst snd]. apply (proj2 EXT) in I as [(I1 & I2 & I3) _]. rewrite EC in I1.
            apply (sum_n_zero_ext Rops_ring). intros a Ha. now rewrite NN. }
          rewrite Z. cbn. ring.
        + intros c Hc. destruct (nth c now false) eqn:A; [|reflexivity]. apply (sum_n_zero_ext Rops_ring). intros a Ha. now rewrite NN.
    Qed.
    (** the residual with its Dirichlet rows, node by node *)
    Lemma pass_rows res : compute_residual sqrtK (sm_problem (fst r)) [pts] [T] = Ok [res] ->
      length (apply_bc_vec (ravel [res]) (ravel [T]) (sm_problem (fst r)) (@one Rops)) = length pts /\
      forall n, n < length pts -> nth n (apply_bc_vec (ravel [res]) (ravel [T]) (sm_problem (fst r)) (@one Rops)) (@zero Rops) =
        match prescribed f n 0 with Some bv => (get2 0 T n 0 - 1 * bv)%R | None => get2 0%R res n 0 end.
    Proof.
      intros E. destruct pass_facts as (b & ft & psb & q & ND & IB & (dir & B) & EC & EP & EPB & LB & LF & MK & SV & QQ & f1 & F1 & F2 & F3).
      assert (SH : shaped (length pts) 1 res). { destruct pass_weak as (psb' & res' & _ & E' & S' & _). rewrite E in E'. injection E' as <-. exact S'. }
      assert (GS : global_shapes (sm_problem (fst r)) = [(length pts, 1)]).
      { unfold global_shapes. rewrite FE. cbn. now rewrite EP, (built_vec _ _ _ _ _ _ _ _ _ _ _ B). }
      assert (S1 : has_shapes (global_shapes (sm_problem (fst r))) [res]).
      { rewrite GS. constructor; [|constructor]. split; [apply SH|]. apply Forall_forall. exact (proj2 SH). }
      assert (S2 : has_shapes (global_shapes (sm_problem (fst r))) [T]).
      { rewrite GS. constructor; [|constructor]. split; [apply TS|]. apply Forall_forall. exact (proj2 TS). }
      pose proof (ravel_length _ _ S1) as L1. pose proof (ravel_length _ _ S2) as L2. rewrite <- all_dofs_total in L1, L2.
      assert (BC : bcs_ok (sm_problem (fst r))).
      { intros f2 I2. rewrite FE in I2. destruct I2 as [<-|[]]. destruct (dirichlet_update f1 f _ _ _ F3) as (D & EP1 & _). rewrite <- EP1 in D.
        exact (proj1 (dirichlet_prescribed f _ _ _ D)). }
      destruct (apply_bc_vec_ring Rops_ring (sm_problem (fst r)) BC (ravel [res]) (ravel [T]) (@one Rops) L1 L2) as [L3 AP].
      split. { etransitivity; [exact L3|]. rewrite GS. unfold all_dofs. cbn. rewrite Nat.mul_1_r, Nat.add_0_r. reflexivity. }
      intros n Hn. assert (VD : valid_dof (global_shapes (sm_problem (fst r))) 0 n 0) by (rewrite GS; unfold valid_dof; cbn; auto with arith).
      assert (DN : dof_number (global_shapes (sm_problem (fst r))) 0 n 0 = n) by (rewrite GS; unfold dof_number; cbn; lia).
      specialize (AP 0 n 0 VD). rewrite DN in AP. rewrite AP. rewrite <- DN. rewrite !(nth_ravel_dof (@zero Rops) (global_shapes (sm_problem (fst r)))) by auto. rewrite DN.
      unfold fe_of. rewrite FE. cbn [nth]. unfold get2. destruct (prescribed f n 0); reflexivity.
    Qed.
    Hypothesis LAG : In s nine_names.
    Hypothesis DIM3 : element_dim s = 3.
    Lemma pass_balance : forall res, compute_residual sqrtK (sm_problem (fst r)) [pts] [T] = Ok [res] ->
      apply_bc_vec (ravel [res]) (ravel [T]) (sm_problem (fst r)) (@one Rops) = repeat (@zero Rops) (length pts) ->
      exists psb, last_birth (length cls) tab passes psb /\
      stored_heat f pts now (ps_dt ps) T Told = incoming_heat sqrtK f pts (ps_top psb) (ps_center ps) (ps_switch ps) Told ext /\
      forall n, n < length pts -> ~ active_node cls now n -> get2 0%R T n 0 = 300%R.
    Proof.
      intros res E Z. destruct pass_facts as (b & ft & psb & q & ND & IB & (dir & B) & EC & EP & EPB & LB & LF & MK & SV & QQ & f1 & F1 & F2 & F3).
      exists psb. split; [exact LB|]. pose proof pass_mesh as PM. rewrite <- EC in IB.
      assert (LN : length now = length (cells f)) by (unfold now; now rewrite after_length, EC).
      assert (RD : forall n, n < length pts -> match prescribed f n 0 with Some bv => (get2 0 T n 0 - 1 * bv)%R | None => get2 0%R res n 0 end = 0%R).
      { intros n Hn. etransitivity; [symmetry; exact (proj2 (pass_rows res E) n Hn)|]. rewrite Z. apply nth_repeat. }
      split.
      - pose proof (step_total sqrtK s quad fquad normals pts cls dir f B PM b ND IB Told (ps_dt ps) (ps_center ps) (ps_switch ps) now ft (ps_top psb) LN LF MK pts T ext EXT) as TT.
        rewrite <- EPB in TT. assert (SUM : sum_n (K := Rops) (length (points f)) (fun n => get2 0%R res n 0) = 0%R).
        { apply (sum_n_zero_ext Rops_ring). intros n Hn. rewrite EP in Hn. destruct (active_dec n) as [A|A].
          - specialize (RD n Hn). destruct (pass_quiet n Hn) as [Q1 _]. rewrite (Q1 A) in RD. exact RD.
          - destruct (pass_quiet n Hn) as [_ Q2]. now apply Q2. }
        rewrite (TT ltac:(rewrite EC; destruct cls; [congruence|cbn; lia]) ltac:(now rewrite EP) LAG DIM3 res E) in SUM. now apply Rminus_diag_uniq.
      - intros n Hn NA. specialize (RD n Hn). destruct (pass_quiet n Hn) as [_ Q2]. rewrite (proj1 (Q2 NA)) in RD.
        rewrite Rmult_1_l in RD. exact (Rminus_diag_uniq _ _ RD).
    Qed.
    (** laser off and everything at ambient temperature: nothing changes *)
    Lemma pass_equilibrium : length Told = length pts -> (forall n, n < length pts -> get2 0%R Told n 0 = 300%R) -> (forall n, n < length pts -> get2 0%R T n 0 = 300%R) -> ps_switch ps = 0%R ->
      exists res, compute_residual sqrtK (sm_problem (fst r)) [pts] [T] = Ok [res] /\
        apply_bc_vec (ravel [res]) (ravel [T]) (sm_problem (fst r)) (@one Rops) = repeat (@zero Rops) (length pts).
    Proof.
      intros LO HO HT SW. destruct pass_weak as (psb & res & LB & E & SH & W). exists res. split; [exact E|].
      destruct pass_facts as (b & ft & psb' & q & ND & IB & (dir & B) & EC & EP & _). pose proof pass_mesh as PM.
      assert (ED : dim f = 3) by exact (built_dim _ _ _ _ _ _ _ _ _ _ _ B).
      assert (LE : built_element s (dim f) f).
      { split; [auto|]. split; [congruence|]. split; [auto|]. rewrite ED. do 8 eexists. exact B. }
      assert (CS : forall U c a, length U = length pts -> (forall n, n < length pts -> get2 0%R U n 0 = 300%R) -> c < length cls -> a < num_nodes f -> cell_sol_at f U c a 0 = 300%R).
      { intros U c a LU HU Hc Ha. unfold cell_sol_at, cell_node. rewrite EC. assert (IN : nth a (nth c cls []) 0 < length pts); [|rewrite gather_in; [now apply HU|exact (eq_ind_r (fun m => nth a (nth c cls []) 0 < m) IN LU)]]. destruct (PM c) as [L1 L2]; [now rewrite EC|]. rewrite EC in L1, L2. rewrite EP in L2. apply L2, nth_In. now rewrite L1. }
      assert (CQ : forall U c q0, length U = length pts -> (forall n, n < length pts -> get2 0%R U n 0 = 300%R) -> c < length cls -> convert_from_dof_to_quad f U c q0 0 = 300%R).
      { intros U c q0 LU HU Hc. unfold convert_from_dof_to_quad. rewrite (sum_n_ext _ _ (fun a => @mul Rops 300%R (shape_vals f q0 a))) by (intros a Ha; rewrite (CS U c a); auto).
        rewrite (sum_n_mul_l Rops_ring), (vals_total Rops_ring s f q0 LE). cbn. ring. }
      assert (CF : forall U c fc q0, length U = length pts -> (forall n, n < length pts -> get2 0%R U n 0 = 300%R) -> c < length cls -> convert_from_dof_to_face_quad f U c fc q0 0 = 300%R).
      { intros U c fc q0 LU HU Hc. unfold convert_from_dof_to_face_quad. rewrite (sum_n_ext _ _ (fun a => @mul Rops 300%R (face_shape_vals f fc q0 a))) by (intros a Ha; rewrite (CS U c a); auto).
        rewrite (sum_n_mul_l Rops_ring), (face_vals_total Rops_ring s f fc q0 LE). cbn. ring. }
      assert (CG : forall c q0 j, c < length cls -> j < 3 -> sol_to_grad pts f T c q0 0 j = 0%R).
      { intros c q0 j Hc Hj. unfold sol_to_grad. rewrite (sum_n_ext _ _ (fun a => @mul Rops 300%R (get_shape_grads pts f c q0 a j))) by (intros a Ha; rewrite (CS T c a); [reflexivity|apply TS|assumption..]).
        rewrite (sum_n_mul_l Rops_ring), (grads_total Rops_ring s f pts c q0 j LE) by (rewrite ED; auto). cbn. ring. }
      assert (R0 : forall n, n < length pts -> get2 0%R res n 0 = 0%R).
      { intros n Hn. rewrite (W n Hn). rewrite (sum_n_zero_ext Rops_ring).
        - assert (Z : sum_over (K := Rops) ext (fun x => sum_n (K := Rops) (num_nodes f) (fun a =>
            if (nth a (nth (fst x) cls []) 0 =? n)%nat then sum_n (K := Rops) (num_face_quads f) (fun q =>
             (heat_flux (ps_center ps) (ps_switch ps) (at_top (ps_top psb) f (fst x) (snd x)) (convert_from_dof_to_face_quad f Told (fst x) (snd x) q 0)
             (get_physical_surface_quad_points pts f (fst x) (snd x) q) * face_shape_vals f (snd x) q a * nanson_scale sqrtK pts f (fst x) (snd x) q)%R) else 0%R)) = 0%R).
          { erewrite sum_over_ext_in; [apply (sum_over_zero Rops_ring)|]. intros [c fc] I. cbn [fst snd]. apply (proj2 EXT) in I as [(I1 & I2 & I3) _]. rewrite EC in I1.
            apply (sum_n_zero_ext Rops_ring). intros a Ha. destruct (_ =? _)%nat; [|reflexivity]. apply (sum_n_zero_ext Rops_ring). intros q0 Hq.
            rewrite CF by auto. unfold heat_flux. rewrite SW. destruct (at_top _ _ _ _); cbn; ring. }
          rewrite Z. cbn. ring.
        - intros c Hc. destruct (nth c now false) eqn:A; [|reflexivity]. apply (sum_n_zero_ext Rops_ring). intros a Ha. destruct (_ =? _)%nat; [|reflexivity].
          apply (sum_n_zero_ext Rops_ring). intros q0 Hq. rewrite (CQ T c q0 (proj1 TS) HT Hc), (CQ Told c q0 LO HO Hc). rewrite (sum_n_zero_ext Rops_ring).
          + unfold heat_rate, Rdiv. cbn. ring.
          + intros j Hj. rewrite CG by auto. cbn. ring. }
      destruct (pass_rows res E) as [LR RW]. apply (list_ext (@zero Rops)); [now rewrite repeat_length|]. intros n Hn. rewrite LR in Hn. rewrite RW by auto. rewrite nth_repeat.
      destruct (active_dec n) as [A|A].
      - destruct (pass_quiet n Hn) as [Q1 _]. rewrite (Q1 A). now apply R0.
      - destruct (pass_quiet n Hn) as [_ Q2]. rewrite (proj1 (Q2 A)). rewrite HT by auto. cbn. ring.
    Qed.
  End Pass.

  Lemma pass_fe passes r : quiet_element_simulation solve thermal_bc p tab passes = Ok r -> passes <> [] -> exists f, fes (sm_problem (fst r)) = [f].
  Proof.
    intros RUN NE. destruct thermal_start as (f0 & b & x & B0 & MO & ND & IB & ST & IV & _).
    unfold quiet_element_simulation in RUN. rewrite ST in RUN. cbn [bind fst snd] in RUN.
    destruct (simulate_inv sqrtK s quad fquad normals pts cls f0 b ND IB tab LT solve passes x r IV RUN) as [_ S].
    destruct (S NE) as (ps' & rest' & EQ & (f' & ft & q & psb & EP & _) & _). exists f'. now rewrite EP.
  Qed.
  Lemma run_chain rest ps r : quiet_element_simulation solve thermal_bc p tab (rest ++ [ps]) = Ok r ->
    exists r0, quiet_element_simulation solve thermal_bc p tab rest = Ok r0 /\ sm_T (fst r) = sm_T (snd r0) /\ solve (sm_problem (fst r)) = Ok (sm_T (snd r)).
  Proof.
    destruct thermal_start as (f0 & b & x & B0 & MO & ND & IB & ST & IV & _).
    unfold quiet_element_simulation. rewrite ST. cbn [bind fst snd]. rewrite simulate_snoc.
    destruct (simulate solve thermal_bc (faces_of cls (face_inds f0)) x rest) as [r0|] eqn:E0; [|discriminate]. cbn [bind]. intros H.
    exists r0. split; [reflexivity|]. destruct (simulate_inv sqrtK s quad fquad normals pts cls f0 b ND IB tab LT solve rest x r0 IV E0) as [I1 _].
    destruct (prepare thermal_bc (faces_of cls (face_inds f0)) (snd r0) ps) as [x'|] eqn:EP; [|discriminate]. cbn [bind] in H.
    destruct (solve (sm_problem x')) as [T|] eqn:ES; [|discriminate]. cbn [bind] in H. injection H as <-. cbn [fst snd sm_T]. split; [|exact ES].
    unfold prepare in EP. destruct (fes _); [discriminate|]. destruct (boundary_inds_list _); [discriminate|].
    destruct (step _ _ _) as [fs|]; [|discriminate]. cbn [bind] in EP. destruct (if forallb _ _ then _ else _) as [[[ft q]|]|]; try discriminate. cbn [bind] in EP.
    destruct (set_params _ _ _ _ _ _ _ _ _) as [p'|]; [|discriminate]. cbn [bind] in EP. injection EP as <-. reflexivity.
  Qed.
  Lemma run_start : exists r0, quiet_element_simulation solve thermal_bc p tab [] = Ok r0 /\ sm_T (snd r0) = repeat [300%R] (length pts).
  Proof.
    destruct thermal_start as (f0 & b & x & B0 & MO & ND & IB & ST & IV & _ & TX).
    unfold quiet_element_simulation. rewrite ST. cbn. eauto.
  Qed.
  Lemma run_total passes : (forall p', exists T, solve p' = Ok T) ->
    (forall ps rest, passes = ps :: rest -> exists c, c < length cls /\ nth c tab false = false /\ ps_born ps c = true) ->
    exists r, quiet_element_simulation solve thermal_bc p tab passes = Ok r.
  Proof.
    intros SV FB. destruct thermal_start as (f0 & b & x & B0 & MO & ND & IB & ST & IV & _).
    unfold quiet_element_simulation. rewrite ST. cbn [bind fst snd]. exact (simulate_total sqrtK s quad fquad normals pts cls f0 b ND IB tab LT solve passes x IV SV FB).
  Qed.
  Lemma run_no_birth ps rest : (forall c, c < length cls -> nth c tab false = false -> ps_born ps c = false) ->
    quiet_element_simulation solve thermal_bc p tab (ps :: rest) = Err NameErr.
  Proof.
    intros FB. destruct thermal_start as (f0 & b & x & B0 & MO & ND & IB & ST & IV & TN & _).
    unfold quiet_element_simulation. rewrite ST. cbn [bind fst snd]. now apply (simulate_no_birth sqrtK s quad fquad normals pts cls f0 b ND IB tab LT solve x ps rest IV TN).
  Qed.
End Final.
