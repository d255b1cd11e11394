(** Main theorems of C71. *)
From Coq Require Import String List Arith Lia Bool Permutation Sorting.Sorted.
From Verif Require Import Num Arr ArrFacts Fe Problem BatchFacts ProblemFacts Basis SpecFe SpecBc SpecSelect SelectFacts Quiet SpecQuiet QuietFacts.
Import ListNotations.

Section Main.
  Context {K : ops}.
  Lemma lex_nodup (l : list (nat * nat)) : StronglySorted lex l -> NoDup l.
  Proof.
    induction 1 as [|x l S IH F]; constructor; auto. intros I. rewrite Forall_forall in F. specialize (F x I). unfold lex in F. lia.
  Qed.
  Variables (f : fe K) (top : list (list K) -> bool).
  Hypothesis FO : faces_ok f.
  (** the boundary faces selected by a location function that is always true *)
  Lemma all_boundary : exists b, get_boundary_conditions_inds f (Some [Loc1 (fun _ => true)]) = Ok [b] /\ NoDup b /\
    forall c fc, In (c, fc) b <-> c < length (cells f) /\ fc < length (face_inds f).
  Proof.
    destruct (proj2 (boundary_spec f [Loc1 (fun _ => true)] FO) eq_refl) as (bs & E & L & S). destruct bs as [|b [|? ?]]; try discriminate.
    exists b. split; [exact E|]. destruct (S 0 ltac:(cbn; lia)) as [SS SI]. cbn [nth] in SS, SI. split; [now apply lex_nodup|].
    intros c fc. rewrite SI. split; [tauto|]. intros [H1 H2]. split; auto. split; auto. intros a _. reflexivity.
  Qed.
  Lemma face_table tab news b : length tab = length (cells f) -> grow tab news ->
    get_boundary_conditions_inds f (Some [Loc1 (fun _ => true)]) = Ok [b] ->
    exists ext ft, external_faces (cells f) (face_inds f) tab news = Ok ext /\
      get_active_face_truth_tab top (points f) (cells f) (face_inds f) b ext = Ok ft /\ length ft = length b /\
      forall i c fc, nth_error b i = Some (c, fc) ->
        (fst (nth i ft (false, false)) = true <-> outer_face (cells f) (face_inds f) (last news tab) c fc) /\
        (snd (nth i ft (false, false)) = true <-> outer_face (cells f) (face_inds f) (last news tab) c fc /\
           top (map (fun n => nth n (points f) []) (face_nodes (cells f) (face_inds f) c fc)) = true).
  Proof.
    intros L G B. destruct all_boundary as (b' & B' & ND & IB). rewrite B in B'. injection B' as <-.
    destruct (external_ok (cells f) (face_inds f) tab news L G) as (ext & E & NE & IE). exists ext.
    destruct (table_ok top (points f) (cells f) (face_inds f) b ext ND) as [T1 T2].
    destruct (proj2 T1) as (ft & EF).
    { intros [c fc] H. apply IB. apply IE in H as [(H1 & H2 & _) _]. auto. }
    exists ft. split; [exact E|]. split; [exact EF|]. destruct (T2 ft EF) as [LF TF]. split; [exact LF|].
    intros i c fc Hi. destruct (TF i (c, fc) Hi) as [A1 A2]. rewrite A1, A2, IE. split; [reflexivity|]. unfold face_points, face_nodes. cbn [fst snd]. now rewrite map_map.
  Qed.
End Main.

(** the points held: those of no active cell *)
Lemma quiet_held {K : ops} (f f' : fe K) tab q (T : K) : get_quiet_point_inds_set (length (points f)) (cells f) tab = Ok q ->
  update_Dirichlet_boundary_conditions f (Some ([Loc2 (dirichlet_location_fn q)], [0], [fun _ => T])) = Ok f' ->
  forall n, n < length (points f) ->
    ((forall c, c < length (cells f) -> nth c tab false = true -> ~ In n (nth c (cells f) [])) -> prescribed f' n 0 = Some T) /\
    ((exists c, c < length (cells f) /\ nth c tab false = true /\ In n (nth c (cells f) [])) -> prescribed f' n 0 = None) /\
    (forall j, j <> 0 -> prescribed f' n j = None).
Proof.
  intros Q U n Hn. destruct (proj2 (quiet_ok _ _ _) q Q) as [_ IQ].
  destruct (dirichlet_update f f' _ _ _ U) as (D & EP & _). rewrite <- EP in D.
  destruct (dirichlet_prescribed f' _ _ _ D) as (_ & PR & _).
  assert (V : forall j, prescribed f' n j = if (0 =? j) && dirichlet_location_fn q (nth n (points f) []) n then Some T else None).
  { intros j. rewrite PR, EP. unfold dirichlet_value. cbn [length seq fold_left nth loc_holds]. rewrite (proj2 (Nat.ltb_lt _ _) Hn). reflexivity. }
  assert (DL : dirichlet_location_fn q (nth n (points f) []) n = true <-> In n q).
  { unfold dirichlet_location_fn. rewrite existsb_exists. split; [intros (m & H & E); apply Nat.eqb_eq in E; now subst|]. intros H. exists n. now rewrite Nat.eqb_refl. }
  repeat split.
  - intros H. rewrite V. cbn [Nat.eqb andb]. now rewrite (proj2 DL) by (now apply IQ).
  - intros (c & Hc & Tc & I). rewrite V. destruct (dirichlet_location_fn q (nth n (points f) []) n) eqn:E; [|reflexivity].
    exfalso. assert (E' : In n q) by now apply DL. apply IQ in E' as [_ E']. now apply (E' c).
  - intros j Hj. rewrite V. now rewrite (proj2 (Nat.eqb_neq 0 j)) by auto.
Qed.
