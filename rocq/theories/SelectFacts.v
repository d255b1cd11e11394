(** Proofs of C09, C10. *)
From Coq Require Import List Arith Lia Bool String Sorted.
From Verif Require Import Num Arr ArrFacts Fe Problem SpecAssembly Basis SpecBasis BasisFacts SpecFe FeFacts GeomFacts
  SpecGeom NansonFacts SpecBc SpecSelect.
Import ListNotations.

Section Select.
  Context {K : ops}.

  Lemma dirichlet_spec (pts : list (list K)) locs vecs values :
    (~ (List.length vecs = List.length locs /\ List.length values = List.length locs) ->
       Dirichlet_boundary_conditions pts (Some (locs, vecs, values)) = Err AssertionErr) /\
    (List.length vecs = List.length locs -> List.length values = List.length locs -> existsb loc_wrong locs = true ->
       Dirichlet_boundary_conditions pts (Some (locs, vecs, values)) = Err ValueErr) /\
    (List.length vecs = List.length locs -> List.length values = List.length locs -> existsb loc_wrong locs = false ->
       exists ns vs ws, Dirichlet_boundary_conditions pts (Some (locs, vecs, values)) = Ok (ns, vs, ws) /\
         dirichlet_ok pts locs vecs values ns vs ws).
  Proof.
    unfold Dirichlet_boundary_conditions. repeat split.
    - intros H. destruct (_ =? _) eqn:E1; [|reflexivity]. destruct (List.length values =? _) eqn:E2; [|reflexivity].
      apply Nat.eqb_eq in E1, E2. destruct H. lia.
    - intros H1 H2 H3. rewrite H1, H2, Nat.eqb_refl. cbn [andb].
      pose proof (dirichlet_loop_spec pts locs vecs values H1 H2) as S. now rewrite H3 in S.
    - intros H1 H2 H3. rewrite H1, H2, Nat.eqb_refl. cbn [andb].
      pose proof (dirichlet_loop_spec pts locs vecs values H1 H2) as S. rewrite H3 in S.
      destruct S as (ns & vs & ws & E & L1 & L2 & L3 & S). exists ns, vs, ws. split; [exact E|].
      unfold dirichlet_ok. split; [auto|split; [auto|split; [auto|]]]. intros i Hi.
      destruct (S i Hi) as (S1 & S2 & S3 & S4). split; [exact S1|split; [|auto]]. now apply increasing_sorted.
  Qed.

  Lemma sorted_NoDup l : StronglySorted lt l -> NoDup l.
  Proof.
    induction 1 as [|a l S IH F]; constructor; auto. intros I. rewrite Forall_forall in F. specialize (F a I). lia.
  Qed.
  Lemma NoDup_combine {A B} (l : list A) (m : list B) : NoDup l -> NoDup (combine l m).
  Proof.
    intros N; revert m; induction N as [|a l Ha N IH]; intros [|b m]; cbn; constructor; auto.
    intros I. apply in_combine_l in I. auto.
  Qed.

  (** what a group prescribes *)
  Lemma group_prescribed (n j v : nat) (w : nat -> K) ns acc : NoDup ns ->
    fold_left (fun acc e => if (fst (fst e) =? n) && (snd (fst e) =? j) then Some (snd e) else acc)
      (combine (combine ns (repeat v (List.length ns))) (map w ns)) acc
    = if (v =? j) && existsb (Nat.eqb n) ns then Some (w n) else acc.
  Proof.
    intros ND. revert acc; induction ND as [|a l Ha ND IH]; intros acc; cbn; [now rewrite andb_false_r|].
    rewrite IH. rewrite (Nat.eqb_sym n a). destruct (v =? j); cbn; [|now rewrite andb_false_r].
    rewrite andb_true_r. destruct (a =? n) eqn:E; cbn; [|reflexivity]. apply Nat.eqb_eq in E as ->.
    replace (existsb (Nat.eqb n) l) with false; [reflexivity|]. symmetry. apply Bool.not_true_iff_false. intros X.
    apply existsb_exists in X as (y & Hy & E). apply Nat.eqb_eq in E as ->. auto.
  Qed.
  Lemma fold_left_flat_map {A B C} (g : A -> list B) (h : C -> B -> C) l acc :
    fold_left h (flat_map g l) acc = fold_left (fun acc a => fold_left h (g a) acc) l acc.
  Proof. revert acc; induction l as [|a l IH]; intros acc; cbn; [reflexivity|]. rewrite fold_left_app. apply IH. Qed.
  Lemma fold_left_ext_in {A C} (h h' : C -> A -> C) l acc : (forall a c, In a l -> h c a = h' c a) ->
    fold_left h l acc = fold_left h' l acc.
  Proof.
    revert acc; induction l as [|a l IH]; intros acc H; cbn; [reflexivity|]. rewrite (H a) by (now left). apply IH.
    intros; apply H; now right.
  Qed.

  Lemma dirichlet_prescribed (f : fe K) locs vecs values : 
    dirichlet_ok (points f) locs vecs values (node_inds_list f) (vec_inds_list f) (vals_list f) ->
    bc_ok f /\
    (forall n j, prescribed f n j =
       dirichlet_value (points f) locs vecs values n j) /\
    (List.length vecs = List.length locs -> (forall v, In v vecs -> v < vec f) -> bc_in_range f).
  Proof.
    intros (L1 & L2 & L3 & S). split; [|split].
    - intros i Hi. rewrite L1 in Hi. destruct (S i Hi) as (S1 & S2 & S3 & S4). rewrite S3, S4.
      rewrite repeat_length, map_length. repeat split; auto. apply NoDup_combine, sorted_NoDup, S2.
    - intros n j. unfold prescribed, bc_entries, dirichlet_value. rewrite fold_left_flat_map, L1. apply fold_left_ext_in.
      intros i acc Hi. apply in_seq in Hi. destruct (S i ltac:(lia)) as (S1 & S2 & S3 & S4). rewrite S3, S4.
      rewrite group_prescribed by now apply sorted_NoDup.
      assert (E : existsb (Nat.eqb n) (nth i (node_inds_list f) []) =
        (n <? List.length (points f)) && loc_holds (nth i locs (LocOther 0)) (nth n (points f) []) n).
      { apply Bool.eq_iff_eq_true. rewrite existsb_exists, andb_true_iff, Nat.ltb_lt. rewrite <- S1.
        split; [intros (y & Hy & E); apply Nat.eqb_eq in E as ->; auto|]. intros H. exists n. now rewrite Nat.eqb_refl. }
      rewrite E. destruct (n <? _), (nth i vecs 0 =? j); reflexivity.
    - intros HL HV n j b H. unfold bc_entries in H. apply in_flat_map in H as (i & Hi & H). apply in_seq in Hi.
      destruct (S i ltac:(lia)) as (S1 & S2 & S3 & S4). apply in_combine_l in H.
      pose proof (in_combine_l _ _ _ _ H) as Hn. pose proof (in_combine_r _ _ _ _ H) as Hj.
      split; [now apply S1|]. rewrite S3 in Hj. apply repeat_spec in Hj as ->. apply HV, nth_In. lia.
  Qed.

  Lemma dirichlet_update (f f' : fe K) locs vecs values :
    update_Dirichlet_boundary_conditions f (Some (locs, vecs, values)) = Ok f' ->
    dirichlet_ok (points f) locs vecs values (node_inds_list f') (vec_inds_list f') (vals_list f') /\
    points f' = points f /\ cells f' = cells f /\ vec f' = vec f /\ dim f' = dim f /\
    num_quads f' = num_quads f /\ num_nodes f' = num_nodes f /\
    shape_vals f' = shape_vals f /\ shape_grads_ref f' = shape_grads_ref f /\ quad_weights f' = quad_weights f /\
    face_shape_vals f' = face_shape_vals f /\ face_shape_grads_ref f' = face_shape_grads_ref f /\
    face_quad_weights f' = face_quad_weights f /\ face_normals f' = face_normals f /\ face_inds f' = face_inds f.
  Proof.
    unfold update_Dirichlet_boundary_conditions. destruct (dirichlet_spec (points f) locs vecs values) as (D1 & D2 & D3).
    destruct (Nat.eq_dec (List.length vecs) (List.length locs)) as [E1|E1]; [|rewrite D1 by tauto; discriminate].
    destruct (Nat.eq_dec (List.length values) (List.length locs)) as [E2|E2]; [|rewrite D1 by tauto; discriminate].
    destruct (existsb loc_wrong locs) eqn:E3; [rewrite D2 by auto; discriminate|].
    destruct (D3 E1 E2 eq_refl) as (ns & vs & ws & -> & D). intros H. injection H as <-. cbn. repeat (split; [auto|]). auto.
  Qed.

  (** C10 *)
  Lemma boundary_spec (f : fe K) locs : faces_ok f ->
    (existsb loc_wrong locs = true -> get_boundary_conditions_inds f (Some locs) = Err ValueErr) /\
    (existsb loc_wrong locs = false ->
       exists bs, get_boundary_conditions_inds f (Some locs) = Ok bs /\ List.length bs = List.length locs /\
         forall i, i < List.length locs -> faces_selected f (nth i locs (LocOther 0)) (nth i bs [])).
  Proof.
    intros FO. pose proof (boundary_loop_spec f locs) as S. cbn [get_boundary_conditions_inds]. split; intros H; rewrite H in S; auto.
    destruct S as (bs & E & L & S). exists bs. split; [auto|split; [auto|]]. intros i Hi. destruct (S i Hi) as (g & Hg & ->).
    split.
    - apply lex_increasing_sorted, argwhere2_lex.
    - intros c fc. now apply boundary_flags_In.
  Qed.

  Lemma built_faces_ok sqrtK s quad fquad normals pts cls v d dir (f : fe K) :
    fe_init sqrtK s quad fquad normals pts cls v d dir = Ok f -> mesh_ok f -> faces_ok f.
  Proof.
    intros HB HM. split; [exact HM|].
    destruct (built_inv _ _ _ _ _ _ _ _ _ _ _ HB) as (info & fi & [[ns vs] ws] & HI & HFI & HD & Hf).
    assert (E : face_inds f = fi) by now rewrite Hf. rewrite E, (built_nodes _ _ _ _ _ _ _ _ _ _ _ HB).
    destruct (face_nodes s info fi HI HFI) as [_ T]. intros face a H1 H2.
    destruct (In_nth _ _ [] H1) as (fc & Hfc & <-). destruct (In_nth _ _ 0 H2) as (k & Hk & <-).
    now apply (T fc Hfc).
  Qed.

  Lemma count_faces sqrtK s quad fquad normals pts cls v d dir (f : fe K) g :
    fe_init sqrtK s quad fquad normals pts cls v d dir = Ok f -> mesh_ok f ->
    exists b, get_boundary_conditions_inds f (Some [Loc1 g]) = Ok [b] /\ count_selected_faces s pts cls g = Ok (List.length b).
  Proof.
    intros HB HM. pose proof (built_faces_ok _ _ _ _ _ _ _ _ _ _ _ HB HM) as [_ FO].
    destruct (built_inv _ _ _ _ _ _ _ _ _ _ _ HB) as (info & fi & [[ns vs] ws] & HI & HFI & HD & Hf).
    cbn [get_boundary_conditions_inds boundary_loop as_loc2]. eexists. split; [reflexivity|].
    unfold count_selected_faces. rewrite HI, HFI.
    assert (E : face_inds f = fi) by now rewrite Hf. assert (E2 : cells f = cls) by now rewrite Hf.
    assert (E3 : points f = pts) by now rewrite Hf.
    unfold mesh_ok in HM. rewrite E2, E3 in HM. rewrite E in FO.
    replace (forallb _ _) with true.
    - f_equal. f_equal. f_equal. unfold boundary_flags. rewrite E, E2, E3. apply map_ext_in. intros cell Hc.
      apply map_ext_in. intros face Hface. destruct (In_nth _ _ [] Hc) as (c & Hc' & <-). destruct (HM c Hc') as [M1 M2].
      clear Hf. assert (X : forall a, In a face -> g (nth (nth a (nth c cls []) 0) pts []) = g (gather [] pts (gather 0 (nth c cls []) a))).
      { intros a Ha. specialize (FO face a Hface Ha). rewrite (gather_in 0) by lia. rewrite gather_in; [reflexivity|].
        apply M2, nth_In. lia. }
      clear - X. induction face as [|a face IH]; cbn; [reflexivity|]. rewrite X by (now left). f_equal. apply IH.
      intros; apply X; now right.
    - symmetry. apply forallb_forall. intros cell Hc. destruct (In_nth _ _ [] Hc) as (c & Hc' & <-). destruct (HM c Hc') as [M1 M2].
      apply andb_true_iff. split.
      + apply forallb_forall. intros face Hface. apply forallb_forall. intros a Ha. apply Nat.ltb_lt. rewrite M1. eapply FO; eauto.
      + apply forallb_forall. intros n Hn. apply Nat.ltb_lt. auto.
  Qed.
End Select.
