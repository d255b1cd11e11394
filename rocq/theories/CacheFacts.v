(** The tangent cache: proofs. *)
From Coq Require Import List Arith Lia Bool.
From Verif Require Import Num Arr ArrFacts Fe Problem BatchFacts SpecAssembly AssemblyFacts ProblemFacts SolverBc SolverCache.
Import ListNotations.

Section Facts.
  Context {K : ops} {V : Type}.

  (** everything of a problem but the boundary conditions *)
  Definition strip (f : fe K) : fe K :=
    mkFe (points f) (cells f) (vec f) (dim f) (num_quads f) (num_nodes f) (num_faces f)
      (num_face_quads f) (shape_vals f) (shape_grads_ref f) (quad_weights f)
      (face_shape_vals f) (face_shape_grads_ref f) (face_quad_weights f) (face_normals f)
      (face_inds f) [] [] [].
  Definition strip_p (p : problem K V) : problem K V :=
    mkProblem (map strip (fes p)) (boundary_inds_list p) (maps p) (internal_vars p) (internal_vars_surfaces p).

  Lemma map_strip {X} (g : fe K -> X) (p : problem K V) : (forall f, g (strip f) = g f) ->
    map g (fes (strip_p p)) = map g (fes p).
  Proof. intros H. cbn [strip_p fes]. rewrite map_map. apply map_ext. exact H. Qed.
  Lemma fe0_strip (p : problem K V) : fe0 (strip_p p) = strip (fe0 p).
  Proof. unfold fe0. cbn [strip_p fes]. destruct (fes p); reflexivity. Qed.
  Lemma p_vecs_strip (p : problem K V) : p_vecs (strip_p p) = p_vecs p.
  Proof. unfold p_vecs. now apply map_strip. Qed.
  Lemma p_offset_strip (p : problem K V) : p_offset (strip_p p) = p_offset p.
  Proof. unfold p_offset. f_equal. now apply map_strip. Qed.
  Lemma cells_list_strip (p : problem K V) : cells_list (strip_p p) = cells_list p.
  Proof. unfold cells_list. now apply map_strip. Qed.
  Lemma p_num_cells_strip (p : problem K V) : p_num_cells (strip_p p) = p_num_cells p.
  Proof. unfold p_num_cells. now rewrite fe0_strip. Qed.
  Lemma cell_inds_strip (p : problem K V) : cell_inds (strip_p p) = cell_inds p.
  Proof. unfold cell_inds. now rewrite p_vecs_strip, p_offset_strip, cells_list_strip, p_num_cells_strip. Qed.
  Lemma cells_list_face_strip (p : problem K V) b : cells_list_face (strip_p p) b = cells_list_face p b.
  Proof. unfold cells_list_face. now rewrite cells_list_strip. Qed.
  Lemma face_dof_inds_strip (p : problem K V) b : face_dof_inds (strip_p p) b = face_dof_inds p b.
  Proof. unfold face_dof_inds. now rewrite p_vecs_strip, p_offset_strip, cells_list_face_strip. Qed.
  Lemma p_I_strip (p : problem K V) : p_I (strip_p p) = p_I p.
  Proof.
    unfold p_I. rewrite cell_inds_strip. f_equal. cbn [strip_p boundary_inds_list].
    induction (boundary_inds_list p) as [|b l IH]; [reflexivity|]. cbn [map flat_map concat]. now rewrite face_dof_inds_strip, IH.
  Qed.
  Lemma p_J_strip (p : problem K V) : p_J (strip_p p) = p_J p.
  Proof.
    unfold p_J. rewrite cell_inds_strip. f_equal. cbn [strip_p boundary_inds_list].
    induction (boundary_inds_list p) as [|b l IH]; [reflexivity|]. cbn [map flat_map concat]. now rewrite face_dof_inds_strip, IH.
  Qed.

  Lemma map_upd_same {A B} (h : A -> B) i x (l : list A) a : nth_error l i = Some a -> h x = h a ->
    map h (upd_nth i (fun _ => x) l) = map h l.
  Proof.
    revert i. induction l as [|y l IH]; intros [|i] E H; cbn in *; try discriminate.
    - injection E as ->. now rewrite H.
    - now rewrite IH.
  Qed.
  Lemma set_fe_strip (p : problem K V) i f f' : nth_error (fes p) i = Some f -> strip f' = strip f ->
    strip_p (set_fe p i f') = strip_p p.
  Proof. intros E H. unfold strip_p, set_fe. cbn [fes boundary_inds_list maps internal_vars internal_vars_surfaces]. now rewrite (map_upd_same strip i f' _ f). Qed.
  Lemma update_strip f info f' : update_Dirichlet_boundary_conditions f info = Ok f' -> strip f' = strip f.
  Proof.
    unfold update_Dirichlet_boundary_conditions. destruct (Dirichlet_boundary_conditions _ _) as [[[ns vs] ws]|]; [|discriminate].
    injection 1 as <-. reflexivity.
  Qed.
  Lemma loop_lengths pts locs : forall vecs vals ns vs (ws : list (list K)),
    dirichlet_loop pts locs vecs vals = Ok (ns, vs, ws) -> length ns = length vs.
  Proof.
    induction locs as [|l locs IH]; intros [|v vecs] [|w vals] ns vs ws H; cbn in H; try (injection H as <- <- <-; reflexivity).
    destruct (as_loc2 l); [|discriminate]. destruct (dirichlet_loop pts locs vecs vals) as [[[ns' vs'] ws']|] eqn:E; [|discriminate].
    injection H as <- <- <-. cbn. f_equal. eapply IH. exact E.
  Qed.

  Variable p0 : problem K V.
  (** the rows of one pair of index arrays of variable i *)
  Definition rows_of (i : nat) (ns vs : list nat) : list nat :=
    map2 (fun n c => n * nth i (p_vecs p0) 0 + c + nth i (p_offset p0) 0) ns vs.
  Definition ghost := nat -> nat * list nat.
  Definition rows_G (G : ghost) (ab : nat * nat) : list nat :=
    rows_of (fst (G (fst ab))) (snd (G (fst ab))) (snd (G (snd ab))).

  Record inv (G : ghost) (s : cstate K V) : Prop := {
    i_strip : strip_p (s_p s) = strip_p p0;
    i_len : length (s_ids s) = length (fes (s_p s));
    i_len2 : forall i, i < length (fes (s_p s)) ->
      length (nth i (s_ids s) []) = length (node_inds_list (nth i (fes (s_p s)) (fe0 (s_p s))));
    i_ids : forall i g, i < length (fes (s_p s)) -> g < length (nth i (s_ids s) []) ->
      let f := nth i (fes (s_p s)) (fe0 (s_p s)) in
      let ab := nth g (nth i (s_ids s) []) (0, 0) in
      fst ab < s_next s /\ snd ab < s_next s /\
      G (fst ab) = (i, nth g (node_inds_list f) []) /\ G (snd ab) = (i, nth g (vec_inds_list f) []);
    i_cache : forall c, s_cache s = Some c ->
      c_I c = p_I p0 /\ c_J c = p_J p0 /\
      (forall ab, In ab (c_sources c) -> fst ab < s_next s /\ snd ab < s_next s) /\
      c_rows c = map (rows_G G) (c_sources c)
  }.

  Lemma flat_map_seq_nth {A} (l : list (list A)) : flat_map (fun i => nth i l []) (seq 0 (length l)) = concat l.
  Proof. rewrite flat_map_concat_map. f_equal. apply map_seq_nth. Qed.

  Lemma fes_vec (p : problem K V) i : strip_p p = strip_p p0 -> i < length (fes p) ->
    vec (nth i (fes p) (fe0 p)) = nth i (p_vecs p0) 0.
  Proof.
    intros H Hi. rewrite <- (p_vecs_strip p0), <- H, p_vecs_strip. unfold p_vecs. now rewrite (nth_map_in _ _ _ (fe0 p)).
  Qed.
  Lemma p_offset_same (p : problem K V) : strip_p p = strip_p p0 -> p_offset p = p_offset p0.
  Proof. intros H. now rewrite <- (p_offset_strip p), <- (p_offset_strip p0), H. Qed.

  Lemma bc_rows_G G s : inv G s -> bc_rows (s_p s) = map (rows_G G) (bc_index_sources s).
  Proof.
    intros I. unfold bc_rows, bc_index_sources. rewrite <- flat_map_seq_nth, (i_len G s I).
    rewrite !flat_map_concat_map, concat_map, map_map. f_equal. apply map_ext_in. intros i Hi. apply in_seq in Hi.
    unfold bc_groups. rewrite map_map. cbn [fst snd]. cbv zeta.
    rewrite <- (i_len2 G s I i) by lia.
    rewrite <- (map_seq_nth (0, 0) (nth i (s_ids s) [])) at 2. rewrite map_map. apply map_ext_in. intros g Hg. apply in_seq in Hg.
    destruct (i_ids G s I i g) as (_ & _ & E1 & E2); [lia|lia|].
    unfold rows_G. rewrite E1, E2. cbn [fst snd]. unfold rows_of.
    rewrite (fes_vec (s_p s) i (i_strip G s I)) by lia. now rewrite (p_offset_same _ (i_strip G s I)).
  Qed.

  Lemma sources_same a : forall b, sources_unchanged a b = true <-> a = b.
  Proof.
    unfold sources_unchanged. induction a as [|x a IH]; intros [|y b]; cbn; try (split; [discriminate|discriminate]); [split; reflexivity|].
    specialize (IH b). rewrite !andb_true_iff in *. rewrite !Nat.eqb_eq in *. destruct x as [x1 x2], y as [y1 y2]; cbn [fst snd] in *.
    split.
    - intros (L & (E1 & E2) & F). f_equal; [congruence|]. now apply IH.
    - intros E. injection E as <- <- <-. destruct (proj2 IH eq_refl). auto.
  Qed.

  Lemma refresh_ok G s c : inv G s -> c_I c = p_I p0 -> c_J c = p_J p0 -> c_rows c = map (rows_G G) (c_sources c) ->
    let c' := refresh s c in
    c_I c' = p_I p0 /\ c_J c' = p_J p0 /\ c_sources c' = bc_index_sources s /\ c_rows c' = bc_rows (s_p s).
  Proof.
    intros I HI HJ HR. cbv zeta. unfold refresh. destruct (sources_unchanged _ _) eqn:E.
    - apply sources_same in E. repeat split; auto. rewrite HR, (bc_rows_G G s I). now rewrite E.
    - cbn [c_I c_J c_sources c_rows]. auto.
  Qed.
  Lemma p_IJ G s : inv G s -> p_I (s_p s) = p_I p0 /\ p_J (s_p s) = p_J p0.
  Proof.
    intros I. rewrite <- (p_I_strip (s_p s)), <- (p_I_strip p0), <- (p_J_strip (s_p s)), <- (p_J_strip p0), (i_strip G s I). auto.
  Qed.
  Lemma get_cache_ok G s : inv G s ->
    c_I (get_cache s) = p_I p0 /\ c_J (get_cache s) = p_J p0 /\ c_rows (get_cache s) = map (rows_G G) (c_sources (get_cache s)).
  Proof.
    intros I. unfold get_cache. destruct (s_cache s) as [c|] eqn:E.
    - destruct (i_cache G s I c E) as (H1 & H2 & _ & H3). auto.
    - destruct (p_IJ G s I) as [EI EJ].
      destruct (refresh_ok G s (mkCache (p_I (s_p s)) (p_J (s_p s)) [] []) I EI EJ eq_refl) as (H1 & H2 & H3 & H4).
      split; [exact H1|split; [exact H2|]]. unfold new_cache. rewrite H3, H4. now apply bc_rows_G.
  Qed.

  Lemma get_A_fresh G s W : inv G s -> snd (get_A_cached s W) = tangent (s_p s) W.
  Proof.
    intros I. unfold get_A_cached. cbn [snd]. destruct (get_cache_ok G s I) as (H1 & H2 & H3).
    destruct (refresh_ok G s (get_cache s) I H1 H2 H3) as (R1 & R2 & _ & R4). rewrite R1, R2, R4.
    destruct (p_IJ G s I) as [EI EJ]. unfold tangent. now rewrite EI, EJ.
  Qed.

  Lemma inv_sources G s ab : inv G s -> In ab (bc_index_sources s) -> fst ab < s_next s /\ snd ab < s_next s.
  Proof.
    intros I H. unfold bc_index_sources in H. apply in_concat in H as (l & Hl & H).
    apply (In_nth _ _ []) in Hl as (i & Hi & <-). apply (In_nth _ _ (0, 0)) in H as (g & Hg & <-).
    rewrite (i_len G s I) in Hi. destruct (i_ids G s I i g Hi Hg) as (A & B & _). auto.
  Qed.

  Lemma inv_getA G s W : inv G s -> inv G (fst (get_A_cached s W)).
  Proof.
    intros I. pose proof I as I0. destruct I0 as [I1 I2 I3 I4 I5]. constructor; cbn [get_A_cached fst s_p s_ids s_next s_cache]; auto.
    intros c E. injection E as <-. destruct (get_cache_ok G s I) as (H1 & H2 & H3).
    destruct (refresh_ok G s (get_cache s) I H1 H2 H3) as (R1 & R2 & R3 & R4).
    split; [exact R1|split; [exact R2|split]].
    - intros ab Hab. rewrite R3 in Hab. eapply inv_sources; eassumption.
    - rewrite R4, R3. now apply bc_rows_G.
  Qed.

  Lemma nth_fresh next n k : k < n -> nth k (fresh_ids next n) (0, 0) = (next + 2 * k, next + 2 * k + 1).
  Proof. intros H. unfold fresh_ids. rewrite (nth_map_in _ _ _ 0) by (now rewrite seq_length). now rewrite seq_nth by lia. Qed.

  (** the ghost after fe i got new lists *)
  Definition extend (G : ghost) (next i : nat) (ns vs : list (list nat)) : ghost :=
    fun a => if a <? next then G a else
      (i, if Nat.even (a - next) then nth ((a - next) / 2) ns [] else nth ((a - next) / 2) vs []).
  Lemma extend_old G next i ns vs a : a < next -> extend G next i ns vs a = G a.
  Proof. intros H. unfold extend. apply Nat.ltb_lt in H. now rewrite H. Qed.
  Lemma extend_even G next i ns vs k : extend G next i ns vs (next + 2 * k) = (i, nth k ns []).
  Proof.
    unfold extend. destruct (Nat.ltb_spec (next + 2 * k) next); [lia|].
    replace (next + 2 * k - next) with (2 * k) by lia. rewrite Nat.even_mul. cbn [Nat.even orb].
    now rewrite (Nat.mul_comm 2 k), Nat.div_mul by lia.
  Qed.
  Lemma extend_odd G next i ns vs k : extend G next i ns vs (next + 2 * k + 1) = (i, nth k vs []).
  Proof.
    unfold extend. destruct (Nat.ltb_spec (next + 2 * k + 1) next); [lia|].
    replace (next + 2 * k + 1 - next) with (1 + k * 2) by lia. rewrite Nat.even_add, Nat.even_mul, orb_comm. cbn [Nat.even orb Bool.eqb].
    rewrite Nat.div_add by lia. reflexivity.
  Qed.

  Lemma inv_update G s i info : inv G s -> exists G', inv G' (step s (UpdateBC i info)).
  Proof.
    intros I. cbn [step]. destruct (nth_error (fes (s_p s)) i) as [f|] eqn:Ei; [|eauto].
    destruct (update_Dirichlet_boundary_conditions f info) as [f'|] eqn:Eu; [|eauto].
    exists (extend G (s_next s) i (node_inds_list f') (vec_inds_list f')).
    assert (Hi : i < length (fes (s_p s))) by (apply nth_error_Some; congruence).
    destruct I as [I1 I2 I3 I4 I5].
    assert (LE : length (fes (set_fe (s_p s) i f')) = length (fes (s_p s))) by (cbn [set_fe fes]; apply length_upd_nth).
    assert (NTH : forall k d, k < length (fes (s_p s)) -> nth k (fes (set_fe (s_p s) i f')) d = if k =? i then f' else nth k (fes (s_p s)) d).
    { intros k d Hk. cbn [set_fe fes]. rewrite nth_upd_nth. destruct (Nat.eqb_spec k i) as [->|].
      - rewrite Nat.eqb_refl. apply Nat.ltb_lt in Hi. now rewrite Hi.
      - destruct (Nat.eqb_spec i k); [lia|]. reflexivity. }
    assert (NID : forall k, k < length (fes (s_p s)) -> nth k (upd_nth i (fun _ => fresh_ids (s_next s) (length (node_inds_list f'))) (s_ids s)) []
        = if k =? i then fresh_ids (s_next s) (length (node_inds_list f')) else nth k (s_ids s) []).
    { intros k Hk. rewrite nth_upd_nth. destruct (Nat.eqb_spec k i) as [->|].
      - rewrite Nat.eqb_refl. rewrite <- I2 in Hi. apply Nat.ltb_lt in Hi. now rewrite Hi.
      - destruct (Nat.eqb_spec i k); [lia|]. reflexivity. }
    constructor; cbn [s_p s_ids s_next s_cache].
    - rewrite (set_fe_strip _ i f f' Ei); [exact I1|]. eapply update_strip; eassumption.
    - now rewrite length_upd_nth, LE.
    - intros k Hk. rewrite LE in Hk. rewrite NTH, NID by exact Hk. destruct (Nat.eqb_spec k i) as [->|].
      + unfold fresh_ids. now rewrite map_length, seq_length.
      + rewrite I3 by exact Hk. f_equal. f_equal. apply nth_indep. exact Hk.
    - intros k g Hk Hg. rewrite LE in Hk. rewrite NTH by exact Hk. rewrite NID in Hg |- * by exact Hk. cbv zeta.
      destruct (Nat.eqb_spec k i) as [->|].
      + unfold fresh_ids in Hg. rewrite map_length, seq_length in Hg.
        rewrite nth_fresh by exact Hg. cbn [fst snd]. rewrite extend_even, extend_odd. repeat split; lia.
      + destruct (I4 k g Hk Hg) as (A & B & C & D). rewrite !extend_old by assumption.
        split; [lia|split; [lia|]]. rewrite C, D. rewrite (nth_indep _ (fe0 (set_fe (s_p s) i f')) (fe0 (s_p s)) Hk). auto.
    - intros c Ec. destruct (I5 c Ec) as (C1 & C2 & C3 & C4). split; [exact C1|split; [exact C2|split]].
      + intros ab Hab. destruct (C3 ab Hab). lia.
      + rewrite C4. apply map_ext_in. intros ab Hab. destruct (C3 ab Hab). unfold rows_G. now rewrite !extend_old by assumption.
  Qed.
End Facts.

Section Runs.
  Context {K : ops} {V : Type}.
  Lemma initial_ids_len next sizes : length (initial_ids next sizes) = length sizes.
  Proof. revert next. induction sizes; intros; cbn; auto. Qed.
  Lemma initial_ids_nth sizes : forall next i, i < length sizes ->
    nth i (initial_ids next sizes) [] = fresh_ids (next + 2 * fold_right plus 0 (firstn i sizes)) (nth i sizes 0).
  Proof.
    induction sizes as [|n sizes IH]; intros next [|i] Hi; cbn [initial_ids nth firstn fold_right length] in *; try lia.
    - f_equal. lia.
    - rewrite IH by lia. f_equal. lia.
  Qed.
  Lemma sum_firstn sizes i : i < length sizes ->
    fold_right plus 0 (firstn i sizes) + nth i sizes 0 <= fold_right plus 0 sizes.
  Proof. revert i. induction sizes as [|n sizes IH]; intros [|i] Hi; cbn in *; try lia. specialize (IH i). lia. Qed.

  (** which variable and group an initial identity belongs to *)
  Fixpoint find_group (sizes : list nat) (i k : nat) : nat * nat :=
    match sizes with
    | [] => (i, k)
    | n :: sizes => if k <? n then (i, k) else find_group sizes (S i) (k - n)
    end.
  Lemma find_group_ok sizes : forall i0 i g, i < length sizes -> g < nth i sizes 0 ->
    find_group sizes i0 (fold_right plus 0 (firstn i sizes) + g) = (i0 + i, g).
  Proof.
    induction sizes as [|n sizes IH]; intros i0 [|i] g Hi Hg; cbn [find_group firstn fold_right nth length] in *; try lia.
    - destruct (Nat.ltb_spec (0 + g) n); [|lia]. f_equal; lia.
    - destruct (Nat.ltb_spec (n + fold_right plus 0 (firstn i sizes) + g) n); [lia|].
      replace (n + fold_right plus 0 (firstn i sizes) + g - n) with (fold_right plus 0 (firstn i sizes) + g) by lia.
      rewrite IH by lia. f_equal. lia.
  Qed.

  Lemma inv_initial (p : problem K V) : exists G, inv p G (initial_state p).
  Proof.
    set (sizes := map (fun f => length (node_inds_list f)) (fes p)).
    exists (fun a => let '(i, g) := find_group sizes 0 (a / 2) in
              let f := nth i (fes p) (fe0 p) in
              (i, if Nat.even a then nth g (node_inds_list f) [] else nth g (vec_inds_list f) [])).
    assert (LS : length sizes = length (fes p)) by (unfold sizes; now rewrite map_length).
    constructor; unfold initial_state; cbn [s_p s_ids s_next s_cache]; fold sizes.
    - reflexivity.
    - now rewrite initial_ids_len, LS.
    - intros i Hi. rewrite initial_ids_nth by lia. unfold fresh_ids. rewrite map_length, seq_length.
      unfold sizes. now rewrite (nth_map_in _ _ _ (fe0 p)).
    - intros i g Hi Hg. rewrite initial_ids_nth in Hg |- * by lia. unfold fresh_ids in Hg. rewrite map_length, seq_length in Hg.
      rewrite nth_fresh by exact Hg. cbn [fst snd]. pose proof (sum_firstn sizes i). 
      set (S0 := fold_right plus 0 (firstn i sizes)) in *.
      assert (E1 : (0 + 2 * S0 + 2 * g) = 2 * (S0 + g)) by lia.
      assert (E2 : (0 + 2 * S0 + 2 * g + 1) = 1 + (S0 + g) * 2) by lia.
      split; [lia|split; [lia|]]. rewrite E2, E1.
      rewrite (Nat.mul_comm 2 (S0 + g)), Nat.div_mul by lia. rewrite Nat.div_add by lia. change (1 / 2) with 0. rewrite Nat.add_0_l.
      unfold S0. rewrite find_group_ok by lia. rewrite Nat.even_add, Nat.even_mul, orb_comm. cbn [Nat.even orb Bool.eqb]. auto.
    - discriminate.
  Qed.

  Definition api_op (o : op K) : Prop := match o with MoveLists _ _ => False | _ => True end.
  Lemma inv_run (p : problem K V) ops : Forall api_op ops -> forall s, (exists G, inv p G s) -> exists G, inv p G (run s ops).
  Proof.
    induction 1 as [|o ops Ho Hops IH]; intros s [G I]; cbn [run fold_left]; [eauto|]. apply IH.
    destruct o as [i info|W|i j]; [|exists G; now apply inv_getA|destruct Ho]. eapply inv_update. exact I.
  Qed.
  Lemma cache_never_stale (p : problem K V) ops W : Forall api_op ops ->
    snd (get_A_cached (run (initial_state p) ops) W) = tangent (s_p (run (initial_state p) ops)) W.
  Proof.
    intros H. destruct (inv_run p ops H (initial_state p) (inv_initial p)) as [G I]. eapply get_A_fresh. exact I.
  Qed.
End Runs.
