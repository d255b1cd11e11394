(** newton_update returns the residual of compute_residual (also when they raise);
    lengths and ranges of the COO index arrays; zero cells; standard kernels. *)
From Coq Require Import List Arith Lia Bool.
From Verif Require Import Num Arr ArrFacts Fe Problem BatchFacts SpecAssembly AssemblyFacts ProblemFacts ResidualFacts.
Import ListNotations.

Definition rmap {A B} (f : A -> B) (r : result A) : result B := bind r (fun a => Ok (f a)).

Lemma mapM_rmap {A B C} (f : B -> C) (g : A -> result B) l :
  mapM (fun x => rmap f (g x)) l = rmap (map f) (mapM g l).
Proof.
  induction l as [|x l IH]; [reflexivity|]. cbn [mapM]. rewrite IH. unfold rmap.
  destruct (g x) as [b|e]; cbn [bind]; [|reflexivity].
  destruct (mapM g l); reflexivity.
Qed.

Lemma mapM_ext {A B} (f g : A -> result B) l : (forall x, In x l -> f x = g x) -> mapM f l = mapM g l.
Proof.
  induction l as [|x l IH]; intros H; [reflexivity|]. cbn [mapM].
  rewrite (H x) by now left. rewrite IH by (intros; apply H; now right). reflexivity.
Qed.

Section Agree.
  Context {K : ops} {V : Type}.
  Variable jvp : (list K -> list K) -> list K -> list K -> list K.
  Variable sqrtK : K -> K.

  Lemma vmap_cols_fst {O1 O2} (k : cell_in K V -> O1) (f : O1 -> O2) cc :
    vmap_cols (fun ci => f (k ci)) cc = rmap (map f) (vmap_cols k cc).
  Proof.
    unfold vmap_cols. destruct (forallb _ _); cbn [rmap bind]; [|reflexivity].
    unfold rmap, bind. now rewrite map_map.
  Qed.

  Lemma concat_map2 {A B} (f : A -> B) l : concat (map (map f) l) = map f (concat l).
  Proof. symmetry. apply concat_map. Qed.

  Lemma split_and_compute_fst {O1 O2} n (k : cell_in K V -> O1) (f : O1 -> O2) cc :
    split_and_compute n (fun ci => f (k ci)) cc = rmap (map f) (split_and_compute n k cc).
  Proof.
    unfold split_and_compute. destruct (if (n <? 20)%nat then n else 20%nat) as [|m]; [reflexivity|].
    rewrite (mapM_ext _ (fun i => rmap (map f)
        (if (i <? S m - 1)%nat
         then vmap_cols k (map_cols (fun A => slice (i * (n / S m)) ((i + 1) * (n / S m))) cc)
         else vmap_cols k (map_cols (fun A => slice_from (i * (n / S m))) cc)))).
    2:{ intros i Hi. destruct (i <? S m - 1)%nat; apply vmap_cols_fst. }
    rewrite mapM_rmap. unfold rmap. destruct (mapM _ _) as [l|e]; cbn [bind]; [|reflexivity].
    now rewrite concat_map2.
  Qed.

  Lemma compute_face_fst (p : problem K V) pts csf ivss :
    compute_face sqrtK p pts csf ivss = rmap fst (compute_face_jac jvp sqrtK p pts csf ivss).
  Proof.
    unfold compute_face, compute_face_jac.
    rewrite (mapM_ext _ (fun i => rmap (map fst) (face_step (kernel_jac_face jvp) sqrtK p pts csf ivss i))).
    - rewrite mapM_rmap. unfold rmap. destruct (mapM _ _); reflexivity.
    - intros i Hi. unfold face_step, rmap. destruct (nth_error ivss i); [|reflexivity].
      destruct (kernel_face p i) as [k|e]; cbn [bind]; [|reflexivity].
      destruct (face_inputs _ _ _ _ _ _) as [fis|e]; cbn [bind]; [|reflexivity].
      rewrite map_map. f_equal. apply map_ext. intros []. reflexivity.
  Qed.

  Lemma newton_agrees (p : problem K V) pts sol :
    compute_residual sqrtK p pts sol = rmap fst (newton_update jvp sqrtK p pts sol).
  Proof.
    unfold compute_residual, newton_update, compute_residual_vars, compute_newton_vars. cbv zeta.
    unfold split_and_compute_cell, split_and_compute_cell_jac.
    assert (E : split_and_compute (p_num_cells p) (kernel_cell p)
                  (input_collection p pts (cells_sol_flat p sol) (internal_vars p)) =
                rmap (map fst) (split_and_compute (p_num_cells p) (kernel_jac_cell jvp p)
                  (input_collection p pts (cells_sol_flat p sol) (internal_vars p)))).
    { rewrite <- split_and_compute_fst. reflexivity. }
    rewrite E. unfold rmap. destruct (split_and_compute _ (kernel_jac_cell jvp p) _) as [l|e]; cbn [bind]; [|reflexivity].
    rewrite compute_face_fst. unfold rmap.
    destruct (compute_face_jac _ _ _ _ _ _) as [[a b]|e]; reflexivity.
  Qed.

  Lemma split_zero {O} (k : cell_in K V -> O) cc : split_and_compute 0 k cc = Err ZeroDivErr.
  Proof. reflexivity. Qed.

  (** ** index arrays *)
  Lemma repeat_len (rows : list (list nat)) L : Forall (fun r => length r = L) rows ->
    length (repeat_I rows) = length rows * (L * L) /\ length (repeat_J rows) = length rows * (L * L).
  Proof.
    unfold repeat_I, repeat_J. induction 1 as [|r rows Hr H [IH1 IH2]]; cbn [flat_map length]; [lia|].
    rewrite !app_length, IH1, IH2. rewrite Hr.
    assert (E1 : forall m l, length (flat_map (fun x : nat => repeat x m) l) = length l * m).
    { intros m l. induction l as [|x l IH]; cbn [flat_map length]; [lia|]. rewrite app_length, repeat_length, IH. lia. }
    assert (E2 : forall m, length (concat (repeat r m)) = m * length r).
    { induction m as [|m IH]; cbn [repeat concat length]; [lia|]. rewrite app_length, IH. lia. }
    rewrite E1, E2, Hr. split; ring.
  Qed.

  Lemma repeat_in (rows : list (list nat)) g : In g (repeat_I rows) \/ In g (repeat_J rows) ->
    exists r, In r rows /\ In g r.
  Proof.
    unfold repeat_I, repeat_J. intros [H|H]; apply in_flat_map in H as (r & Hr & H); exists r; split; auto.
    - apply in_flat_map in H as (x & Hx & H). apply repeat_spec in H. now subst.
    - apply in_concat in H as (x & Hx & H). apply repeat_spec in Hx. now subst.
  Qed.

  Lemma coo_in_range (p : problem K V) g : wf_problem p -> 0 < p_num_cells p ->
    In g (p_I p) \/ In g (p_J p) -> g < all_dofs (global_shapes p).
  Proof.
    intros WF NC H.
    assert (exists c, c < p_num_cells p /\ In g (elem_dofs p c)) as (c & Hc & Hin).
    { unfold p_I, p_J in H. rewrite (cell_inds_elem p WF) in H.
      assert (D : (In g (repeat_I (map (elem_dofs p) (seq 0 (p_num_cells p)))) \/ In g (repeat_J (map (elem_dofs p) (seq 0 (p_num_cells p)))))
        \/ exists b, In b (boundary_inds_list p) /\ (In g (repeat_I (face_dof_inds p b)) \/ In g (repeat_J (face_dof_inds p b)))).
      { rewrite !in_app_iff, !in_flat_map in H. destruct H as [[H|(b & Hb & H)]|[H|(b & Hb & H)]]; eauto 6. }
      destruct D as [D|(b & Hb & D)]; apply repeat_in in D as (r & Hr & D).
      - apply in_map_iff in Hr as (c & <- & Hc). apply in_seq in Hc. exists c. split; auto; lia.
      - rewrite (face_dof_inds_elem p WF b) in Hr by (intros [c' f'] Hcf; apply (wf_boundary p WF b c' f'); auto). apply in_map_iff in Hr as ([c fc] & <- & Hc).
        exists c. split; auto. apply (wf_boundary p WF b c fc); auto. }
    apply In_nth with (d := 0) in Hin as (k & Hk & <-).
    rewrite elem_dofs_length in Hk; auto. apply elem_dofs_bound; auto.
  Qed.

  Lemma concat_shape_len {A} L (jac : list (list A)) : has_shape2 L L jac -> length (concat jac) = L * L.
  Proof.
    intros [H1 H2]. rewrite <- H1 at 1. clear H1. induction H2 as [|r jac Hr H IH]; cbn [concat length]; [lia|].
    rewrite app_length, IH, Hr. lia.
  Qed.
  Lemma concat_blocks_len {A} L (jacs : list (list (list A))) : Forall (has_shape2 L L) jacs ->
    length (concat (map (@concat A) jacs)) = length jacs * (L * L).
  Proof.
    induction 1 as [|j jacs Hj H IH]; cbn [map concat length]; [lia|].
    rewrite app_length, IH, (concat_shape_len L) by auto. lia.
  Qed.

  Lemma coo_lengths (p : problem K V) pts sol kf r W :
    wf_problem p -> 0 < p_num_cells p -> sol_ok p sol -> ivs_ok p -> kernels_ok p kf ->
    newton_update jvp sqrtK p pts sol = Ok (r, W) ->
    length (p_I p) = length W /\ length (p_J p) = length W.
  Proof.
    intros WF NC SOL IVS KER H. rewrite (newton_update_ok jvp sqrtK p pts sol kf) in H; auto.
    injection H as _ <-. unfold p_I, p_J. rewrite !app_length.
    set (L := all_dofs (local_shapes p)).
    assert (HI : Forall (fun r => length r = L) (cell_inds p)).
    { rewrite (cell_inds_elem p WF). apply Forall_forall. intros x Hx. apply in_map_iff in Hx as (c & <- & _).
      now apply elem_dofs_length. }
    destruct (repeat_len _ _ HI) as [-> ->].
    rewrite (concat_blocks_len L).
    2:{ apply Forall_forall. intros j Hj. unfold jac_cells in Hj.
        apply in_map_iff in Hj as (c & <- & Hc). apply in_seq in Hc.
        apply jac_shape; [apply cell_values_length; auto; lia|].
        apply (weak_cell_len p pts sol kf); auto; lia. }
    assert (length (cell_inds p) = length (jac_cells jvp p pts sol)) as ->.
    { unfold cell_inds, jac_cells. now rewrite !map_length. }
    enough (forall ss, (forall s, In s ss -> s < length (boundary_inds_list p)) ->
      length (flat_map (fun b => repeat_I (face_dof_inds p b)) (map (fun s => nth s (boundary_inds_list p) []) ss)) =
      length (concat (map (fun s => concat (map (@concat K) s)) (map (fun s =>
         map (fun i => snd (kernel_jac_face jvp (kf s) (face_input sqrtK p pts sol s i))) (seq 0 (num_sel_faces p s))) ss))) /\
      length (flat_map (fun b => repeat_J (face_dof_inds p b)) (map (fun s => nth s (boundary_inds_list p) []) ss)) =
      length (concat (map (fun s => concat (map (@concat K) s)) (map (fun s =>
         map (fun i => snd (kernel_jac_face jvp (kf s) (face_input sqrtK p pts sol s i))) (seq 0 (num_sel_faces p s))) ss)))) as E.
    { specialize (E (seq 0 (length (boundary_inds_list p)))).
      rewrite (map_seq_nth [] (boundary_inds_list p)) in E. unfold jac_faces.
      destruct E as [-> ->]; [intros s Hs; apply in_seq in Hs; lia|]. auto. }
    induction ss as [|s ss IH]; intros Hss; [split; reflexivity|].
    cbn [map flat_map concat]. rewrite !app_length.
    destruct IH as [-> ->]; [intros; apply Hss; now right|].
    assert (Hs : s < length (boundary_inds_list p)) by (apply Hss; now left).
    assert (HF : Forall (fun r => length r = L) (face_dof_inds p (nth s (boundary_inds_list p) []))).
    { rewrite (face_dof_inds_elem p WF).
      - apply Forall_forall. intros x Hx. apply in_map_iff in Hx as (c & <- & _). now apply elem_dofs_length.
      - intros [c f] Hcf. apply (wf_boundary p WF (nth s (boundary_inds_list p) []) c f); auto. now apply nth_In. }
    destruct (repeat_len _ _ HF) as [-> ->].
    rewrite (concat_blocks_len L).
    - unfold face_dof_inds, num_sel_faces. rewrite !map_length, !seq_length. auto.
    - apply Forall_forall. intros j Hj. apply in_map_iff in Hj as (i & <- & Hi). apply in_seq in Hi.
      apply jac_shape; [apply cell_values_length; auto; apply face_cell_lt; auto; lia|].
      apply (weak_face_len sqrtK p pts sol kf); auto; lia.
  Qed.

  (** ** single-variable problems built from the documented maps have well-shaped kernels *)
  Lemma flat_map_len {A} (f : nat -> list A) l c : (forall x, In x l -> length (f x) = c) ->
    length (flat_map f l) = length l * c.
  Proof.
    induction l as [|x l IH]; intros H; cbn [flat_map length]; [lia|].
    rewrite app_length, IH by (intros; apply H; now right). rewrite H by now left. lia.
  Qed.

  Lemma standard_kernels_ok (p : problem K V) (f : fe K) (kf : nat -> face_in K V -> list K) :
    fes p = [f] -> universal_kernel (maps p) = None -> universal_kernels_surface (maps p) = None ->
    (tensor_map (maps p) <> None \/ mass_map (maps p) <> None) ->
    match surface_maps (maps p) with
    | None => boundary_inds_list p = []
    | Some sms => length sms = length (boundary_inds_list p) /\
        forall s sm, nth_error sms s = Some sm -> kf s = surface_kernel p sm
    end ->
    kernels_ok p kf.
  Proof.
    intros Hf Hu Hus Hm Hs.
    assert (HL : all_dofs (local_shapes p) = num_nodes f * vec f).
    { rewrite all_dofs_total. unfold local_shapes. rewrite Hf. cbn. lia. }
    assert (H0 : fe0 p = f) by (unfold fe0; now rewrite Hf).
    assert (LK : forall (F : nat -> nat -> K), length (flat_map (fun a => map (F a) (seq 0 (vec f))) (seq 0 (num_nodes f)))
        = num_nodes f * vec f).
    { intros F. rewrite (flat_map_len _ _ (vec f)); [now rewrite seq_length|].
      intros. now rewrite map_length, seq_length. }
    split.
    - intros ci Hci. rewrite HL. unfold kernel_cell. rewrite Hu. cbn [option_map].
      destruct (tensor_map (maps p)) as [tm|], (mass_map (maps p)) as [mm|]; cbn [option_map badd unscalar].
      + rewrite length_map2. unfold laplace_kernel, mass_kernel. rewrite H0. cbv zeta. rewrite !LK. lia.
      + unfold laplace_kernel. rewrite H0. cbv zeta. now rewrite LK.
      + unfold mass_kernel. rewrite H0. cbv zeta. now rewrite LK.
      + destruct Hm; congruence.
    - intros s Hlt. unfold kernel_face. rewrite Hus. destruct (surface_maps (maps p)) as [sms|].
      + destruct Hs as [Hl Hk]. destruct (nth_error sms s) as [sm|] eqn:E.
        2:{ apply nth_error_None in E. lia. }
        rewrite (Hk s sm E). split; [reflexivity|]. intros fi Hfi.
        unfold surface_kernel. rewrite H0. cbv zeta. rewrite LK. lia.
      + rewrite Hs in Hlt. cbn in Hlt. lia.
  Qed.
End Agree.
