(** Proofs about fe.py: small matrices, interpolation, measures, selection of nodes and faces. *)
From Coq Require Import List Arith Lia Bool String ZArith Field_theory Sorted.
From Verif Require Import Num Arr ArrFacts Fe Basis SpecBasis BasisFacts SpecFe.
Import ListNotations.

Section Det.
  Context {K : ops}.
  Open Scope num_scope.
  Lemma det_ext n : forall (m m' : mat K), (forall i j, (i < n)%nat -> (j < n)%nat -> m i j = m' i j) -> det n m = det n m'.
  Proof.
    induction n as [|n IH]; intros m m' H; [reflexivity|]. cbn [det]. apply sum_n_ext. intros j Hj.
    rewrite (H 0%nat j) by lia. f_equal. apply IH. intros p q Hp Hq. unfold minor, skip.
    apply H; destruct (_ <? _)%nat; lia.
  Qed.
  Lemma inv_mat_ext n (m m' : mat K) i j : (i < n)%nat -> (j < n)%nat ->
    (forall i j, (i < n)%nat -> (j < n)%nat -> m i j = m' i j) -> inv_mat n m i j = inv_mat n m' i j.
  Proof.
    intros Hi Hj H. unfold inv_mat. rewrite (det_ext n m m' H). f_equal. f_equal. apply det_ext.
    intros p q Hp Hq. unfold minor, skip. apply H; destruct (_ <? _)%nat; lia.
  Qed.
End Det.

Section Ring.
  Context {K : ops} (KR : ring_laws K).
  Open Scope num_scope.
  Let Kth : ring_theory (@zero K) one add mul sub opp eq := KR.
  Add Ring KringF : Kth.

  Ltac sums := cbv [sum_n sum_over sumK seq map fold_right List.length].
  Ltac unmat := cbv [det inv_mat minor skip sgn sum_n sum_over sumK seq map fold_right Nat.even Nat.ltb Nat.leb Nat.add Nat.sub].

  Lemma det_det2 (m : mat K) : det 2 m = det2 m.
  Proof. unfold det2. unmat. ring. Qed.
  Lemma det_det3 (m : mat K) : det 3 m = det3 m.
  Proof. unfold det3. unmat. ring. Qed.
  Lemma det_det1 (m : mat K) : det 1 m = m 0%nat 0%nat.
  Proof. unmat. ring. Qed.
  Lemma det_dim_ok d (m : mat K) : d = 2%nat \/ d = 3%nat -> det d m = det_dim d m.
  Proof. intros [-> | ->]; [apply det_det2|apply det_det3]. Qed.
  Lemma det_mul d (a b : mat K) : d = 2%nat \/ d = 3%nat ->
    det d (fun i j => sum_n d (fun k => a i k * b k j)) = det d a * det d b.
  Proof. intros [-> | ->]; rewrite ?det_det2, ?det_det3; unfold det2, det3; sums; ring. Qed.

  (** cofactors: m * adj(m) = det m * I *)
  Definition cof (n : nat) (m : mat K) (i j : nat) : K := sgn (i + j) * det (n - 1) (minor m j i).
  Lemma cof_right d (m : mat K) a b : d = 2%nat \/ d = 3%nat -> (a < d)%nat -> (b < d)%nat ->
    sum_n d (fun i => m a i * cof d m i b) = if (a =? b)%nat then det d m else 0.
  Proof.
    intros Hd Ha Hb. destruct Hd as [-> | ->];
      (destruct a as [|[|[|a]]]; try lia); (destruct b as [|[|[|b]]]; try lia);
      cbn [Nat.eqb]; unfold cof; unmat; ring.
  Qed.
  Lemma cof_left d (m : mat K) a b : d = 2%nat \/ d = 3%nat -> (a < d)%nat -> (b < d)%nat ->
    sum_n d (fun i => cof d m a i * m i b) = if (a =? b)%nat then det d m else 0.
  Proof.
    intros Hd Ha Hb. destruct Hd as [-> | ->];
      (destruct a as [|[|[|a]]]; try lia); (destruct b as [|[|[|b]]]; try lia);
      cbn [Nat.eqb]; unfold cof; unmat; ring.
  Qed.

  Lemma sum_n_mul_l n c (f : nat -> K) : sum_n n (fun i => c * f i) = c * sum_n n f.
  Proof. unfold sum_n. apply (sum_over_mul_l KR). Qed.
  Lemma sum_n_mul_r' n c (f : nat -> K) : sum_n n (fun i => f i * c) = sum_n n f * c.
  Proof. unfold sum_n. apply (sum_over_mul_r KR). Qed.
  Lemma sum_n_add n (f g : nat -> K) : sum_n n (fun i => f i + g i) = sum_n n f + sum_n n g.
  Proof. unfold sum_n. apply (sum_over_add KR). Qed.
  Lemma sum_n_swap' n m (f : nat -> nat -> K) :
    sum_n n (fun i => sum_n m (fun j => f i j)) = sum_n m (fun j => sum_n n (fun i => f i j)).
  Proof. unfold sum_n. apply (sum_over_swap KR). Qed.

  (** sum_a (A x_a + b)_k g_a *)
  Lemma affine_sum n d (A : nat -> nat -> K) b (x : nat -> nat -> K) (g : nat -> K) k :
    sum_n n (fun a => affine d A b (x a) k * g a)
    = sum_n d (fun m => A k m * sum_n n (fun a => x a m * g a)) + b k * sum_n n g.
  Proof.
    unfold affine.
    rewrite (sum_n_ext n _ (fun a => sum_n d (fun m => A k m * (x a m * g a)) + b k * g a)).
    - rewrite sum_n_add, sum_n_mul_l. f_equal. rewrite sum_n_swap'. apply sum_n_ext. intros m Hm. apply sum_n_mul_l.
    - intros a Ha. rewrite <- (sum_n_ext d (fun m => (A k m * x a m) * g a) (fun m => A k m * (x a m * g a))) by (intros; ring).
      rewrite (sum_n_mul_r' d (g a) (fun m => A k m * x a m)). ring.
  Qed.
End Ring.

Section Field.
  Context {K : ops} (KF : field_laws K).
  Open Scope num_scope.
  Let KR := field_ring K KF.
  Let Kth : ring_theory (@zero K) one add mul sub opp eq := KR.
  Add Ring KringG : Kth.
  Lemma inv_mat_cof n (m : mat K) i j : inv_mat n m i j = cof n m i j * inv (det n m).
  Proof. unfold inv_mat, cof. apply (Fdiv_def KF). Qed.
  Lemma inv_r (x : K) : x <> 0 -> x * inv x = 1.
  Proof. intros H. transitivity (inv x * x); [ring|]. now apply (Finv_l KF). Qed.
  Lemma inv_mat_right d (m : mat K) a b : d = 2%nat \/ d = 3%nat -> (a < d)%nat -> (b < d)%nat -> det d m <> 0 ->
    sum_n d (fun i => m a i * inv_mat d m i b) = if (a =? b)%nat then 1 else 0.
  Proof.
    intros Hd Ha Hb Hdet.
    rewrite (sum_n_ext d _ (fun i => (m a i * cof d m i b) * inv (det d m))) by (intros; rewrite inv_mat_cof; ring).
    rewrite (sum_n_mul_r' KR), (cof_right KR) by auto. destruct (a =? b)%nat; [now apply inv_r|ring].
  Qed.
  Lemma inv_mat_left d (m : mat K) a b : d = 2%nat \/ d = 3%nat -> (a < d)%nat -> (b < d)%nat -> det d m <> 0 ->
    sum_n d (fun i => inv_mat d m a i * m i b) = if (a =? b)%nat then 1 else 0.
  Proof.
    intros Hd Ha Hb Hdet.
    rewrite (sum_n_ext d _ (fun i => (cof d m a i * m i b) * inv (det d m))) by (intros; rewrite inv_mat_cof; ring).
    rewrite (sum_n_mul_r' KR), (cof_left KR) by auto. destruct (a =? b)%nat; [now apply inv_r|ring].
  Qed.
End Field.

(** ** C09, C10 *)
Section Select.
  Context {K : ops}.

  Lemma increasing_sorted l : increasing l -> StronglySorted lt l.
  Proof.
    induction l as [|x l IH]; cbn; [constructor|]. intros [H1 H2]. constructor; auto. apply Forall_forall. exact H1.
  Qed.
  Lemma lex_increasing_sorted l : lex_increasing l -> StronglySorted lex_lt l.
  Proof.
    induction l as [|x l IH]; cbn; [constructor|]. intros [H1 H2]. constructor; auto. apply Forall_forall. exact H1.
  Qed.
  Lemma as_loc2_ok (l : location_fn K) : loc_wrong l = false -> exists g, as_loc2 l = Ok g /\ forall p n, g p n = loc_holds l p n.
  Proof. destruct l; cbn; [intros _; eexists; split; [reflexivity|reflexivity]..|discriminate]. Qed.
  Lemma as_loc2_err (l : location_fn K) : loc_wrong l = true -> as_loc2 l = Err ValueErr.
  Proof. destruct l; cbn; [discriminate..|reflexivity]. Qed.

  Lemma group_nodes (pts : list (list K)) g v w :
    let r := dirichlet_group pts g v w in
    (forall n, In n (fst (fst r)) <-> n < List.length pts /\ g (nth n pts []) n = true) /\
    increasing (fst (fst r)) /\
    snd (fst r) = repeat v (List.length (fst (fst r))) /\
    snd r = map (fun n => w (nth n pts [])) (fst (fst r)).
  Proof.
    cbv zeta. unfold dirichlet_group. cbn [fst snd].
    assert (I : forall n, In n (argwhere (map2 g pts (seq 0 (List.length pts)))) <-> n < List.length pts /\ g (nth n pts []) n = true).
    { intros n. rewrite argwhere_In, length_map2, seq_length, Nat.min_id. split; intros [L E]; (split; [exact L|]).
      - rewrite (nth_map2 _ _ _ _ [] 0) in E by (rewrite ?seq_length; auto). now rewrite seq_nth in E by auto.
      - rewrite (nth_map2 _ _ _ _ [] 0) by (rewrite ?seq_length; auto). now rewrite seq_nth by auto. }
    split; [exact I|split; [apply argwhere_increasing|split]].
    - generalize (argwhere (map2 g pts (seq 0 (List.length pts)))) as l. induction l; cbn; congruence.
    - unfold take. rewrite map_map. apply map_ext_in. intros n Hn. apply I in Hn as [Hn _]. now rewrite gather_in.
  Qed.

  Lemma dirichlet_loop_spec (pts : list (list K)) : forall locs vecs values,
    List.length vecs = List.length locs -> List.length values = List.length locs ->
    if existsb loc_wrong locs then dirichlet_loop pts locs vecs values = Err ValueErr
    else exists ns vs ws, dirichlet_loop pts locs vecs values = Ok (ns, vs, ws) /\
      List.length ns = List.length locs /\ List.length vs = List.length locs /\ List.length ws = List.length locs /\
      forall i, i < List.length locs ->
        (forall n, In n (nth i ns []) <-> n < List.length pts /\ loc_holds (nth i locs (LocOther 0)) (nth n pts []) n = true) /\
        increasing (nth i ns []) /\
        nth i vs [] = repeat (nth i vecs 0) (List.length (nth i ns [])) /\
        nth i ws [] = map (fun n => nth i values (fun _ => zero) (nth n pts [])) (nth i ns []).
  Proof.
    induction locs as [|l locs IH]; intros [|v vecs] [|w values] Hv Hw; cbn [List.length] in *; try discriminate.
    { cbn. do 3 eexists. split; [reflexivity|]. repeat split; cbn in *; lia. }
    injection Hv as Hv. injection Hw as Hw. specialize (IH vecs values Hv Hw). cbn [existsb dirichlet_loop].
    destruct (loc_wrong l) eqn:El; cbn [orb].
    { now rewrite as_loc2_err. }
    destruct (as_loc2_ok l El) as (g & -> & Hg).
    destruct (existsb loc_wrong locs).
    { now rewrite IH. }
    destruct IH as (ns & vs & ws & -> & L1 & L2 & L3 & IH).
    pose proof (group_nodes pts g v w) as G. cbv zeta in G.
    destruct (dirichlet_group pts g v w) as [[n0 v0] w0]. cbn [fst snd] in G.
    do 3 eexists. split; [reflexivity|]. cbn [List.length]. split; [lia|]. split; [lia|]. split; [lia|].
    intros [|i] Hi; cbn [nth].
    - destruct G as (G1 & G2 & G3 & G4). split; [|auto]. intros n. rewrite G1. now rewrite Hg.
    - apply IH. lia.
  Qed.

  Lemma boundary_loop_spec (f : fe K) : forall locs,
    if existsb loc_wrong locs then boundary_loop f locs = Err ValueErr
    else exists bs, boundary_loop f locs = Ok bs /\ List.length bs = List.length locs /\
      forall i, i < List.length locs -> exists g, (forall p n, g p n = loc_holds (nth i locs (LocOther 0)) p n) /\
        nth i bs [] = argwhere2 (boundary_flags f g).
  Proof.
    induction locs as [|l locs IH]; cbn [existsb boundary_loop List.length].
    { eexists. repeat split. intros i Hi. lia. }
    destruct (loc_wrong l) eqn:El; cbn [orb]; [now rewrite as_loc2_err|].
    destruct (as_loc2_ok l El) as (g & -> & Hg).
    destruct (existsb loc_wrong locs); [now rewrite IH|].
    destruct IH as (bs & -> & L & IH). eexists. split; [reflexivity|]. cbn [List.length]. split; [lia|].
    intros [|i] Hi; cbn [nth]; [eauto|apply IH; lia].
  Qed.
  Lemma boundary_flags_In (f : fe K) l g c fc : (forall p n, g p n = loc_holds l p n) -> faces_ok f ->
    In (c, fc) (argwhere2 (boundary_flags f g)) <->
    c < List.length (cells f) /\ fc < List.length (face_inds f) /\ face_holds f l c fc.
  Proof.
    intros Hg [MO FO]. rewrite argwhere2_In. unfold boundary_flags. rewrite map_length.
    assert (E : forall (X : Prop), c < List.length (cells f) -> fc < List.length (face_inds f) ->
      (get2 false (map (fun cell => map (fun face =>
                  forallb (fun a => let n := gather 0 cell a in g (gather [] (points f) n) n) face) (face_inds f)) (cells f)) c fc = true
       <-> face_holds f l c fc)).
    { intros _ Hc Hf. unfold get2. rewrite (nth_map_in _ _ _ []) by auto. rewrite (nth_map_in _ _ _ []) by auto.
      rewrite forallb_forall. unfold face_holds. destruct (MO c Hc) as [ML MN].
      assert (X : forall a, In a (nth fc (face_inds f) []) ->
         (let n := gather 0 (nth c (cells f) []) a in g (gather [] (points f) n) n) =
         (let n := nth a (nth c (cells f) []) 0 in loc_holds l (nth n (points f) []) n)).
      { intros a Ha. assert (a < num_nodes f) by (apply (FO (nth fc (face_inds f) []) a); auto; now apply nth_In).
        cbv zeta. rewrite (gather_in 0) by lia. rewrite gather_in; [apply Hg|]. apply MN. apply nth_In. lia. }
      split; intros H a Ha; specialize (H a Ha); specialize (X a Ha); cbv zeta in *; congruence. }
    split.
    - intros (Hc & Hf & H). rewrite (nth_map_in _ _ _ []) in Hf by auto. rewrite map_length in Hf.
      split; [auto|split; [auto|]]. now apply (E True Hc Hf).
    - intros (Hc & Hf & H). split; [auto|]. rewrite (nth_map_in _ _ _ []) by auto. rewrite map_length.
      split; [auto|]. now apply (E True Hc Hf).
  Qed.
End Select.
