(** Dirichlet row elimination, assignment helpers, tangent rows: proofs (C20-C23). *)
From Coq Require Import List Arith Lia Bool.
From Verif Require Import Num Arr ArrFacts Fe Problem SpecAssembly AssemblyFacts ProblemFacts SolverBc SpecBc.
Import ListNotations.

Definition hit {A} (n j : nat) (u : nat * nat * A) : bool := (fst (fst u) =? n) && (snd (fst u) =? j).
(** value of the last update of (n, j) *)
Definition last_upd {A} (us : list (nat * nat * A)) (n j : nat) : option A :=
  fold_left (fun acc e => if hit n j e then Some (snd e) else acc) us None.
Definition orelse {A} (x y : option A) : option A := match x with Some a => Some a | None => y end.
Definition getor {A} (x : option A) (d : A) : A := match x with Some a => a | None => d end.

Lemma last_upd_acc {A} (us : list (nat * nat * A)) n j acc :
  fold_left (fun acc e => if hit n j e then Some (snd e) else acc) us acc = orelse (last_upd us n j) acc.
Proof.
  unfold last_upd. revert acc. induction us as [|u us IH]; intros acc; [reflexivity|]. cbn [fold_left].
  rewrite IH. rewrite (IH (if hit n j u then _ else _)). destruct (fold_left _ us None); cbn [orelse]; [reflexivity|].
  destruct (hit n j u); reflexivity.
Qed.
Lemma last_upd_app {A} (us vs : list (nat * nat * A)) n j :
  last_upd (us ++ vs) n j = orelse (last_upd vs n j) (last_upd us n j).
Proof. unfold last_upd at 1. rewrite fold_left_app, last_upd_acc. reflexivity. Qed.
Lemma last_upd_cons {A} (u : nat * nat * A) us n j :
  last_upd (u :: us) n j = orelse (last_upd us n j) (if hit n j u then Some (snd u) else None).
Proof. unfold last_upd at 1. cbn [fold_left]. apply last_upd_acc. Qed.
Lemma last_upd_In {A} (us : list (nat * nat * A)) n j b : last_upd us n j = Some b -> In ((n, j), b) us.
Proof.
  induction us as [|[[n' j'] b'] us IH]; [discriminate|]. rewrite last_upd_cons.
  destruct (last_upd us n j) as [x|]; cbn [orelse].
  - intros [= ->]. right. auto.
  - unfold hit. cbn [fst snd]. destruct (Nat.eqb_spec n' n); destruct (Nat.eqb_spec j' j); cbn; intros E; try discriminate.
    injection E as ->. subst. now left.
Qed.
Lemma last_upd_None {A} (us : list (nat * nat * A)) n j : last_upd us n j = None <-> ~ exists b, In ((n, j), b) us.
Proof.
  split.
  - intros H (b & Hb). induction us as [|u us IH]; [destruct Hb|]. rewrite last_upd_cons in H.
    destruct (last_upd us n j) eqn:E; [discriminate|]. cbn [orelse] in H. destruct Hb as [->|Hb]; [|now apply IH].
    unfold hit in H. cbn [fst snd] in H. rewrite !Nat.eqb_refl in H. discriminate.
  - intros H. destruct (last_upd us n j) eqn:E; [|reflexivity]. exfalso. apply H. eauto using last_upd_In.
Qed.
Lemma last_upd_map {A B} (f : A -> B) (us : list (nat * nat * A)) n j :
  last_upd (map (fun u => (fst u, f (snd u))) us) n j = option_map f (last_upd us n j).
Proof.
  induction us as [|u us IH]; [reflexivity|]. cbn [map]. rewrite !last_upd_cons, IH.
  unfold hit. cbn [fst snd]. destruct (last_upd us n j); cbn [orelse option_map]; [reflexivity|].
  destruct (_ && _); reflexivity.
Qed.

Section Arr2.
  Context {A : Type} (d : A).
  Definition sets (us : list (nat * nat * A)) (l : list (list A)) : list (list A) :=
    fold_left (fun acc u => upd2 (fst (fst u)) (snd (fst u)) (fun _ => snd u) acc) us l.
  Lemma sets_shape us l n c : has_shape2 n c l -> has_shape2 n c (sets us l).
  Proof. unfold sets. revert l; induction us as [|u us IH]; intros l H; cbn [fold_left]; auto using has_shape2_upd2. Qed.
  Lemma get2_sets us l n c i j : has_shape2 n c l -> i < n -> j < c ->
    get2 d (sets us l) i j = getor (last_upd us i j) (get2 d l i j).
  Proof.
    unfold sets. revert l; induction us as [|u us IH]; intros l H Hi Hj; [reflexivity|]. cbn [fold_left].
    rewrite IH by auto using has_shape2_upd2. rewrite get2_upd2, last_upd_cons.
    rewrite (has_shape2_in2 n c) by auto. unfold hit.
    replace (i <? n) with true by (symmetry; now apply Nat.ltb_lt).
    replace (j <? c) with true by (symmetry; now apply Nat.ltb_lt).
    rewrite andb_true_r. destruct (last_upd us i j); cbn [orelse getor]; [reflexivity|].
    destruct (_ && _); reflexivity.
  Qed.
  Variable plus : A -> A -> A.
  Definition adds (us : list (nat * nat * A)) (l : list (list A)) : list (list A) :=
    fold_left (fun acc u => upd2 (fst (fst u)) (snd (fst u)) (fun x => plus x (snd u)) acc) us l.
  Lemma adds_shape us l n c : has_shape2 n c l -> has_shape2 n c (adds us l).
  Proof. unfold adds. revert l; induction us as [|u us IH]; intros l H; cbn [fold_left]; auto using has_shape2_upd2. Qed.
  Lemma get2_adds us l n c i j : has_shape2 n c l -> i < n -> j < c -> NoDup (map fst us) ->
    get2 d (adds us l) i j = match last_upd us i j with Some x => plus (get2 d l i j) x | None => get2 d l i j end.
  Proof.
    unfold adds. revert l; induction us as [|u us IH]; intros l H Hi Hj Hnd; [reflexivity|]. cbn [fold_left].
    inversion Hnd as [|? ? Hu Hus]; subst.
    rewrite IH by auto using has_shape2_upd2. rewrite get2_upd2, last_upd_cons.
    rewrite (has_shape2_in2 n c) by auto.
    replace (i <? n) with true by (symmetry; now apply Nat.ltb_lt).
    replace (j <? c) with true by (symmetry; now apply Nat.ltb_lt).
    rewrite andb_true_r. destruct (last_upd us i j) as [x|] eqn:E; cbn [orelse].
    - destruct (_ && _) eqn:F; [|reflexivity]. exfalso. apply Hu.
      apply andb_true_iff in F as [F1%Nat.eqb_eq F2%Nat.eqb_eq].
      apply last_upd_In in E. apply in_map_iff. exists (i, j, x). split; auto.
      cbn [fst]. destruct u as [[a b] c']. cbn in *. congruence.
    - unfold hit. destruct (_ && _); reflexivity.
  Qed.
End Arr2.

Lemma combine3_map {A B C D} (f : C -> D) (l : list (A * B)) (m : list C) :
  combine l (map f m) = map (fun u => (fst u, f (snd u))) (combine l m).
Proof. revert m; induction l as [|x l IH]; intros [|y m]; cbn; auto. now rewrite IH. Qed.
Lemma combine_map_self {A B} (f : A -> B) (l : list A) : combine l (map f l) = map (fun x => (x, f x)) l.
Proof. induction l as [|x l IH]; cbn; auto. now rewrite IH. Qed.
Lemma map_fst_combine {A B} (l : list A) (m : list B) : length l = length m -> map fst (combine l m) = l.
Proof. revert m; induction l as [|x l IH]; intros [|y m] H; cbn in *; try discriminate; auto. now rewrite IH by lia. Qed.

Section Facts.
  Context {K : ops} {V : Type}.
  Open Scope num_scope.
  Notation group := (list nat * list nat * list K)%type.

  Definition group_ok (g : group) : Prop :=
    let '(ns, vs, vals) := g in length vs = length ns /\ length vals = length ns /\ NoDup (combine ns vs).
  Definition group_entries (g : group) : list (nat * nat * K) :=
    combine (combine (fst (fst g)) (snd (fst g))) (snd g).

  Lemma bc_entries_groups (f : fe K) : bc_entries f = flat_map group_entries (bc_groups f).
  Proof.
    unfold bc_entries, bc_groups. rewrite !flat_map_concat_map, map_map. reflexivity.
  Qed.
  Lemma prescribed_last (f : fe K) n j : prescribed f n j = last_upd (bc_entries f) n j.
  Proof. reflexivity. Qed.
  Lemma bc_ok_groups (f : fe K) : bc_ok f -> Forall group_ok (bc_groups f).
  Proof.
    intros H. apply Forall_forall. intros g Hg. unfold bc_groups in Hg. apply in_map_iff in Hg as (i & <- & Hi).
    apply in_seq in Hi. destruct (H i) as (H1 & H2 & H3); [lia|]. unfold group_ok. auto.
  Qed.
  Lemma group_len (g : group) : group_ok g -> length (combine (fst (fst g)) (snd (fst g))) = length (snd g).
  Proof. destruct g as [[ns vs] vals]. intros (H1 & H2 & _). cbn. rewrite combine_length. lia. Qed.

  Lemma gather2_in (sol : list (list K)) n c ns vs : has_shape2 n c sol ->
    gather2 0 sol ns vs = map (fun u => gather 0 (gather [] sol (fst u)) (snd u)) (combine ns vs).
  Proof. reflexivity. Qed.
  Lemma gather2_get (sol : list (list K)) n c i j : has_shape2 n c sol -> (i < n)%nat -> (j < c)%nat ->
    gather 0 (gather [] sol i) j = get2 0 sol i j.
  Proof.
    intros H Hi Hj. unfold get2. rewrite (gather_in [] sol) by (destruct H; lia).
    rewrite gather_in; [reflexivity|]. rewrite (has_shape2_rows n c); auto.
  Qed.

  (** last update for a list of updates whose value is a function of the index *)
  Lemma last_upd_fun (F : nat * nat -> K) (us : list (nat * nat)) n j :
    last_upd (map (fun u => (u, F u)) us) n j = if existsb (fun u => (fst u =? n) && (snd u =? j))%nat us then Some (F (n, j)) else None.
  Proof.
    induction us as [|[a b] us IH]; [reflexivity|]. cbn [map existsb]. rewrite last_upd_cons, IH.
    unfold hit. cbn [fst snd]. destruct (existsb _ us); cbn [orelse]; [now rewrite orb_true_r|].
    rewrite orb_false_r. destruct (Nat.eqb_spec a n); destruct (Nat.eqb_spec b j); cbn; subst; reflexivity.
  Qed.
  Lemma last_upd_exists (g : group) n j : group_ok g ->
    existsb (fun u => (fst u =? n) && (snd u =? j))%nat (combine (fst (fst g)) (snd (fst g)))
    = match last_upd (group_entries g) n j with Some _ => true | None => false end.
  Proof.
    intros Hg. pose proof (group_len g Hg) as Hl. unfold group_entries.
    set (l := combine (fst (fst g)) (snd (fst g))) in *. generalize dependent (snd g). clear Hg.
    intros m. generalize l. clear l. intros l. revert m.
    induction l as [|u l IH]; intros [|b m] Hl; cbn in Hl; try discriminate; [reflexivity|].
    cbn [existsb combine]. rewrite last_upd_cons, (IH m) by lia. unfold hit. cbn [fst snd].
    destruct (last_upd (combine l m) n j); cbn [orelse]; [apply orb_true_r|]. rewrite orb_false_r.
    destruct (_ && _); reflexivity.
  Qed.

  (** one group of apply_bc_vec *)
  Lemma apply_bc_group_spec scale (sol res : list (list K)) (g : group) N c :
    group_ok g -> has_shape2 N c sol -> has_shape2 N c res ->
    has_shape2 N c (apply_bc_group scale sol res g) /\
    forall n j, (n < N)%nat -> (j < c)%nat ->
      get2 0 (apply_bc_group scale sol res g) n j =
      match last_upd (group_entries g) n j with
      | Some b => get2 0 sol n j + (- b) * scale
      | None => get2 0 res n j
      end.
  Proof.
    intros Hg Hsol Hres. pose proof (group_len g Hg) as Hl. destruct g as [[ns vs] vals].
    cbn [fst snd] in Hl. unfold apply_bc_group, at_set2, at_add2.
    change (has_shape2 N c (adds add (combine (combine ns vs) (map (fun b => - b * scale) vals))
       (sets (combine (combine ns vs) (gather2 0 sol ns vs)) res)) /\ forall n j, (n < N)%nat -> (j < c)%nat ->
       get2 0 (adds add (combine (combine ns vs) (map (fun b => - b * scale) vals))
       (sets (combine (combine ns vs) (gather2 0 sol ns vs)) res)) n j = match last_upd (group_entries (ns, vs, vals)) n j with
      | Some b => get2 0 sol n j + (- b) * scale | None => get2 0 res n j end).
    split; [apply adds_shape, sets_shape; auto|]. intros n j Hn Hj.
    rewrite (get2_adds 0 add _ _ N c) by (auto using sets_shape;
      rewrite combine3_map, map_map, (map_ext _ fst), map_fst_combine by (auto || reflexivity); apply Hg).
    rewrite (get2_sets 0 _ _ N c) by auto.
    rewrite (combine3_map (fun b => - b * scale)), (last_upd_map (fun b => - b * scale)). unfold gather2. rewrite combine_map_self.
    rewrite (last_upd_fun (fun u => gather 0 (gather [] sol (fst u)) (snd u))).
    rewrite (last_upd_exists (ns, vs, vals)) by auto. unfold group_entries. cbn [fst snd].
    destruct (last_upd (combine (combine ns vs) vals) n j) as [b|]; cbn [option_map getor]; [|reflexivity].
    f_equal. apply (gather2_get sol N c); auto.
  Qed.

  Lemma apply_bc_fold scale (sol : list (list K)) gs N c : Forall group_ok gs -> has_shape2 N c sol ->
    forall res, has_shape2 N c res ->
    has_shape2 N c (fold_left (apply_bc_group scale sol) gs res) /\
    forall n j, (n < N)%nat -> (j < c)%nat ->
      get2 0 (fold_left (apply_bc_group scale sol) gs res) n j =
      match last_upd (flat_map group_entries gs) n j with
      | Some b => get2 0 sol n j + (- b) * scale
      | None => get2 0 res n j
      end.
  Proof.
    intros HF Hsol. induction HF as [|g gs Hg HF IH]; intros res Hres; [split; [exact Hres|reflexivity]|].
    cbn [fold_left flat_map]. destruct (apply_bc_group_spec scale sol res g N c Hg Hsol Hres) as [S1 G1].
    destruct (IH _ S1) as [S2 G2]. split; [exact S2|]. intros n j Hn Hj. rewrite G2, last_upd_app by auto.
    destruct (last_upd (flat_map group_entries gs) n j); cbn [orelse]; [reflexivity|]. now apply G1.
  Qed.

  (** the set-only helpers: value list [w g] per group *)
  Lemma set_fold (F : nat * nat -> K -> K) (w : group -> list K) gs N c :
    Forall group_ok gs ->
    (forall g, In g gs -> combine (combine (fst (fst g)) (snd (fst g))) (w g)
                          = map (fun u => (fst u, F (fst u) (snd u))) (group_entries g)) ->
    forall sol : list (list K), has_shape2 N c sol ->
    let r := fold_left (fun sol g => at_set2 sol (fst (fst g)) (snd (fst g)) (w g)) gs sol in
    has_shape2 N c r /\
    forall n j, (n < N)%nat -> (j < c)%nat ->
      get2 0 r n j = match last_upd (flat_map group_entries gs) n j with
                     | Some b => F (n, j) b | None => get2 0 sol n j end.
  Proof.
    intros HF. induction HF as [|g gs Hg HF IH]; intros Hw sol Hs; [split; [exact Hs|reflexivity]|].
    cbv zeta. cbn [fold_left flat_map].
    assert (S1 : has_shape2 N c (at_set2 sol (fst (fst g)) (snd (fst g)) (w g))) by (apply sets_shape; auto).
    destruct (IH (fun g' H => Hw g' (or_intror H)) _ S1) as [S2 G2]. split; [exact S2|]. intros n j Hn Hj.
    rewrite G2, last_upd_app by auto. destruct (last_upd (flat_map group_entries gs) n j); cbn [orelse]; [reflexivity|].
    change (at_set2 sol (fst (fst g)) (snd (fst g)) (w g))
      with (sets (combine (combine (fst (fst g)) (snd (fst g))) (w g)) sol).
    rewrite (get2_sets 0 _ _ N c) by auto. rewrite Hw by now left.
    generalize (group_entries g). intros us. clear.
    assert (E : last_upd (map (fun u => (fst u, F (fst u) (snd u))) us) n j = option_map (F (n, j)) (last_upd us n j)).
    { induction us as [|[[a b] v] us IH]; [reflexivity|]. cbn [map]. rewrite !last_upd_cons, IH.
      unfold hit. cbn [fst snd]. destruct (last_upd us n j); cbn [orelse option_map]; [reflexivity|].
      destruct (Nat.eqb_spec a n); destruct (Nat.eqb_spec b j); cbn; subst; reflexivity. }
    rewrite E. destruct (last_upd us n j); reflexivity.
  Qed.

  (** flattening of per-variable results *)
  Lemma per_fe_spec (p : problem K V) arrs step :
    (forall v, (v < length (fes p))%nat ->
       has_shape2 (length (points (fe_of p v))) (vec (fe_of p v)) (step v (fe_of p v) (nth v arrs []))) ->
    length (per_fe p arrs step) = all_dofs (global_shapes p) /\
    forall v n j, valid_dof (global_shapes p) v n j ->
      nth (dof_number (global_shapes p) v n j) (per_fe p arrs step) 0 = get2 0 (step v (fe_of p v) (nth v arrs [])) n j.
  Proof.
    intros H. unfold per_fe.
    assert (S : has_shapes (global_shapes p)
      (map (fun i => step i (nth i (fes p) (fe0 p)) (nth i arrs [])) (seq 0 (length (fes p))))).
    { unfold has_shapes. rewrite <- (map_seq_nth (0,0)%nat (global_shapes p)), length_global_shapes.
      assert (HH : forall i, In i (seq 0 (length (fes p))) -> (i < length (fes p))%nat) by (intros i Hi; apply in_seq in Hi; lia).
      induction (seq 0 (length (fes p))) as [|i l IH]; cbn [map]; constructor.
      - rewrite global_shapes_nth by (apply HH; now left). cbn [fst snd]. apply (H i). apply HH. now left.
      - apply IH. intros; apply HH; now right. }
    split.
    - rewrite all_dofs_total. now apply ravel_length.
    - intros v n j Hv. rewrite (nth_ravel_dof 0 (global_shapes p)) by auto.
      destruct Hv as (Hv & _). rewrite length_global_shapes in Hv.
      rewrite (nth_map_in _ _ _ 0%nat) by (rewrite seq_length; lia). rewrite seq_nth by lia. reflexivity.
  Qed.

  Lemma unravel_var (p : problem K V) (x : list K) v : length x = all_dofs (global_shapes p) ->
    (v < length (fes p))%nat ->
    has_shape2 (length (points (fe_of p v))) (vec (fe_of p v)) (nth v (unravel (sol_shapes p) x) []).
  Proof.
    intros Hl Hv. rewrite all_dofs_total in Hl.
    pose proof (has_shapes_nth _ _ v (unravel_shapes (global_shapes p) x Hl)) as S.
    rewrite length_global_shapes in S. specialize (S Hv). rewrite global_shapes_nth in S by auto. exact S.
  Qed.

  Section P.
    Variable p : problem K V.
    Hypothesis BC : bcs_ok p.
    Notation gs := (global_shapes p).

    Lemma fe_of_In v : (v < length (fes p))%nat -> In (fe_of p v) (fes p).
    Proof. intros H. apply nth_In. exact H. Qed.
    Lemma groups_ok v : (v < length (fes p))%nat -> Forall group_ok (bc_groups (fe_of p v)).
    Proof. intros H. apply bc_ok_groups, BC, fe_of_In, H. Qed.
    Lemma valid_var v n j : valid_dof gs v n j ->
      (v < length (fes p))%nat /\ (n < length (points (fe_of p v)))%nat /\ (j < vec (fe_of p v))%nat.
    Proof.
      intros (Hv & Hn & Hj). rewrite length_global_shapes in Hv. rewrite global_shapes_nth in Hn, Hj by auto. auto.
    Qed.

    Lemma apply_bc_vec_spec (res dofs : list K) scale :
      length res = all_dofs gs -> length dofs = all_dofs gs ->
      length (apply_bc_vec res dofs p scale) = all_dofs gs /\
      forall v n j, valid_dof gs v n j ->
        nth (dof_number gs v n j) (apply_bc_vec res dofs p scale) 0 =
        match prescribed (fe_of p v) n j with
        | Some b => nth (dof_number gs v n j) dofs 0 + (- b) * scale
        | None => nth (dof_number gs v n j) res 0
        end.
    Proof.
      intros Hr Hd. unfold apply_bc_vec. cbv zeta.
      destruct (per_fe_spec p (unravel (sol_shapes p) res) (fun i f res =>
         fold_left (apply_bc_group scale (nth i (unravel (sol_shapes p) dofs) [])) (bc_groups f) res)) as [L G].
      { intros v Hv. apply apply_bc_fold; auto using groups_ok, unravel_var. }
      split; [exact L|]. intros v n j Hv. rewrite G by auto.
      pose proof (valid_var v n j Hv) as (Hv1 & Hn & Hj).
      destruct (apply_bc_fold scale (nth v (unravel (sol_shapes p) dofs) []) (bc_groups (fe_of p v))
         (length (points (fe_of p v))) (vec (fe_of p v)) (groups_ok v Hv1) (unravel_var p dofs v Hd Hv1) _ (unravel_var p res v Hr Hv1)) as [_ G2].
      rewrite G2 by auto. rewrite prescribed_last, bc_entries_groups.
      rewrite !(get2_unravel 0 (global_shapes p)) by (auto; now rewrite <- all_dofs_total). reflexivity.
    Qed.

    Lemma set_helper (F : list (list (list K)) -> nat -> nat * nat -> K -> K)
        (w : list (list (list K)) -> nat -> group -> list K) (x y : list K) :
      length x = all_dofs gs ->
      (forall v g, (v < length (fes p))%nat -> In g (bc_groups (fe_of p v)) -> group_ok g ->
         combine (combine (fst (fst g)) (snd (fst g))) (w (unravel (sol_shapes p) y) v g)
         = map (fun u => (fst u, F (unravel (sol_shapes p) y) v (fst u) (snd u))) (group_entries g)) ->
      let r := per_fe p (unravel (sol_shapes p) x) (fun i f sol =>
         fold_left (fun sol g => at_set2 sol (fst (fst g)) (snd (fst g)) (w (unravel (sol_shapes p) y) i g)) (bc_groups f) sol) in
      length r = all_dofs gs /\
      forall v n j, valid_dof gs v n j ->
        nth (dof_number gs v n j) r 0 =
        match prescribed (fe_of p v) n j with
        | Some b => F (unravel (sol_shapes p) y) v (n, j) b
        | None => nth (dof_number gs v n j) x 0
        end.
    Proof.
      intros Hx Hw. cbv zeta.
      assert (Hfold : forall v, (v < length (fes p))%nat ->
        has_shape2 (length (points (fe_of p v))) (vec (fe_of p v)) (fold_left (fun sol g => at_set2 sol (fst (fst g)) (snd (fst g))
            (w (unravel (sol_shapes p) y) v g)) (bc_groups (fe_of p v)) (nth v (unravel (sol_shapes p) x) [])) /\
        forall n j, (n < length (points (fe_of p v)))%nat -> (j < vec (fe_of p v))%nat ->
        get2 0 (fold_left (fun sol g => at_set2 sol (fst (fst g)) (snd (fst g))
            (w (unravel (sol_shapes p) y) v g)) (bc_groups (fe_of p v)) (nth v (unravel (sol_shapes p) x) [])) n j =
        match last_upd (flat_map group_entries (bc_groups (fe_of p v))) n j with
        | Some b => F (unravel (sol_shapes p) y) v (n, j) b
        | None => get2 0 (nth v (unravel (sol_shapes p) x) []) n j end).
      { intros v Hv. apply (set_fold (F (unravel (sol_shapes p) y) v)); auto using groups_ok, unravel_var.
        intros g Hg. apply Hw; auto. pose proof (groups_ok v Hv) as HF. rewrite Forall_forall in HF. auto. }
      destruct (per_fe_spec p (unravel (sol_shapes p) x) (fun i f sol =>
         fold_left (fun sol g => at_set2 sol (fst (fst g)) (snd (fst g)) (w (unravel (sol_shapes p) y) i g)) (bc_groups f) sol)) as [L G].
      { intros v Hv. apply Hfold; auto. }
      split; [exact L|]. intros v n j Hv. pose proof (valid_var v n j Hv) as (Hv1 & Hn & Hj).
      rewrite G by auto. destruct (Hfold v Hv1) as [_ G2]. rewrite G2 by auto.
      rewrite prescribed_last, bc_entries_groups. destruct (last_upd _ n j); [reflexivity|].
      rewrite !(get2_unravel 0 (global_shapes p)) by (auto; now rewrite <- all_dofs_total). reflexivity.
    Qed.

    Definition bc_spec (x r : list K) (F : nat -> nat -> nat -> K -> K) : Prop :=
      length r = all_dofs gs /\
      forall v n j, valid_dof gs v n j ->
        nth (dof_number gs v n j) r 0 =
        match prescribed (fe_of p v) n j with Some b => F v n j b | None => nth (dof_number gs v n j) x 0 end.

    Lemma combine_pair_id (us : list (nat * nat * K)) : map (fun u => (fst u, snd u)) us = us.
    Proof. rewrite (map_ext _ (fun u => u)); [apply map_id|]. now intros []. Qed.

    Lemma combine_repeat_const {X} (z : K) (l : list X) (m : list K) k : length l = length m -> k = length l ->
      combine l (repeat z k) = map (fun u => (fst u, z)) (combine l m).
    Proof.
      revert m k; induction l as [|a l IH]; intros [|b m] k H ->; cbn in *; try discriminate; auto.
      f_equal. apply IH; lia.
    Qed.

    Lemma assign_bc_spec x : length x = all_dofs gs -> bc_spec x (assign_bc x p) (fun _ _ _ b => b).
    Proof.
      intros Hx. apply (set_helper (fun _ _ _ b => b) (fun _ _ g => snd g) x x); auto.
      intros v g _ _ _. cbn. now rewrite combine_pair_id.
    Qed.
    Lemma group_fst_len (g : group) : group_ok g -> length (fst (fst g)) = length (combine (fst (fst g)) (snd (fst g))).
    Proof. destruct g as [[ns vs] vals]. intros (H & _). cbn [fst snd]. rewrite combine_length. lia. Qed.
    Lemma assign_ones_bc_spec x : length x = all_dofs gs -> bc_spec x (assign_ones_bc x p) (fun _ _ _ _ => 1).
    Proof.
      intros Hx. apply (set_helper (fun _ _ _ b => 1) (fun _ _ g => repeat 1 (length (fst (fst g)))) x x); auto.
      intros v g _ _ Hg. apply combine_repeat_const; auto using group_len, group_fst_len.
    Qed.
    Lemma assign_zeros_bc_spec x : length x = all_dofs gs -> bc_spec x (assign_zeros_bc x p) (fun _ _ _ _ => 0).
    Proof.
      intros Hx. apply (set_helper (fun _ _ _ b => 0) (fun _ _ g => repeat 0 (length (fst (fst g)))) x x); auto.
      intros v g _ _ Hg. apply combine_repeat_const; auto using group_len, group_fst_len.
    Qed.
    Lemma copy_bc_spec x : length x = all_dofs gs ->
      length (copy_bc x p) = all_dofs gs /\
      forall v n j, valid_dof gs v n j ->
        nth (dof_number gs v n j) (copy_bc x p) 0 =
        match prescribed (fe_of p v) n j with Some _ => nth (dof_number gs v n j) x 0 | None => 0 end.
    Proof.
      intros Hx. unfold copy_bc. cbv zeta.
      destruct (set_helper (fun arrs v u _ => gather 0 (gather [] (nth v arrs []) (fst u)) (snd u))
         (fun arrs v g => gather2 0 (nth v arrs []) (fst (fst g)) (snd (fst g))) (map (fun _ => 0) x) x) as [L G].
      { now rewrite map_length. }
      { intros v g _ _ Hg. unfold gather2. rewrite combine_map_self.
        pose proof (group_len g Hg) as Hl. unfold group_entries. revert Hl.
        generalize (combine (fst (fst g)) (snd (fst g))) (snd g). clear. intros l m. revert m.
        induction l as [|u l IH]; intros [|b m] H; cbn in *; try discriminate; auto. f_equal. apply IH. lia. }
      split; [exact L|]. intros v n j Hv. rewrite G by auto.
      pose proof (valid_var v n j Hv) as (Hv1 & Hn & Hj).
      destruct (prescribed (fe_of p v) n j).
      - cbn [fst snd]. rewrite (gather2_get _ (length (points (fe_of p v))) (vec (fe_of p v))) by auto using unravel_var.
        apply (get2_unravel 0 gs); auto. now rewrite <- all_dofs_total.
      - pose proof (dof_number_lt gs v n j Hv). rewrite (nth_map_in _ _ _ 0) by (rewrite Hx; auto). reflexivity.
    Qed.

    (** ** tangent rows *)
    Lemma existsb_combine (n j : nat) (l : list (nat * nat)) (m : list K) : length l = length m ->
      (exists b, In ((n, j), b) (combine l m)) <-> In (n, j) l.
    Proof.
      revert m; induction l as [|u l IH]; intros [|b m] H; cbn in *; try discriminate; [split; [intros (b & [])|intros []]|].
      injection H as H. split.
      - intros (b' & [E|E]); [injection E as -> ->; now left|]. right. apply (IH m H). eauto.
      - intros [->|E]; [eexists; left; reflexivity|]. apply (IH m H) in E as (b' & E). exists b'. now right.
    Qed.

    (** membership in the row lists *)
    Lemma bc_rows_In (RNG : forall f, In f (fes p) -> bc_in_range f) g :
      (exists rows, In rows (bc_rows p) /\ In g rows) <->
      exists v n j, valid_dof gs v n j /\ g = dof_number gs v n j /\ constrained (fe_of p v) n j.
    Proof.
      assert (ROW : forall v n j, (v < length (fes p))%nat ->
         (n * vec (fe_of p v) + j + nth v (p_offset p) 0)%nat = dof_number gs v n j).
      { intros v n j Hv. unfold dof_number. rewrite p_offset_nth, global_shapes_nth by auto. cbn [snd]. lia. }
      split.
      - intros (rows & Hr & Hg). unfold bc_rows in Hr. apply in_flat_map in Hr as (v & Hv & Hr).
        apply in_seq in Hv. cbv zeta in Hr. apply in_map_iff in Hr as (gr & <- & Hgr).
        unfold map2 in Hg. apply in_map_iff in Hg as ([n j] & <- & Hu). cbn [fst snd].
        assert (Hv1 : (v < length (fes p))%nat) by lia.
        pose proof (groups_ok v Hv1) as HF. rewrite Forall_forall in HF. specialize (HF gr Hgr).
        assert (C : constrained (fe_of p v) n j).
        { unfold constrained. rewrite bc_entries_groups.
          apply (existsb_combine n j _ (snd gr) (group_len gr HF)) in Hu as (b & Hb).
          exists b. apply in_flat_map. exists gr. split; auto. }
        exists v, n, j. split; [|split; [apply (ROW v n j Hv1)|exact C]].
        destruct C as (b & Hb). destruct (RNG _ (fe_of_In v Hv1) n j b Hb) as [Hn Hj].
        unfold valid_dof. rewrite length_global_shapes, global_shapes_nth by auto. auto.
      - intros (v & n & j & Hv & -> & (b & Hb)). pose proof (valid_var v n j Hv) as (Hv1 & Hn & Hj).
        rewrite bc_entries_groups in Hb. apply in_flat_map in Hb as (gr & Hgr & Hb).
        exists (map2 (fun n c => (n * vec (fe_of p v) + c + nth v (p_offset p) 0)%nat) (fst (fst gr)) (snd (fst gr))). split.
        + unfold bc_rows. apply in_flat_map. exists v. split; [apply in_seq; lia|]. cbv zeta.
          apply in_map_iff. exists gr. split; auto.
        + unfold map2. apply in_map_iff. exists (n, j). split; [apply (ROW v n j Hv1)|].
          pose proof (groups_ok v Hv1) as HF. rewrite Forall_forall in HF.
          apply (existsb_combine n j _ (snd gr) (group_len gr (HF gr Hgr))). eauto.
    Qed.

    Lemma zero_rows_fold (rs : list (list nat)) (A : nat -> nat -> K) g h :
      fold_left (fun A rows => zero_rows rows A) rs A g h =
      if existsb (fun rows => existsb (Nat.eqb g) rows) rs then (if (g =? h)%nat then 1 else 0) else A g h.
    Proof.
      revert A; induction rs as [|r rs IH]; intros A; [reflexivity|]. cbn [fold_left existsb]. rewrite IH.
      unfold zero_rows. destruct (existsb (Nat.eqb g) r); cbn [orb]; [|reflexivity].
      destruct (existsb _ rs); reflexivity.
    Qed.

    Lemma tangent_spec (RNG : forall f, In f (fes p) -> bc_in_range f) W v n j h :
      valid_dof gs v n j ->
      (constrained (fe_of p v) n j -> tangent p W (dof_number gs v n j) h = if (dof_number gs v n j =? h)%nat then 1 else 0) /\
      (~ constrained (fe_of p v) n j -> tangent p W (dof_number gs v n j) h = coo_entry (p_I p) (p_J p) W (dof_number gs v n j) h).
    Proof.
      intros Hv. unfold tangent. rewrite zero_rows_fold.
      destruct (existsb _ (bc_rows p)) eqn:E.
      - apply existsb_exists in E as (rows & Hr & Hg). apply existsb_exists in Hg as (g & Hg & Eg).
        apply Nat.eqb_eq in Eg. subst g.
        destruct (proj1 (bc_rows_In RNG _) (ex_intro _ rows (conj Hr Hg))) as (v' & n' & j' & Hv' & Ed & C).
        destruct (dof_number_inj _ _ _ _ _ _ _ Hv Hv' Ed) as (-> & -> & ->). split; [reflexivity|]. intros N. contradiction.
      - split; [|reflexivity]. intros C. exfalso.
        destruct (proj2 (bc_rows_In RNG (dof_number gs v n j))) as (rows & Hr & Hg); [eauto 8|].
        assert (existsb (fun rows => existsb (Nat.eqb (dof_number gs v n j)) rows) (bc_rows p) = true); [|congruence].
        apply existsb_exists. exists rows. split; auto. apply existsb_exists. exists (dof_number gs v n j).
        split; auto. apply Nat.eqb_refl.
    Qed.
  End P.

  Lemma prescribed_constrained (f : fe K) n j :
    (constrained f n j <-> exists b, prescribed f n j = Some b).
  Proof.
    rewrite prescribed_last. split.
    - intros C. destruct (last_upd (bc_entries f) n j) eqn:E; [eauto|]. apply last_upd_None in E. contradiction.
    - intros (b & E). exists b. now apply last_upd_In.
  Qed.
End Facts.
