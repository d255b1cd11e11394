(** Proofs for C82: the boundary conditions on the interior contour. *)
From Coq Require Import String Reals List Arith Lia Lra Bool.
From Verif Require Import Num Arr ArrFacts Fe Problem SpecAssembly SpecBc SpecFe SelectFacts Wave Stokes SpecStokes.
Import ListNotations.

Lemma collect_ok {A B} (g : A -> result (list B)) l : (forall a, In a l -> exists x, g a = Ok x) ->
  exists y, collect g l = Ok y /\ forall b, In b y <-> exists a x, In a l /\ g a = Ok x /\ In b x.
Proof.
  induction l as [|a l IH]; intros H.
  - exists []. split; [reflexivity|]. intros b. split; [intros []|intros (? & ? & [] & _)].
  - destruct (H a (or_introl eq_refl)) as (x & E). destruct IH as (y & E' & I); [intros; apply H; now right|]. exists (x ++ y). cbn. rewrite E, E'. cbn. split; [reflexivity|].
    intros b. rewrite in_app_iff, I. split.
    + intros [Hb|(a' & x' & H1 & H2 & H3)]; [exists a, x; auto|exists a', x'; auto].
    + intros (a' & x' & [<-|H1] & H2 & H3); [left; congruence|right; exists a', x'; auto].
Qed.
Lemma collect_err {A B} (g : A -> result (list B)) e l : (forall a, In a l -> (exists x, g a = Ok x) \/ g a = Err e) -> (exists a, In a l /\ g a = Err e) -> collect g l = Err e.
Proof.
  induction l as [|a l IH]; intros H (b & I & E); [destruct I|]. cbn. destruct (g a) as [x|e'] eqn:Ea.
  - cbn. destruct I as [->|I]; [congruence|]. rewrite IH; [reflexivity|intros; apply H; now right|eauto].
  - destruct (H a (or_introl eq_refl)) as [(x & E')|E']; cbn; congruence.
Qed.
Lemma collect_total {A B} (g : A -> result (list B)) e l : (forall a, In a l -> (exists x, g a = Ok x) \/ g a = Err e) -> (exists y, collect g l = Ok y) \/ collect g l = Err e.
Proof.
  induction l as [|a l IH]; intros H; [left; eexists; reflexivity|]. cbn. destruct (H a (or_introl eq_refl)) as [(x & ->)| ->]; [|now right]. cbn.
  destruct IH as [(y & ->)| ->]; [intros; apply H; now right| |now right]. left. eexists. reflexivity.
Qed.
Lemma first_pos_nth cell a : a < List.length cell -> count_occ Nat.eq_dec cell (nth a cell 0) <= 1 -> first_pos cell (nth a cell 0) = a.
Proof.
  revert a; induction cell as [|n cell IH]; intros a Ha H; [cbn in Ha; lia|]. destruct a as [|a]; cbn [first_pos nth]; [now rewrite Nat.eqb_refl|]. cbn in Ha, H.
  assert (I : In (nth a cell 0) cell) by (apply nth_In; lia). apply (count_occ_In Nat.eq_dec) in I.
  destruct (Nat.eq_dec n (nth a cell 0)) as [E|E]; [lia|]. destruct (Nat.eqb_spec n (nth a cell 0)); [contradiction|]. f_equal. apply IH; lia.
Qed.
Lemma count_concat (cls : list (list nat)) cell c : In cell cls -> count_occ Nat.eq_dec cell c <= count_occ Nat.eq_dec (concat cls) c.
Proof.
  induction cls as [|x cls IH]; intros []; cbn; rewrite count_occ_app; [subst; lia|]. specialize (IH H). lia.
Qed.
Lemma alone_pos cls cell a c : alone cls cell a c -> first_pos cell c = a /\ counted_once cls c = true.
Proof.
  intros (I & Ha & <- & C). split; [|unfold counted_once; now rewrite C]. apply first_pos_nth; auto. rewrite <- C. now apply count_concat.
Qed.
Lemma once_alone cls cell c : In cell cls -> In c cell -> counted_once cls c = true -> alone cls cell (first_pos cell c) c.
Proof.
  intros I Ic C. apply (In_nth _ _ 0) in Ic as (a & Ha & <-). unfold counted_once in C. apply Nat.eqb_eq in C.
  assert (AL : alone cls cell a (nth a cell 0)) by (split; auto). now rewrite (proj1 (alone_pos _ _ _ _ AL)).
Qed.
Lemma ind_map_edge a : 3 <= a < 6 -> ind_map a = Ok (edge_ends a).
Proof. intros H. do 6 (destruct a as [|a]; [try reflexivity; lia|]). lia. Qed.
Lemma ind_map_corner a : a < 3 -> ind_map a = Err AssertionErr.
Proof. intros H. do 3 (destruct a as [|a]; [reflexivity|]). lia. Qed.

Section Nodes.
  Variable cls : list (list nat).
  Hypothesis L6 : forall cell, In cell cls -> List.length cell = 6.
  Lemma edge_cases cell c : In cell cls -> In c cell ->
    (counted_once cls c = false /\ edge_nodes cls cell c = Ok []) \/
    (exists a, alone cls cell a c /\ a < 3 /\ edge_nodes cls cell c = Err AssertionErr) \/
    (exists a, alone cls cell a c /\ 3 <= a < 6 /\ edge_nodes cls cell c = Ok [c; nth (fst (edge_ends a)) cell 0; nth (snd (edge_ends a)) cell 0]).
  Proof.
    intros I Ic. unfold edge_nodes. destruct (counted_once cls c) eqn:C; [right|left; auto]. pose proof (once_alone _ _ _ I Ic C) as AL. set (a := first_pos cell c) in *.
    assert (Ha : a < 6) by (destruct AL as (_ & H & _); now rewrite (L6 cell I) in H). destruct (Nat.lt_ge_cases a 3) as [H|H].
    - left. exists a. split; [auto|split; [auto|]]. now rewrite (ind_map_corner a H).
    - right. exists a. split; [auto|split; [lia|]]. now rewrite (ind_map_edge a) by lia.
  Qed.
  Lemma boundary_ok : (forall cell a c, alone cls cell a c -> 3 <= a) -> exists b, boundary_inds cls = Ok b /\ forall n, In n b <-> on_boundary cls n.
  Proof.
    intros NCr.
    assert (IN : forall cell, In cell cls -> exists y, collect (edge_nodes cls cell) cell = Ok y /\ forall b, In b y <-> exists a x, In a cell /\ edge_nodes cls cell a = Ok x /\ In b x).
    { intros cell I. apply collect_ok. intros c Ic. destruct (edge_cases cell c I Ic) as [(_ & E)|[(a & AL & H & E)|(a & AL & H & E)]]; eauto. specialize (NCr _ _ _ AL). lia. }
    destruct (collect_ok (fun cell => collect (edge_nodes cls cell) cell) cls) as (b & E & B); [intros cell I; destruct (IN cell I) as (y & H & _); eauto|].
    exists b. split; [exact E|]. intros n. rewrite B. split.
    - intros (cell & x & I & Ex & Hn). destruct (IN cell I) as (y & Ey & Hy). assert (x = y) as -> by congruence. apply Hy in Hn as (c & z & Ic & Ez & Hz).
      destruct (edge_cases cell c I Ic) as [(_ & E')|[(a & AL & H & E')|(a & AL & H & E')]]; rewrite E' in Ez; [injection Ez as <-; destruct Hz|discriminate|injection Ez as <-].
      exists cell, a, c. split; [auto|split; [auto|]]. destruct Hz as [<-|[<-|[<-|[]]]]; auto.
    - intros (cell & a & c & AL & Ha & Hn). pose proof AL as (I & La & Ea & _). assert (Ic : In c cell) by (rewrite <- Ea; now apply nth_In).
      destruct (IN cell I) as (y & Ey & Hy). exists cell, y. split; [auto|split; [auto|]]. apply Hy. exists c, [c; nth (fst (edge_ends a)) cell 0; nth (snd (edge_ends a)) cell 0].
      split; [auto|split]; [|cbn; intuition]. destruct (alone_pos _ _ _ _ AL) as (FP & CO). unfold edge_nodes. rewrite CO, FP, (ind_map_edge a Ha). reflexivity.
  Qed.
  Lemma boundary_err cell a c : alone cls cell a c -> a < 3 -> boundary_inds cls = Err AssertionErr.
  Proof.
    intros AL Ha. assert (N : forall ce, In ce cls -> forall c, In c ce -> (exists x, edge_nodes cls ce c = Ok x) \/ edge_nodes cls ce c = Err AssertionErr).
    { intros ce I c' Ic. destruct (edge_cases ce c' I Ic) as [(_ & E)|[(? & _ & _ & E)|(? & _ & _ & E)]]; eauto. }
    pose proof AL as (I & La & Ea & _). apply collect_err.
    - intros ce Ic. apply collect_total. now apply N.
    - exists cell. split; [exact I|]. apply collect_err; [now apply N|]. exists c. split; [rewrite <- Ea; now apply nth_In|].
      destruct (alone_pos _ _ _ _ AL) as (FP & CO). unfold edge_nodes. rewrite CO, FP, (ind_map_corner a Ha). reflexivity.
  Qed.
End Nodes.

(** prescriptions after two more groups *)
Lemma seq_from s n : seq s n = map (fun i => s + i) (seq 0 n).
Proof.
  revert s; induction n as [|n IH]; intros s; [reflexivity|]. cbn. f_equal; [lia|]. rewrite (IH (S s)), (IH 1), map_map. apply map_ext. intros; lia.
Qed.
Section Groups.
  Context {K : ops}.
  Lemma set_bc_entries (f : fe K) ns vs ws : List.length (vec_inds_list f) = List.length (node_inds_list f) -> List.length (vals_list f) = List.length (node_inds_list f) ->
    List.length vs = List.length ns -> List.length ws = List.length ns ->
    bc_entries (set_bc f (node_inds_list f ++ ns) (vec_inds_list f ++ vs) (vals_list f ++ ws)) =
    bc_entries f ++ flat_map (fun i => combine (combine (nth i ns []) (nth i vs [])) (nth i ws [])) (seq 0 (List.length ns)).
  Proof.
    intros L1 L2 L3 L4. unfold bc_entries. cbn. rewrite app_length, seq_app, flat_map_app. f_equal.
    - rewrite !flat_map_concat_map. f_equal. apply map_ext_in. intros i Hi. apply in_seq in Hi. rewrite !app_nth1 by lia. reflexivity.
    - cbn. rewrite seq_from, !flat_map_concat_map, map_map. f_equal. apply map_ext_in. intros i Hi. apply in_seq in Hi. rewrite !app_nth2 by lia. rewrite L1, L2.
      now rewrite !(Nat.add_comm (List.length (node_inds_list f)) i), !Nat.add_sub.
  Qed.
  (** two groups on the same nodes, for the components 0 and 1 *)
  Lemma two_groups (f : fe K) inds : List.length (vec_inds_list f) = List.length (node_inds_list f) -> List.length (vals_list f) = List.length (node_inds_list f) -> NoDup inds ->
    let f' := set_bc f (node_inds_list f ++ [inds; inds]) (vec_inds_list f ++ [map (fun _ => 0) inds; map (fun _ => 1) inds]) (vals_list f ++ [map (fun _ => zero) inds; map (fun _ => zero) inds]) in
    (forall n k, prescribed f' n k = if (k <? 2) && existsb (Nat.eqb n) inds then Some zero else prescribed f n k) /\ (bc_ok f -> bc_ok f') /\
    ((forall n, In n inds -> n < List.length (points f)) -> 2 <= vec f -> bc_in_range f -> bc_in_range f').
  Proof.
    intros L1 L2 ND f'. assert (RP : forall v : nat, map (fun _ : nat => v) inds = repeat v (List.length inds)).
    { intros v. clear. induction inds as [|x l IH]; [reflexivity|]. cbn. now rewrite IH. }
    assert (EE : bc_entries f' = bc_entries f ++ combine (combine inds (map (fun _ => 0) inds)) (map (fun _ => zero) inds) ++ combine (combine inds (map (fun _ => 1) inds)) (map (fun _ => zero) inds)).
    { unfold f'. rewrite set_bc_entries by auto. cbn. now rewrite app_nil_r. }
    split; [|split].
    - intros n k. unfold prescribed. rewrite EE, !fold_left_app. rewrite (RP 0), (RP 1). rewrite (group_prescribed n k 1 (fun _ => zero)) by auto. rewrite (group_prescribed n k 0 (fun _ => zero)) by auto.
      destruct k as [|[|k]]; cbn; destruct (existsb (Nat.eqb n) inds); reflexivity.
    - intros BO i Hi. cbn in *. rewrite app_length in Hi. cbn in Hi. destruct (Nat.lt_ge_cases i (List.length (node_inds_list f))) as [H|H].
      + rewrite !app_nth1 by lia. now apply BO.
      + rewrite !app_nth2 by lia. rewrite L1, L2. destruct (i - _) as [|[|m]] eqn:E; [| |lia]; cbn; rewrite !map_length; repeat split; auto; now apply NoDup_combine.
    - intros Hn HV BR n j b I. rewrite EE, !in_app_iff in I. cbn. destruct I as [I|[I|I]]; [now apply (BR n j b)| |];
        apply in_combine_l in I; pose proof (in_combine_l _ _ _ _ I); apply in_combine_r, in_map_iff in I as (? & <- & _); split; auto; lia.
  Qed.
End Groups.

Section Contour.
  Variables (to_set : list nat -> list nat) (f : fe Rops).
  Hypothesis ORD : set_order to_set.
  Hypothesis MESH : mesh_ok f.
  Hypothesis N6 : num_nodes f = 6.
  Lemma c_len cell : In cell (cells f) -> List.length cell = 6.
  Proof. intros I. apply (In_nth _ _ []) in I as (c & Hc & <-). rewrite <- N6. now apply MESH. Qed.
  Lemma c_range n : on_boundary (cells f) n -> n < List.length (points f).
  Proof.
    intros (cell & a & c & (I & La & Ea & _) & Ha & Hn). pose proof (c_len cell I) as L. pose proof I as I'. apply (In_nth _ _ []) in I as (m & Hm & E). apply (MESH m Hm). rewrite E.
    destruct Hn as [->|[->| ->]]; [rewrite <- Ea|..]; apply nth_In; auto; do 5 (destruct a as [|a]; [cbn; lia|]); cbn; lia.
  Qed.
  Lemma contour_corner cell a c : alone (cells f) cell a c -> a < 3 -> configure_fe to_set f = Err AssertionErr.
  Proof. intros AL Ha. unfold configure_fe. now rewrite (boundary_err _ c_len cell a c AL Ha). Qed.
  Lemma contour_none : (forall cell a c, ~ alone (cells f) cell a c) -> configure_fe to_set f = Err TypeErr.
  Proof.
    intros NO. unfold configure_fe. destruct (boundary_ok _ c_len) as (b & -> & B); [intros ce a c AL; destruct (NO _ _ _ AL)|]. cbn.
    destruct (ORD b) as (_ & IS). destruct (to_set b) as [|x l]; [reflexivity|]. destruct (proj1 (B x) (proj1 (IS x) (or_introl eq_refl))) as (? & ? & ? & AL & _). destruct (NO _ _ _ AL).
  Qed.
  Local Open Scope R_scope.
  Lemma between_spec n : (n < List.length (points f))%nat -> between (points f) n = true <-> / 100000 < nth 0 (nth n (points f) []) 0 < 1 - / 100000.
  Proof.
    intros Hn. unfold between. rewrite gather_in by auto. destruct (Rlt_dec _ (1 - / 100000)) as [H|H]; [destruct (Rlt_dec (/ 100000) _) as [H'|H']|]; split; intros X; auto; try discriminate; destruct X; contradiction.
  Qed.
  Lemma contour_ok : (forall cell a c, alone (cells f) cell a c -> (3 <= a)%nat) -> (exists cell a c, alone (cells f) cell a c) ->
    List.length (vec_inds_list f) = List.length (node_inds_list f) -> List.length (vals_list f) = List.length (node_inds_list f) ->
    exists f', configure_fe to_set f = Ok f' /\ f' = set_bc f (node_inds_list f') (vec_inds_list f') (vals_list f') /\
      (forall n k, on_boundary (cells f) n -> / 100000 < nth 0 (nth n (points f) []) 0 < 1 - / 100000 -> (k < 2)%nat -> prescribed f' n k = Some 0) /\
      (forall n k, ~ (on_boundary (cells f) n /\ / 100000 < nth 0 (nth n (points f) []) 0 < 1 - / 100000 /\ (k < 2)%nat) -> prescribed f' n k = prescribed f n k) /\
      (bc_ok f -> bc_ok f') /\ ((2 <= vec f)%nat -> bc_in_range f -> bc_in_range f').
  Proof.
    intros CR (cell & a & c & AL) L1 L2. unfold configure_fe. destruct (boundary_ok _ c_len CR) as (b & -> & B). cbn. destruct (ORD b) as (ND & IS).
    set (inds := filter (between (points f)) (to_set b)).
    assert (II : forall n, In n inds <-> on_boundary (cells f) n /\ / 100000 < nth 0 (nth n (points f) []) 0 < 1 - / 100000).
    { intros n. unfold inds. rewrite filter_In, IS, B. split; intros (H1 & H2); (split; [exact H1|]); apply (between_spec n (c_range n H1)); exact H2. }
    destruct (two_groups f inds L1 L2 (NoDup_filter _ ND)) as (P & BO & BR). cbv zeta in P, BO, BR.
    destruct (to_set b) as [|x l] eqn:EB.
    { exfalso. assert (OB : on_boundary (cells f) c) by (exists cell, a, c; split; [exact AL|split; [|now left]]; split; [now apply (CR _ _ _ AL)|]; destruct AL as (I & La & _); now rewrite (c_len cell I) in La).
      now apply B, IS in OB. }
    exists (set_bc f (node_inds_list f ++ [inds; inds]) (vec_inds_list f ++ [map (fun _ => 0%nat) inds; map (fun _ => 1%nat) inds]) (vals_list f ++ [map (fun _ => @zero Rops) inds; map (fun _ => @zero Rops) inds])). split; [reflexivity|]. split; [reflexivity|]. split; [|split; [|split]].
    - intros n k H1 H2 Hk. rewrite P. replace (k <? 2)%nat with true by (symmetry; now apply Nat.ltb_lt). replace (existsb (Nat.eqb n) inds) with true; [reflexivity|].
      symmetry. apply existsb_exists. exists n. split; [now apply II|apply Nat.eqb_refl].
    - intros n k H. rewrite P. destruct ((k <? 2)%nat && existsb (Nat.eqb n) inds) eqn:E; [|reflexivity]. exfalso. apply H. apply andb_true_iff in E as (E1 & E2). apply existsb_exists in E2 as (y & Hy & E2).
      apply Nat.eqb_eq in E2 as <-. apply II in Hy as (H1 & H2). split; [auto|split; [auto|]]. now apply Nat.ltb_lt.
    - exact BO.
    - intros HV. apply BR; auto. intros n Hn. apply II in Hn as (H1 & _). now apply c_range.
  Qed.
End Contour.
