(** Lemmas for C114. *)
From Coq Require Import Reals String List Arith Lia Lra Bool.
From Verif Require Import Num Arr ArrFacts Fe FeFacts Problem SpecFe Basis GeomFacts SpecSelect SelectFacts SpecBc BcFacts InitFacts Lagrangian Elastic HyperFacts BeamEnd Serendip SpecSerendip.
Import ListNotations.
Local Open Scope R_scope.

Lemma min_spec : forall l x, (In (fold_left Rmin l x) (x :: l)) /\ forall y, In y (x :: l) -> fold_left Rmin l x <= y.
Proof.
  induction l as [|a l IH]; intros x; [split; [now left|intros y [<-|[]]; cbn; lra]|]. cbn [fold_left]. destruct (IH (Rmin x a)) as (H1 & H2). split.
  - destruct H1 as [H1|H1]; [|right; right; exact H1]. rewrite <- H1. unfold Rmin. destruct (Rle_dec x a); [now left|right; now left].
  - intros y [<-|[<-|HY]]; [|..|apply H2; now right]; (eapply Rle_trans; [apply H2; now left|]); [apply Rmin_l|apply Rmin_r].
Qed.
Lemma max_spec : forall l x, (In (fold_left Rmax l x) (x :: l)) /\ forall y, In y (x :: l) -> y <= fold_left Rmax l x.
Proof.
  induction l as [|a l IH]; intros x; [split; [now left|intros y [<-|[]]; cbn; lra]|]. cbn [fold_left]. destruct (IH (Rmax x a)) as (H1 & H2). split.
  - destruct H1 as [H1|H1]; [|right; right; exact H1]. rewrite <- H1. unfold Rmax. destruct (Rle_dec x a); [right; now left|now left].
  - intros y [<-|[<-|HY]]; [|..|apply H2; now right]; (eapply Rle_trans; [|apply H2; now left]); [apply Rmax_l|apply Rmax_r].
Qed.
Lemma column_in k pts m : In m (column k pts) <-> exists n, (n < length pts)%nat /\ coord pts n k = m.
Proof.
  unfold column, coord. rewrite in_map_iff. split.
  - intros (p & <- & HI). apply (In_nth _ _ []) in HI as (n & Hn & <-). now exists n.
  - intros (n & Hn & <-). exists (nth n pts []). split; [reflexivity|now apply nth_In].
Qed.
Lemma min_least k pts : pts <> [] -> exists m, onp_min (column k pts) = Ok m /\ least pts k m.
Proof.
  intros NE. destruct (column k pts) as [|x l] eqn:E; [destruct pts; [congruence|discriminate]|]. eexists. split; [reflexivity|]. destruct (min_spec l x) as (H1 & H2). rewrite <- E in H1, H2. split; [now apply column_in|]. intros n Hn. apply H2, column_in. now exists n.
Qed.
Lemma max_greatest k pts : pts <> [] -> exists m, onp_max (column k pts) = Ok m /\ greatest pts k m.
Proof.
  intros NE. destruct (column k pts) as [|x l] eqn:E; [destruct pts; [congruence|discriminate]|]. eexists. split; [reflexivity|]. destruct (max_spec l x) as (H1 & H2). rewrite <- E in H1, H2. split; [now apply column_in|]. intros n Hn. apply H2, column_in. now exists n.
Qed.
Lemma least_unique pts k m m' : least pts k m -> least pts k m' -> m = m'.
Proof. intros ((n & Hn & <-) & H1) ((n' & Hn' & <-) & H2). apply Rle_antisym; auto. Qed.
Definition minus3 (a : nat -> R) (pts : list (list Rops)) : list (list Rops) := map (fun p => [nth 0 p 0 - a 0%nat; nth 1 p 0 - a 1%nat; nth 2 p 0 - a 2%nat]) pts.
Lemma coord_map (g : list Rops -> list Rops) pts n k : (n < length pts)%nat -> coord (map g pts) n k = nth k (g (nth n pts [])) 0.
Proof. intros Hn. unfold coord. now rewrite (nth_indep _ [] (g [])), map_nth by now rewrite map_length. Qed.
Lemma least_map (g : list Rops -> list Rops) pts k c m : (forall n, (n < length pts)%nat -> coord (map g pts) n k = coord pts n k + c) -> least pts k m -> least (map g pts) k (m + c).
Proof. intros H ((n & Hn & E) & L). unfold least. rewrite map_length. split; [exists n; split; [exact Hn|]; now rewrite H, E|]. intros n' Hn'. rewrite H by assumption. specialize (L n' Hn'). lra. Qed.
Lemma shifted_spec pts : pts <> [] -> in_space pts -> exists a, (forall k, (k < 3)%nat -> least pts k (a k)) /\ shifted pts = Ok (minus3 a pts).
Proof.
  intros NE SP. destruct (min_least 0 pts NE) as (m0 & E0 & L0). destruct (min_least 1 pts NE) as (m1 & E1 & L1). destruct (min_least 2 pts NE) as (m2 & E2 & L2).
  exists (fun k => match k with 0 => m0 | 1 => m1 | _ => m2 end)%nat. split; [intros [|[|[|k]]] Hk; [exact L0|exact L1|exact L2|lia]|].
  unfold shifted, shift_column. rewrite E0. cbn [bind]. set (q := map (upd_nth 0 (fun x : Rops => (x - m0 : R))) pts).
  assert (C1 : column 1 q = column 1 pts) by (unfold column, q; rewrite map_map; apply map_ext_in; intros p HP; specialize (SP p HP); destruct p as [|a [|b p]]; [discriminate..|reflexivity]).
  rewrite C1, E1. cbn [bind]. set (r := map (upd_nth 1 (fun x : Rops => (x - m1 : R))) q).
  assert (C2 : column 2 r = column 2 pts) by (unfold column, r, q; rewrite !map_map; apply map_ext_in; intros p HP; specialize (SP p HP); destruct p as [|a [|b [|c p]]]; [discriminate..|reflexivity]).
  rewrite C2, E2. cbn [bind]. f_equal. unfold minus3, r, q. rewrite !map_map. apply map_ext_in. intros p HP. specialize (SP p HP). destruct p as [|a [|b [|c [|d p]]]]; try discriminate. reflexivity.
Qed.
Lemma minus_coord a pts n k : (n < length pts)%nat -> (k < 3)%nat -> coord (minus3 a pts) n k = coord pts n k - a k.
Proof. intros Hn Hk. unfold minus3. rewrite coord_map by assumption. destruct k as [|[|[|k]]]; [reflexivity..|lia]. Qed.
Lemma origin_main pts : in_space pts -> (pts = [] -> shifted pts = Err ValueErr) /\ (pts <> [] -> exists a, (forall k, (k < 3)%nat -> least pts k (a k)) /\ exists pts', shifted pts = Ok pts' /\ length pts' = length pts /\
  in_space pts' /\ (forall n k, (n < length pts)%nat -> (k < 3)%nat -> coord pts' n k = coord pts n k - a k) /\ forall k, (k < 3)%nat -> least pts' k 0).
Proof.
  intros SP. split; [intros ->; reflexivity|]. intros NE. destruct (shifted_spec pts NE SP) as (a & L & E). exists a. split; [exact L|]. exists (minus3 a pts). split; [exact E|]. split; [apply map_length|]. split; [|split; [intros n k; apply minus_coord|]].
  - intros p HP. apply in_map_iff in HP as (p' & <- & _). reflexivity.
  - intros k Hk. replace 0 with (a k + - a k) by lra. apply least_map; [|now apply L]. intros n Hn. exact (minus_coord a pts n k Hn Hk).
Qed.
Lemma moved_main a pts : in_space pts -> shifted (moved_by a pts) = shifted pts.
Proof.
  intros SP. destruct pts as [|p0 l] eqn:EP; [reflexivity|]. rewrite <- EP in *. assert (NE : pts <> []) by now rewrite EP. clear EP p0 l.
  assert (SP' : in_space (moved_by a pts)) by (intros p HP; apply in_map_iff in HP as (p' & <- & _); reflexivity). assert (NE' : moved_by a pts <> []) by (destruct pts; [congruence|discriminate]).
  destruct (shifted_spec pts NE SP) as (m & L & ->). destruct (shifted_spec _ NE' SP') as (m' & L' & ->). f_equal. unfold minus3, moved_by. rewrite map_map.
  assert (MM : forall k, (k < 3)%nat -> m' k = m k + a k).
  { intros k Hk. apply (least_unique (moved_by a pts) k); [now apply L'|]. apply least_map; [|now apply L]. intros n Hn. rewrite coord_map by assumption. destruct k as [|[|[|k]]]; [reflexivity..|lia]. }
  apply map_ext. intros p. cbn [nth]. rewrite !MM by lia. f_equal; [lra|]. f_equal; [lra|]. f_equal. lra.
Qed.
Lemma moved_variable quad fquad normals a pts cls : in_space pts -> sd_variable quad fquad normals (moved_by a pts) cls = sd_variable quad fquad normals pts cls.
Proof. intros SP. unfold sd_variable. now rewrite moved_main. Qed.
Lemma isclose_iff x y t : isclose x y t = true <-> Rabs (x - y) <= t + / 10 ^ 5 * Rabs y.
Proof. unfold isclose. destruct (Rle_dec _ _); split; intros; auto; discriminate. Qed.
Lemma held_main quad fquad normals pts cls : in_space pts -> pts <> [] -> exists f Lx, sd_variable quad fquad normals pts cls = Ok f /\ length (points f) = length pts /\ 0 <= Lx /\ greatest (points f) 0 Lx /\ least (points f) 0 0 /\ bc_ok f /\
  forall n k, (n < length (points f))%nat -> (k < 3)%nat -> let x := coord (points f) n 0 in
    (Rabs (x - Lx) <= / 10 ^ 5 + / 10 ^ 5 * Lx -> prescribed f n k = Some (match k with 0%nat => 1 / 10 * Lx | _ => 0 end)) /\
    (~ Rabs (x - Lx) <= / 10 ^ 5 + / 10 ^ 5 * Lx -> Rabs x <= / 10 ^ 5 -> prescribed f n k = Some 0) /\
    (~ Rabs (x - Lx) <= / 10 ^ 5 + / 10 ^ 5 * Lx -> ~ Rabs x <= / 10 ^ 5 -> prescribed f n k = None).
Proof.
  intros SP NE. destruct (proj2 (origin_main pts SP) NE) as (a & LA & q & EQ & LQ & SQ & _ & L0). assert (NQ : q <> []) by (intros ->; destruct pts; [congruence|discriminate]). destruct (max_greatest 0 q NQ) as (Lx & EL & GL).
  assert (P0 : 0 <= Lx) by (destruct (L0 0%nat ltac:(lia)) as ((n & Hn & E) & _); rewrite <- E; now apply GL).
  destruct (dirichlet_spec (K := Rops) q (fst (fst (sd_info Lx))) (snd (fst (sd_info Lx))) (snd (sd_info Lx))) as (_ & _ & D). destruct (D eq_refl eq_refl eq_refl) as (ns & vs & ws & ED & _).
  assert (B : exists f, fe_init (K := Rops) sqrt "HEX20" quad fquad normals q cls 3 3 (Some (sd_info Lx)) = Ok f) by (change (sd_info Lx) with (fst (fst (sd_info Lx)), snd (fst (sd_info Lx)), snd (sd_info Lx)); unfold fe_init; rewrite ED; eexists; reflexivity).
  destruct B as (f & B). exists f, Lx. unfold sd_variable. rewrite EQ. cbn [bind]. rewrite EL. cbn [bind]. split; [exact B|].
  destruct (init_dirichlet _ _ _ _ _ _ _ _ _ _ _ _ f B eq_refl eq_refl eq_refl) as (PE & OK). rewrite PE in *. split; [exact LQ|]. split; [exact P0|]. split; [exact GL|]. split; [apply L0; lia|].
  rewrite <- PE in OK. destruct (dirichlet_prescribed f _ _ _ OK) as (BC & PR & _). split; [exact BC|]. intros n k Hn Hk. set (x := coord q n 0) in *. specialize (PR n k). unfold dirichlet_value in PR. cbn [length seq fold_left nth loc_holds] in PR. rewrite PE in PR. apply Nat.ltb_lt in Hn. rewrite Hn in PR. cbn [andb] in PR.
  assert (HR : sd_right Lx (nth n q []) = true <-> Rabs (x - Lx) <= / 10 ^ 5 + / 10 ^ 5 * Lx) by (unfold sd_right; rewrite isclose_iff, (Rabs_right Lx) by lra; reflexivity).
  assert (HL : sd_left (nth n q []) = true <-> Rabs x <= / 10 ^ 5) by (unfold sd_left; rewrite isclose_iff, Rabs_R0, Rmult_0_r, Rplus_0_r, Rminus_0_r; reflexivity).
  rewrite PR. split; [|split].
  - intros H. apply HR in H. rewrite H. destruct k as [|[|[|k]]]; [..|lia]; destruct (sd_left _); reflexivity.
  - intros H1 H2. apply HL in H2. rewrite H2. assert (RF : sd_right Lx (nth n q []) = false) by (destruct (sd_right Lx (nth n q [])); [exfalso; tauto|reflexivity]). rewrite RF. destruct k as [|[|[|k]]]; [reflexivity..|lia].
  - intros H1 H2. destruct (sd_left _); [exfalso; tauto|]. destruct (sd_right _ _); [exfalso; tauto|]. rewrite !andb_false_r. reflexivity.
Qed.
Lemma stress_main G i j : (i < 3)%nat -> (j < 3)%nat -> sd_stress G i j = 525 * 10 ^ 3 / 13 * (G 0%nat 0%nat + G 1%nat 1%nat + G 2%nat 2%nat) * (if (i =? j)%nat then 1 else 0) + 350 * 10 ^ 3 / 13 * (G i j + G j i).
Proof.
  intros Hi Hj. unfold sd_stress, elastic_stress, trace, strain, sum_n. cbn -[Nat.eqb IZR]. destruct (i =? j)%nat; field.
Qed.
Lemma ends_held quad fquad normals pts cls f : in_space pts -> sd_variable quad fquad normals pts cls = Ok f -> exists Lx, greatest (points f) 0 Lx /\
  (exists n, (n < length (points f))%nat /\ prescribed f n 0 = Some (1 / 10 * Lx)) /\ (/ 10 ^ 4 <= Lx -> exists n, (n < length (points f))%nat /\ forall k, (k < 3)%nat -> prescribed f n k = Some 0).
Proof.
  intros SP E. assert (NE : pts <> []) by (intros ->; discriminate E). destruct (held_main quad fquad normals pts cls SP NE) as (f' & Lx & E' & _ & P0 & GL & L0 & _ & H). rewrite E in E'. injection E' as <-. exists Lx. split; [exact GL|]. split.
  - destruct GL as ((n & Hn & EX) & _). exists n. split; [exact Hn|]. destruct (H n 0%nat Hn ltac:(lia)) as (H1 & _). apply H1. rewrite EX, Rminus_diag_eq, Rabs_R0 by reflexivity. nra.
  - intros HL. destruct L0 as ((n & Hn & EX) & _). exists n. split; [exact Hn|]. intros k Hk. destruct (H n k Hn Hk) as (_ & H2 & _). apply H2; rewrite EX.
    + rewrite Rminus_0_l, Rabs_Ropp, Rabs_right by lra. lra.
    + rewrite Rabs_R0. lra.
Qed.
Lemma serendip_met : let pts := [[1; 2; 3]; [3; 2; 3]; [3; 4; 3]; [1; 4; 3]; [1; 2; 5]; [3; 2; 5]; [3; 4; 5]; [1; 4; 5]] : list (list Rops) in
  in_space pts /\ pts <> [] /\ moved_by (fun _ => 1) pts <> pts /\ forall quad fquad normals cls, exists f, sd_variable quad fquad normals pts cls = Ok f /\ length (points f) = 8%nat.
Proof.
  intros pts. assert (SP : in_space pts) by (intros p; cbn; intuition (subst; reflexivity)). assert (NE : pts <> []) by discriminate. split; [exact SP|]. split; [exact NE|]. split.
  - intros E. apply (f_equal (fun l => coord l 0 0)) in E. cbv [coord pts moved_by map nth] in E. change (1 + 1 = 1) in E. lra.
  - intros quad fquad normals cls. destruct (held_main quad fquad normals pts cls SP NE) as (f & Lx & E & L & _). exists f. split; [exact E|exact L].
Qed.
