(** Lemmas for C110. *)
From Coq Require Import Reals String List Arith Lia Lra Psatz Bool.
From Verif Require Import Num Arr ArrFacts BatchFacts Fe Problem Basis SpecBasis SpecFe FeFacts GeomFacts SpecBc BcFacts SpecSelect SelectFacts ElasticFacts Lagrangian LaserHeat Volume SpecVolume VolumeMain VolumeEnd FinLoad SpecFinLoad.
Import ListNotations.
Local Open Scope R_scope.
Local Notation sum := (sum_n (K := Rops)).

Lemma update_values (f : fe Rops) locs vecs vals : length vecs = length locs -> length vals = length locs -> existsb loc_wrong locs = false ->
  exists f', update_Dirichlet_boundary_conditions f (Some (locs, vecs, vals)) = Ok f' /\ same_mesh f f' /\ forall n k, prescribed f' n k = dirichlet_value (points f) locs vecs vals n k.
Proof.
  intros L1 L2 LW. destruct (dirichlet_spec (K := Rops) (points f) locs vecs vals) as (_ & _ & D). destruct (D L1 L2 LW) as (ns & vs & ws & ED & OK). unfold update_Dirichlet_boundary_conditions. rewrite ED. unfold bind. eexists. split; [reflexivity|].
  set (f' := mkFe _ _ _ _ _ _ _ _ _ _ _ _ _ _ _ _ ns vs ws). split; [unfold same_mesh; repeat (split; [reflexivity|]); intros; reflexivity|]. intros n k. exact (proj1 (proj2 (dirichlet_prescribed f' _ _ _ OK)) n k).
Qed.
Lemma same_trans f g h : same_mesh f g -> same_mesh g h -> same_mesh f h.
Proof. intros (A1 & A2 & A3 & A4 & A5 & A6 & A7) (B1 & B2 & B3 & B4 & B5 & B6 & B7). unfold same_mesh. rewrite B1, B2, B3, B4, B5. repeat (split; [assumption|]). split; intros; [rewrite B6; apply A6|rewrite B7; apply A7]. Qed.
(** every step evaluates the conditions with its own scale, whatever came before *)
Lemma steps_values (top : R -> list Rops -> Rops) locs vecs base : length vecs = length locs -> length locs = S (length base) -> existsb loc_wrong locs = false ->
  forall ss (f : fe Rops) s0, exists fs, load_steps top f (locs, vecs, base ++ [top s0]) ss = Ok fs /\ length fs = length ss /\
  forall i, (i < length ss)%nat -> same_mesh f (nth i fs f) /\ forall n k, prescribed (nth i fs f) n k = dirichlet_value (points f) locs vecs (base ++ [top (nth i ss 0)]) n k.
Proof.
  intros L1 L2 LW. induction ss as [|s ss IH]; intros f s0; [exists []; split; [reflexivity|split; [reflexivity|cbn; lia]]|].
  destruct (update_values f locs vecs (base ++ [top s]) L1 ltac:(rewrite app_length, L2; cbn [length]; lia) LW) as (f' & E & SM & PR). cbn [load_steps set_scale]. unfold replace_last. rewrite removelast_last, E. cbn [bind fst snd].
  destruct (IH f' s) as (fs & EF & LF & H). rewrite EF. cbn [bind]. exists (f' :: fs). split; [reflexivity|]. split; [cbn; now rewrite LF|]. intros [|i] Hi; [split; [exact SM|exact PR]|]. cbn in Hi. destruct (H i ltac:(lia)) as (S1 & P1). cbn [nth].
  assert (EN : nth i fs f = nth i fs f') by (apply nth_indep; lia). rewrite EN. split; [exact (same_trans _ _ _ SM S1)|]. intros n k. rewrite P1. destruct SM as (-> & _). reflexivity.
Qed.

Lemma near_iff (x : R) : (isclose x 0 (/ 10 ^ 5) = true <-> near0 x) /\ (isclose x 1 (/ 10 ^ 5) = true <-> near1 x) /\ (isclose x 10 (/ 10 ^ 5) = true <-> near10 x) /\ (isclose x (1 / 4) (/ 10 ^ 5) = true <-> near_quarter x).
Proof.
  unfold near0, near1, near10, near_quarter. rewrite !isclose_true, Rabs_R0, Rabs_R1, Rminus_0_r, (Rabs_pos_eq 10), (Rabs_pos_eq (1 / 4)) by lra. repeat split; intros; lra.
Qed.
Lemma origin_iff p : sc_origin p = true <-> near0 (nth 0 p 0) /\ near0 (nth 1 p 0) /\ near0 (nth 2 p 0).
Proof. unfold sc_origin. rewrite !andb_true_iff. pose proof (near_iff (nth 0 p 0)). pose proof (near_iff (nth 1 p 0)). pose proof (near_iff (nth 2 p 0)). tauto. Qed.
Lemma x_corner_iff p : sc_x_corner p = true <-> near1 (nth 0 p 0) /\ near0 (nth 1 p 0) /\ near0 (nth 2 p 0).
Proof. unfold sc_x_corner. rewrite !andb_true_iff. pose proof (near_iff (nth 0 p 0)). pose proof (near_iff (nth 1 p 0)). pose proof (near_iff (nth 2 p 0)). tauto. Qed.
Lemma walls_iff p : tp_walls p = true <-> near0 (nth 0 p 0) \/ near10 (nth 0 p 0) \/ near0 (nth 1 p 0) \/ near10 (nth 1 p 0).
Proof. unfold tp_walls. rewrite !orb_true_iff. pose proof (near_iff (nth 0 p 0)). pose proof (near_iff (nth 1 p 0)). tauto. Qed.
Lemma yes (b : bool) P : (b = true <-> P) -> P -> b = true. Proof. tauto. Qed.
Lemma no (b : bool) P : (b = true <-> P) -> ~ P -> b = false. Proof. destruct b; [intros; exfalso; tauto|reflexivity]. Qed.

Lemma cell_values (f f' : fe Rops) s : (forall n k, prescribed f' n k = dirichlet_value (points f) (fst (fst (sc_info s))) (snd (fst (sc_info s))) (snd (sc_info s)) n k) -> cell_held f f' s.
Proof.
  intros PR n Hn x origin corner. pose proof (origin_iff (nth n (points f) [])) as OI. pose proof (x_corner_iff (nth n (points f) [])) as CI. pose proof (proj1 (near_iff (nth 2 (nth n (points f) []) 0))) as BI. pose proof (proj1 (proj2 (near_iff (nth 2 (nth n (points f) []) 0)))) as TI.
  fold (sc_bottom (nth n (points f) [])) in BI. fold (sc_top (nth n (points f) [])) in TI. pose proof (near01 (nth 2 (nth n (points f) []) 0)) as N01. fold (x 0%nat) (x 1%nat) (x 2%nat) in OI, CI, BI, TI, N01. change (near0 (x 0%nat) /\ near0 (x 1%nat) /\ near0 (x 2%nat)) with origin in OI. change (near1 (x 0%nat) /\ near0 (x 1%nat) /\ near0 (x 2%nat)) with corner in CI.
  specialize (PR n). unfold dirichlet_value in PR. cbn [sc_info fst snd length seq fold_left nth loc_holds] in PR. apply Nat.ltb_lt in Hn. rewrite Hn in PR. cbn [andb] in PR.
  split; [|split; [|split; [|split; [|split; [|split; [|split]]]]]].
  - intros H. rewrite PR, (yes _ _ OI H). cbn. reflexivity.
  - intros H. rewrite PR, (no _ _ OI H). cbn. reflexivity.
  - intros H. rewrite PR. cbn [Nat.eqb andb]. destruct (sc_x_corner (nth n (points f) [])) eqn:C; [reflexivity|]. destruct H as [H|H]; [rewrite (yes _ _ OI H); reflexivity|]. apply CI in H. congruence.
  - intros H1 H2. rewrite PR, (no _ _ OI H1), (no _ _ CI H2). reflexivity.
  - intros H. rewrite PR, (yes _ _ BI H), (no _ _ TI (N01 H)). reflexivity.
  - intros H. rewrite PR, (yes _ _ TI H). cbn. unfold sc_value. f_equal. apply Rmult_1_r.
  - intros H1 H2. rewrite PR, (no _ _ BI H1), (no _ _ TI H2). reflexivity.
  - intros [|[|[|k]]] Hk; try lia. rewrite PR. cbn. destruct (sc_origin _), (sc_x_corner _), (sc_bottom _), (sc_top _); reflexivity.
Qed.
Lemma cell_program (f : fe Rops) s0 ss : exists fs, load_steps sc_value f (sc_info s0) ss = Ok fs /\ length fs = length ss /\ forall i, (i < length ss)%nat -> same_mesh f (nth i fs f) /\ cell_held f (nth i fs f) (nth i ss 0).
Proof.
  destruct (steps_values sc_value (fst (fst (sc_info 0))) (snd (fst (sc_info 0))) [fl_zero; fl_zero; fl_zero; fl_zero] eq_refl eq_refl eq_refl ss f s0) as (fs & E & L & H). exists fs. split; [exact E|]. split; [exact L|]. intros i Hi. destruct (H i Hi) as (S & P). split; [exact S|]. apply cell_values. exact P.
Qed.

(** the plate *)
Lemma distance_of x y : wall_distance x y (Rmin (Rabs x) (Rmin (Rabs (10 - x)) (Rmin (Rabs y) (Rabs (10 - y))))).
Proof.
  unfold wall_distance. set (a := Rabs x). set (b := Rabs (10 - x)). set (c := Rabs y). set (d := Rabs (10 - y)). unfold Rmin. destruct (Rle_dec c d), (Rle_dec b _), (Rle_dec a _); repeat split; try lra; tauto.
Qed.
Lemma distance_unique x y d e : wall_distance x y d -> wall_distance x y e -> d = e.
Proof. intros (A & A1 & A2 & A3 & A4) (B & B1 & B2 & B3 & B4). destruct A as [->|[->|[->| ->]]], B as [->|[->|[->| ->]]]; apply Rle_antisym; lra. Qed.
Lemma profile_eval s x y d : wall_distance x y d -> - s * 10 * (1 / (1 + (1 / (Rmin (Rabs x) (Rmin (Rabs (10 - x)) (Rmin (Rabs y) (Rabs (10 - y)))) / (1 / 2 * Rmin 10 10) + / 10 ^ 10) - 1))) = - s * 10 * (d / 5 + / 10 ^ 10).
Proof.
  intros W. assert (P : 0 <= d) by (destruct W as ([->|[->|[->| ->]]] & _); apply Rabs_pos). rewrite (distance_unique _ _ _ _ (distance_of x y) W).
  assert (M : Rmin 10 10 = 10) by (unfold Rmin; destruct (Rle_dec 10 10); lra). rewrite M. replace (d / (1 / 2 * 10)) with (d / 5) by field. set (z := d / 5 + / 10 ^ 10). assert (0 < z) by (unfold z; lra).
  replace (1 + (1 / z - 1)) with (/ z) by (field; lra). replace (1 / / z) with z by (field; lra). reflexivity.
Qed.
Lemma tp_value_is s p d : wall_distance (nth 0 p 0) (nth 1 p 0) d -> tp_value s p = - s * 10 * (d / 5 + / 10 ^ 10).
Proof. intros W. exact (profile_eval s _ _ d W). Qed.
Lemma plate_values (f f' : fe Rops) s : (forall n k, prescribed f' n k = dirichlet_value (points f) (fst (fst (tp_info s))) (snd (fst (tp_info s))) (snd (tp_info s)) n k) -> plate_held f f' s.
Proof.
  intros PR n Hn x wall. pose proof (walls_iff (nth n (points f) [])) as WI. pose proof (proj2 (proj2 (proj2 (near_iff (nth 2 (nth n (points f) []) 0))))) as TI. fold (tp_top (nth n (points f) [])) in TI. fold (x 0%nat) (x 1%nat) in WI. fold (x 2%nat) in TI. change (near0 (x 0%nat) \/ near10 (x 0%nat) \/ near0 (x 1%nat) \/ near10 (x 1%nat)) with wall in WI.
  specialize (PR n). unfold dirichlet_value in PR. cbn [tp_info fst snd length seq fold_left nth loc_holds] in PR. apply Nat.ltb_lt in Hn. rewrite Hn in PR. cbn [andb] in PR.
  split; [|split; [|split; [|split]]].
  - intros H. rewrite !PR, (yes _ _ WI H). cbn. split; reflexivity.
  - intros H. rewrite !PR, (no _ _ WI H). cbn. split; reflexivity.
  - intros H d W. rewrite PR, (yes _ _ TI H). cbn. f_equal. exact (tp_value_is s _ d W).
  - intros H1 H2. rewrite PR, (yes _ _ WI H1), (no _ _ TI H2). reflexivity.
  - intros H1 H2. rewrite PR, (no _ _ WI H1), (no _ _ TI H2). reflexivity.
Qed.
Lemma plate_program (f : fe Rops) s0 ss : exists fs, load_steps tp_value f (tp_info s0) ss = Ok fs /\ length fs = length ss /\ forall i, (i < length ss)%nat -> same_mesh f (nth i fs f) /\ plate_held f (nth i fs f) (nth i ss 0).
Proof.
  destruct (steps_values tp_value (fst (fst (tp_info 0))) (snd (fst (tp_info 0))) [fl_zero; fl_zero; fl_zero] eq_refl eq_refl eq_refl ss f s0) as (fs & E & L & H). exists fs. split; [exact E|]. split; [exact L|]. intros i Hi. destruct (H i Hi) as (S & P). split; [exact S|]. apply plate_values. exact P.
Qed.
Lemma profile x y d : 0 <= x <= 10 -> 0 <= y <= 10 -> wall_distance x y d -> 0 <= d <= 5 /\ (d = 0 <-> x = 0 \/ x = 10 \/ y = 0 \/ y = 10) /\ (d = 5 <-> x = 5 /\ y = 5).
Proof.
  intros Hx Hy (O & A & B & C & D). rewrite (Rabs_pos_eq x), (Rabs_pos_eq (10 - x)), (Rabs_pos_eq y), (Rabs_pos_eq (10 - y)) in * by lra. split; [lra|]. split; split; intros; lra.
Qed.

(** rigid motions of the single cell *)
Lemma near_00 : near0 0. Proof. unfold near0. rewrite Rabs_R0. lra. Qed.
Lemma near_11 : near1 1. Proof. unfold near1. replace (1 - 1) with 0 by ring. rewrite Rabs_R0. lra. Qed.
Lemma at_in (f : fe Rops) (p : list Rops) : In p (points f) -> exists n, (n < length (points f))%nat /\ nth n (points f) [] = p.
Proof. intros Hp. destruct (In_nth _ _ [] Hp) as (n & Hn & E). exists n. now split. Qed.
Section Rigid.
  Variables (f f' : fe Rops) (u : list (list Rops)) (Q : nat -> nat -> R) (a : nat -> R).
  Hypothesis H0 : In [0; 0; 0] (points f).
  Hypothesis H1 : In [1; 0; 0] (points f).
  Hypothesis H2 : In [0; 1; 0] (points f).
  Hypothesis H3 : In [0; 0; 1] (points f).
  Hypothesis SM : same_mesh f f'.
  Hypothesis HELD : cell_held f f' 0.
  Hypothesis MV : moves (points f) u Q a.
  Hypothesis OB : obeys f' u.
  Lemma at_point n k v : (n < length (points f))%nat -> (k < 3)%nat -> prescribed f' n k = Some v -> let p := nth n (points f) [] in
    Q k 0%nat * nth 0 p 0 + Q k 1%nat * nth 1 p 0 + Q k 2%nat * nth 2 p 0 + a k - nth k p 0 = v.
  Proof. intros Hn Hk PR p. pose proof (MV n k Hn Hk) as M. cbv zeta in M. fold p in M. rewrite <- M. apply (OB n k v); [|exact PR]. destruct SM as (-> & _). exact Hn. Qed.
  Lemma rigid_facts : a 0%nat = 0 /\ a 1%nat = 0 /\ a 2%nat = 0 /\ Q 1%nat 0%nat = 0 /\ Q 2%nat 0%nat = 0 /\ Q 2%nat 1%nat = 0 /\ Q 2%nat 2%nat = 1.
  Proof.
    destruct (at_in f _ H0) as (n0 & L0 & E0). destruct (at_in f _ H1) as (n1 & L1 & E1). destruct (at_in f _ H2) as (n2 & L2 & E2). destruct (at_in f _ H3) as (n3 & L3 & E3).
    pose proof near_00 as Z. pose proof near_11 as O.
    pose proof (HELD n0 L0) as A0. pose proof (HELD n1 L1) as A1. pose proof (HELD n2 L2) as A2. pose proof (HELD n3 L3) as A3. cbv zeta in A0, A1, A2, A3. rewrite E0 in A0. rewrite E1 in A1. rewrite E2 in A2. rewrite E3 in A3. cbn [nth] in A0, A1, A2, A3.
    assert (X0 := at_point n0 0 0 L0 ltac:(lia) (proj1 A0 (conj Z (conj Z Z)))).
    assert (X1 := at_point n0 1 0 L0 ltac:(lia) (proj1 (proj2 (proj2 A0)) (or_introl (conj Z (conj Z Z))))).
    assert (X2 := at_point n0 2 0 L0 ltac:(lia) (proj1 (proj2 (proj2 (proj2 (proj2 A0)))) Z)).
    assert (Y1 := at_point n1 1 0 L1 ltac:(lia) (proj1 (proj2 (proj2 A1)) (or_intror (conj O (conj Z Z))))).
    assert (Y2 := at_point n1 2 0 L1 ltac:(lia) (proj1 (proj2 (proj2 (proj2 (proj2 A1)))) Z)).
    assert (W2 := at_point n2 2 0 L2 ltac:(lia) (proj1 (proj2 (proj2 (proj2 (proj2 A2)))) Z)).
    assert (V2 := at_point n3 2 0 L3 ltac:(lia) (proj1 (proj2 (proj2 (proj2 (proj2 (proj2 A3))))) O)).
    cbv zeta in *. rewrite E0 in X0, X1, X2. rewrite E1 in Y1, Y2. rewrite E2 in W2. rewrite E3 in V2. cbn [nth] in *. repeat split; lra.
  Qed.
  Lemma rigid_two : orthonormal 3 Q -> (forall k, (k < 3)%nat -> a k = 0) /\ exists s t, (s = 1 \/ s = -1) /\ (t = 1 \/ t = -1) /\ forall i j, (i < 3)%nat -> (j < 3)%nat -> Q i j = diag3 s t 1 i j.
  Proof.
    intros ON. destruct rigid_facts as (A0 & A1 & A2 & Q10 & Q20 & Q21 & Q22). split; [intros [|[|[|k]]] Hk; auto; lia|].
    assert (S3 : forall g : nat -> R, sum 3 g = g 0%nat + g 1%nat + g 2%nat) by (intros g; unfold sum_n, sum_over; cbn; req; ring).
    pose proof (ON 0%nat 0%nat ltac:(lia) ltac:(lia)) as C00. pose proof (ON 0%nat 1%nat ltac:(lia) ltac:(lia)) as C01. pose proof (ON 1%nat 1%nat ltac:(lia) ltac:(lia)) as C11. pose proof (ON 2%nat 2%nat ltac:(lia) ltac:(lia)) as C22. rewrite S3 in C00, C01, C11, C22. cbn [Nat.eqb] in C00, C01, C11, C22. rewrite Q10, Q20 in C00, C01. rewrite Q21 in C01, C11. rewrite Q22 in C22.
    assert (S : Q 0%nat 0%nat = 1 \/ Q 0%nat 0%nat = -1) by (assert ((Q 0%nat 0%nat - 1) * (Q 0%nat 0%nat + 1) = 0) as X by lra; apply Rmult_integral in X; lra).
    assert (Q01 : Q 0%nat 1%nat = 0) by (destruct S as [S|S]; rewrite S in C01; lra).
    rewrite Q01 in C11. assert (T : Q 1%nat 1%nat = 1 \/ Q 1%nat 1%nat = -1) by (assert ((Q 1%nat 1%nat - 1) * (Q 1%nat 1%nat + 1) = 0) as X by lra; apply Rmult_integral in X; lra).
    assert (Q02 : Q 0%nat 2%nat = 0) by nra. assert (Q12 : Q 1%nat 2%nat = 0) by nra.
    exists (Q 0%nat 0%nat), (Q 1%nat 1%nat). split; [exact S|]. split; [exact T|]. intros [|[|[|i]]] [|[|[|j]]] Hi Hj; try lia; unfold diag3; cbn [Nat.eqb]; auto.
  Qed.
  Lemma rigid_small : (forall i j, (i < 3)%nat -> (j < 3)%nat -> Q i j + Q j i = 2 * (if (i =? j)%nat then 1 else 0)) -> forall n k, (n < length (points f))%nat -> (k < 3)%nat -> nth k (nth n u []) 0 = 0.
  Proof.
    intros SK n k Hn Hk. rewrite (MV n k Hn Hk). cbv zeta. destruct rigid_facts as (A0 & A1 & A2 & Q10 & Q20 & Q21 & Q22).
    pose proof (SK 0%nat 0%nat ltac:(lia) ltac:(lia)) as S00. pose proof (SK 0%nat 1%nat ltac:(lia) ltac:(lia)) as S01. pose proof (SK 0%nat 2%nat ltac:(lia) ltac:(lia)) as S02. pose proof (SK 1%nat 1%nat ltac:(lia) ltac:(lia)) as S11. pose proof (SK 1%nat 2%nat ltac:(lia) ltac:(lia)) as S12. cbn [Nat.eqb] in *.
    assert (Q00 : Q 0%nat 0%nat = 1) by lra. assert (Q01 : Q 0%nat 1%nat = 0) by lra. assert (Q02 : Q 0%nat 2%nat = 0) by lra. assert (Q11 : Q 1%nat 1%nat = 1) by lra. assert (Q12 : Q 1%nat 2%nat = 0) by lra.
    destruct k as [|[|[|k]]]; [| | |lia]; rewrite ?A0, ?A1, ?A2, ?Q00, ?Q01, ?Q02, ?Q10, ?Q11, ?Q12, ?Q20, ?Q21, ?Q22; cbv zeta; req; ring.
  Qed.
End Rigid.
(** the half turn and the reflections do obey on a cell with corners of coordinates 0 and 1 *)
Lemma signs_obey (f f' : fe Rops) u s t : (forall p k, In p (points f) -> (k < 3)%nat -> nth k p 0 = 0 \/ nth k p 0 = 1) -> same_mesh f f' -> cell_held f f' 0 ->   moves (points f) u (diag3 s t 1) (fun _ => 0) -> obeys f' u.
Proof.
  intros C01 SM HE MV n k b Hn PR. destruct SM as (EP & _). rewrite EP in Hn. destruct (le_lt_dec 3 k) as [L|L]; [exfalso; pose proof (HE n Hn) as A; cbv zeta in A; rewrite (proj2 (proj2 (proj2 (proj2 (proj2 (proj2 (proj2 A)))))) k L) in PR; discriminate|]. rewrite (MV n k Hn L). pose proof (HE n Hn) as A. cbv zeta in A |- *.
  assert (Ip : In (nth n (points f) []) (points f)) by now apply nth_In. set (p := nth n (points f) []) in *. pose proof (C01 p 0%nat Ip ltac:(lia)) as P0. pose proof (C01 p 1%nat Ip ltac:(lia)) as P1. pose proof (C01 p 2%nat Ip ltac:(lia)) as P2.
  assert (N0 : forall z, z = 0 \/ z = 1 -> (near0 z <-> z = 0)). { intros z Hz. split; [|intros ->; exact near_00]. intros N. destruct Hz as [->| ->]; [reflexivity|]. exfalso. exact (near01 1 N near_11). }
  assert (N1 : forall z, z = 0 \/ z = 1 -> (near1 z <-> z = 1)). { intros z Hz. split; [|intros ->; exact near_11]. intros N. destruct Hz as [->| ->]; [|reflexivity]. exfalso. exact (near01 0 near_00 N). }
  rewrite (N0 (nth 0 p 0) P0), (N0 (nth 1 p 0) P1), (N0 (nth 2 p 0) P2), (N1 (nth 0 p 0) P0), (N1 (nth 2 p 0) P2) in A. destruct A as (A1 & A2 & A3 & A4 & A5 & A6 & A7 & _). unfold diag3.
  destruct k as [|[|[|k]]]; [| | |lia]; cbn [Nat.eqb].
  - destruct P0 as [P0|P0]; [destruct P1 as [P1|P1]; [destruct P2 as [P2|P2]|]|]; try (rewrite A2 in PR by lra; discriminate). rewrite A1 in PR by auto. injection PR as <-. rewrite P0. req; ring.
  - destruct P1 as [P1|P1]; [|rewrite A4 in PR by lra; discriminate]. destruct P2 as [P2|P2]; [|rewrite A4 in PR by lra; discriminate]. rewrite A3 in PR by (destruct P0; tauto). injection PR as <-. rewrite P1. req; ring.
  - destruct P2 as [P2|P2]; [rewrite A5 in PR by auto|rewrite A6 in PR by auto]; injection PR as <-; rewrite P2; req; ring.
Qed.
(** scales *)
Lemma cell_scales : length sc_scales = 22%nat /\ (forall i, (i < 11)%nat -> nth i sc_scales 0 = INR i / 1000) /\ forall i, (i < 22)%nat -> nth i sc_scales 0 = nth (21 - i) sc_scales 0.
Proof.
  split; [reflexivity|]. assert (E : forall i, (i < 22)%nat -> nth i sc_scales 0 = (if (i <? 11)%nat then INR i else INR (21 - i)) / 1000).
  { intros i Hi. do 22 (destruct i as [|i]; [cbn -[INR]; unfold INR; field|]). lia. }
  split; [intros i Hi; rewrite E by lia; apply Nat.ltb_lt in Hi; now rewrite Hi|]. intros i Hi. rewrite !E by lia. f_equal. destruct (Nat.ltb_spec i 11), (Nat.ltb_spec (21 - i) 11); try lia; [f_equal; lia|reflexivity].
Qed.
Lemma plate_scales : length tp_scales = 10%nat /\ (forall i, (i < 5)%nat -> nth i tp_scales 0 = INR i / 20) /\ forall i, (i < 10)%nat -> nth i tp_scales 0 = nth (9 - i) tp_scales 0.
Proof.
  split; [reflexivity|]. assert (E : forall i, (i < 10)%nat -> nth i tp_scales 0 = (if (i <? 5)%nat then INR i else INR (9 - i)) / 20).
  { intros i Hi. do 10 (destruct i as [|i]; [cbn -[INR]; unfold INR; field|]). lia. }
  split; [intros i Hi; rewrite E by lia; apply Nat.ltb_lt in Hi; now rewrite Hi|]. intros i Hi. rewrite !E by lia. f_equal. destruct (Nat.ltb_spec i 5), (Nat.ltb_spec (9 - i) 5); try lia; [f_equal; lia|reflexivity].
Qed.
(** the top edge *)
Lemma edge_value (f f' : fe Rops) s n : plate_held f f' s -> (n < length (points f))%nat -> let x k := nth k (nth n (points f) []) 0 in
  near_quarter (x 2%nat) -> 0 <= x 0%nat <= 10 -> 0 <= x 1%nat <= 10 -> x 0%nat = 0 \/ x 0%nat = 10 \/ x 1%nat = 0 \/ x 1%nat = 10 -> prescribed f' n 2 = Some (- s / 10 ^ 9).
Proof.
  intros PH Hn x NQ Hx Hy E. destruct (PH n Hn) as (_ & _ & A & _). cbv zeta in A. fold (x 0%nat) (x 1%nat) (x 2%nat) in A. rewrite (A NQ _ (distance_of (x 0%nat) (x 1%nat))). f_equal.
  destruct (profile _ _ _ Hx Hy (distance_of (x 0%nat) (x 1%nat))) as (_ & Z & _). rewrite (proj2 Z E). field.
Qed.
Definition nodes_fe (pts : list (list Rops)) : fe Rops := mkFe (K := Rops) pts [] 3 3 0 0 0 0 (fun _ _ => 0) (fun _ _ _ => 0) (fun _ => 0) (fun _ _ _ => 0) (fun _ _ _ _ => 0) (fun _ _ => 0) (fun _ _ => 0) [] [] [] [].
Lemma edge_moves : ~ (forall (f : fe Rops) s0 ss fs i n, load_steps tp_value f (tp_info s0) ss = Ok fs -> (i < length ss)%nat -> (n < length (points f))%nat -> nth 0 (nth n (points f) []) 0 = 0 -> prescribed (nth i fs f) n 2 = Some 0).
Proof.
  intros H. set (f := nodes_fe [[0; 5; 1 / 4]]). destruct (plate_program f 0 [1]) as (fs & E & L & HE). destruct (HE 0%nat ltac:(cbn; lia)) as (_ & PH).
  pose proof (H f 0 [1] fs 0%nat 0%nat E ltac:(cbn; lia) ltac:(cbn; lia) eq_refl) as Z. rewrite (edge_value f _ _ 0 PH) in Z; cbn; try lra; try lia.
  - injection Z as Z. lra.
  - unfold near_quarter. replace (1 / 4 - 1 / 4) with 0 by ring. rewrite Rabs_R0. lra.
Qed.
Lemma rigid_stretch (f f' : fe Rops) u Q a s : 0 < s -> In [0; 0; 0] (points f) -> In [0; 0; 1] (points f) -> same_mesh f f' -> cell_held f f' s -> moves (points f) u Q a -> obeys f' u -> ~ orthonormal 3 Q.
Proof.
  intros S H0 H3 SM HE MV OB ON. destruct (at_in f _ H0) as (n0 & L0 & E0). destruct (at_in f _ H3) as (n3 & L3 & E3). pose proof near_00 as Z. pose proof near_11 as O.
  pose proof (HE n0 L0) as A0. pose proof (HE n3 L3) as A3. cbv zeta in A0, A3. rewrite E0 in A0. rewrite E3 in A3. cbn [nth] in A0, A3.
  pose proof (proj1 (proj2 (proj2 (proj2 (proj2 A0)))) Z) as B0. pose proof (proj1 (proj2 (proj2 (proj2 (proj2 (proj2 A3))))) O) as B3.
  assert (EP : points f' = points f) by (destruct SM as (-> & _); reflexivity).
  assert (X0 := OB n0 2%nat 0 ltac:(rewrite EP; exact L0) B0). assert (X3 := OB n3 2%nat s ltac:(rewrite EP; exact L3) B3).
  pose proof (MV n0 2%nat L0 ltac:(lia)) as M0. pose proof (MV n3 2%nat L3 ltac:(lia)) as M3. cbv zeta in M0, M3. rewrite E0 in M0. rewrite E3 in M3. cbn [nth] in M0, M3. rewrite X0 in M0. rewrite X3 in M3.
  assert (S3 : forall g : nat -> R, sum 3 g = g 0%nat + g 1%nat + g 2%nat) by (intros g; unfold sum_n, sum_over; cbn; req; ring).
  pose proof (ON 2%nat 2%nat ltac:(lia) ltac:(lia)) as C. rewrite S3 in C. cbn [Nat.eqb] in C. assert (Q22 : Q 2%nat 2%nat = 1 + s) by lra. rewrite Q22 in C. nra.
Qed.
