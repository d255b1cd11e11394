(** Lemmas for C106: turning the body. *)
From Coq Require Import Reals String List Arith Lia Lra Bool.
From Verif Require Import Num Arr ArrFacts BatchFacts Fe Problem Basis SpecBasis SpecFe SpecGeom FeFacts GeomFacts SpecBc BcFacts SpecSelect SelectFacts ElasticFacts Lagrangian LaserHeat HyperElastic ErrorNormMet Volume SpecVolume VolumeMain VolumeEnd VolumeMet.
Import ListNotations.
Local Open Scope R_scope.
Local Notation sum := (sum_n (K := Rops)).

Definition displace (d : nat) (P u : list (list Rops)) : list (list Rops) := map (fun n => map (fun i => nth i (nth n P []) 0 + nth i (nth n u []) 0) (seq 0 d)) (seq 0 (length P)).
Lemma nth_displace d P u n i : (n < length P)%nat -> (i < d)%nat -> nth i (nth n (displace d P u) []) 0 = nth i (nth n P []) 0 + nth i (nth n u []) 0.
Proof.
  intros Hn Hi. unfold displace. set (g := fun n => map _ _).
  rewrite (nth_indep _ [] (g 0%nat)) by now rewrite map_length, seq_length. rewrite (map_nth g), seq_nth by exact Hn. unfold g. cbn [Nat.add].
  set (h := fun i => _ + _). rewrite (nth_indep _ 0 (h 0%nat)) by now rewrite map_length, seq_length. rewrite (map_nth h), seq_nth by exact Hi. reflexivity.
Qed.
Lemma displace_ok d P u : length u = length P -> displaced d P u (displace d P u).
Proof. intros L. split; [exact L|]. split; [unfold displace; now rewrite map_length, seq_length|]. intros. now apply nth_displace. Qed.
Definition turn (w : R) (i j : nat) : R :=
  match i, j with 0%nat, 0%nat => cos w | 0%nat, 1%nat => - sin w | 1%nat, 0%nat => sin w | 1%nat, 1%nat => cos w | 2%nat, 2%nat => 1 | _, _ => 0 end.
Lemma spin_volume s (f : fe Rops) P w u u' : built_element s 3 f -> length P = length (points f) -> length u = length P -> spun w P u u' ->
  (forall c q, (c < num_cells f)%nat -> (q < num_quads f)%nat -> get_JxW P f c q <> 0) -> crt_volume P f u' = crt_volume P f u.
Proof.
  intros BE PE LU (LU' & SP) NZ. rewrite (volume_deformed s 3 f P BE PE u _ (displace_ok 3 P u LU) NZ), (volume_deformed s 3 f P BE PE u' _ (displace_ok 3 P u' LU') NZ).
  unfold mesh_volume. apply Rsum_ext. intros c Hc. apply Rsum_ext. intros q Hq. destruct BE as (LAG & DIM & MESH & sq & qd & fq & nm & p0 & cl & v & dr & B).
  assert (LD : length (displace 3 P u) = length (points f)) by (unfold displace; rewrite map_length, seq_length; exact PE).
  assert (S : samples (K := Rops) 3 3 (turn w) (fun _ => 0) (displace 3 P u) (displace 3 P u')).
  { split; [unfold displace; now rewrite !map_length, !seq_length|]. intros n k Hn Hk. assert (Hn' : (n < length P)%nat) by (rewrite PE; rewrite LD in Hn; exact Hn).
    destruct (SP n Hn') as (S0 & S1 & S2). cbn beta zeta in S0, S1, S2. unfold affine. etransitivity; [exact (nth_displace 3 P u' n k Hn' Hk)|].
    assert (E : sum 3 (fun m => turn w k m * nth m (nth n (displace 3 P u) []) 0) = sum 3 (fun m => turn w k m * (nth m (nth n P []) 0 + nth m (nth n u []) 0))) by (apply Rsum_ext; intros m Hm; now rewrite nth_displace).
    symmetry. etransitivity; [exact (f_equal (fun z => z + 0) E)|]. destruct k as [|[|[|k]]]; [| | |lia]; [etransitivity; [|symmetry; exact S0]|etransitivity; [|symmetry; exact S1]|etransitivity; [|symmetry; exact S2]]; cbn; ring. }
  pose proof (JxW_moved Rops_ring _ _ _ _ _ _ _ _ _ _ _ B LAG MESH DIM _ LD (turn w) (fun _ => 0) (displace 3 P u') S c q Hc) as E.
  etransitivity; [exact E|]. assert (D : det_dim (K := Rops) 3 (turn w) = 1) by (pose proof (sin2_cos2 w) as X; unfold Rsqr in X; unfold det_dim; cbn; lra).
  etransitivity; [exact (f_equal (fun z => z * get_JxW (displace 3 P u) f c q) D)|]. exact (Rmult_1_l _).
Qed.
Lemma spin_obeys {V} (f f' : fe Rops) disp0 disp (params : V) w u u' : vs_set_params f (vs_bc disp0) (disp, params) = Ok (vs_bc disp, f', params) ->
  (forall n, (n < length (points f))%nat -> near0 (nth 0 (nth n (points f) []) 0) -> near0 (nth 1 (nth n (points f) []) 0) -> near0 (nth 2 (nth n (points f) []) 0) -> nth 0 (nth n (points f) []) 0 = 0 /\ nth 1 (nth n (points f) []) 0 = 0) ->
  spun w (points f) u u' -> obeys f' u -> obeys f' u'.
Proof.
  intros SE EX (LU' & SP) OB. destruct (set_params f disp0 disp params) as (f1 & E1 & SM & PR). rewrite SE in E1. injection E1 as <-. destruct SM as (PE & _).
  intros n k b Hn HP. pose proof Hn as Hn'. rewrite PE in Hn'. destruct (PR n Hn') as (P01 & P20 & P21 & P2N & P3). destruct (SP n Hn') as (S0 & S1 & S2). cbn beta zeta in *.
  assert (CO : (k < 2)%nat -> b = 0 /\ nth 0 (nth n (points f) []) 0 = 0 /\ nth 1 (nth n (points f) []) 0 = 0 /\ nth 0 (nth n u []) 0 = 0 /\ nth 1 (nth n u []) 0 = 0).
  { intros Hk. destruct (P01 k Hk) as (PC & PN). set (C := near0 (nth 0 (nth n (points f) []) 0) /\ near0 (nth 1 (nth n (points f) []) 0) /\ near0 (nth 2 (nth n (points f) []) 0)) in *.
    assert (HC : C) by (destruct (Rle_dec (Rabs (nth 0 (nth n (points f) []) 0)) (/ 10 ^ 5)) as [H0|H0], (Rle_dec (Rabs (nth 1 (nth n (points f) []) 0)) (/ 10 ^ 5)) as [H1|H1], (Rle_dec (Rabs (nth 2 (nth n (points f) []) 0)) (/ 10 ^ 5)) as [H2|H2];
      first [exact (conj H0 (conj H1 H2))|exfalso; rewrite PN in HP; [discriminate|intros (A0 & A1 & A2); contradiction]]).
    pose proof (PC HC) as Z. rewrite HP in Z. injection Z as ->. destruct HC as (C0 & C1 & C2). destruct (EX n Hn' C0 C1 C2) as (X0 & X1). split; [reflexivity|]. split; [exact X0|]. split; [exact X1|].
    split; [apply (OB n 0%nat 0 Hn)|apply (OB n 1%nat 0 Hn)]; [apply (P01 0%nat ltac:(lia))|apply (P01 1%nat ltac:(lia))]; exact (conj C0 (conj C1 C2)). }
  destruct k as [|[|[|k]]].
  - destruct (CO ltac:(lia)) as (-> & X0 & X1 & U0 & U1). rewrite X0, X1, U0, U1 in S0. lra.
  - destruct (CO ltac:(lia)) as (-> & X0 & X1 & U0 & U1). rewrite X0, X1, U0, U1 in S1. lra.
  - rewrite <- (OB n 2%nat b Hn HP). lra.
  - rewrite P3 in HP by lia. discriminate.
Qed.

(** ** The reference tetrahedron, a quarter turn *)
Definition quarter (a : R) : list (list Rops) := map (fun x => [- nth 1 x 0 - nth 0 x 0; nth 0 x 0 - nth 1 x 0; (a - 1) * nth 2 x 0]) (ref_points "TET4").
Lemma quarter_spun a : spun (PI / 2) (ref_points "TET4") (stretch a) (quarter a).
Proof.
  split; [unfold quarter; now rewrite map_length|]. intros n Hn. rewrite cos_PI2, sin_PI2. change (length (ref_points "TET4")) with 4%nat in Hn.
  destruct n as [|[|[|[|n]]]]; [..|lia]; cbv -[Rmult Rplus Rminus Rinv IZR Ropp]; repeat split; ring.
Qed.
Lemma quarter_met a : exists f f', fe_init (K := Rops) sqrt "TET4" one_point face_point tet_normals (ref_points "TET4") (one_cell "TET4") 3 3 None = Ok f /\
  vs_set_params f (vs_bc 0) (a - 1, tt) = Ok (vs_bc (a - 1), f', tt) /\ obeys f' (stretch a) /\ obeys f' (quarter a) /\ quarter a <> stretch a /\ target_value (points f) f (quarter a) = target_value (points f) f (stretch a).
Proof.
  destruct tet_built as (f & B). exists f. destruct (set_params f 0 (a - 1) tt) as (f' & E & SM & PR). exists f'. split; [exact B|]. split; [exact E|].
  pose proof (built_points _ _ _ _ _ _ _ _ _ _ _ B) as PE.
  assert (N0 : near0 (INR 0 * / 2)) by (unfold near0; cbn [INR]; rewrite Rmult_0_l, Rabs_R0; lra). assert (N1 : near1 (INR 2 * / 2)) by (unfold near1; cbn [INR]; replace ((1 + 1) * / 2 - 1) with 0 by field; rewrite Rabs_R0; lra).
  assert (O : obeys f' (stretch a)).
  { intros n k b Hn HP. rewrite (proj1 SM), PE in Hn. rewrite PE in PR. destruct (PR n Hn) as (P01 & P20 & P21 & _ & P3). clear PR. cbn beta zeta in *. change (length (ref_points "TET4")) with 4%nat in Hn.
    assert (ZB : (k < 2)%nat -> b = 0).
    { intros Hk. destruct (P01 k Hk) as (PC & PN). destruct (Rle_dec (Rabs (nth 0 (nth n (ref_points "TET4") []) 0)) (/ 10 ^ 5)) as [H0|H0], (Rle_dec (Rabs (nth 1 (nth n (ref_points "TET4") []) 0)) (/ 10 ^ 5)) as [H1|H1], (Rle_dec (Rabs (nth 2 (nth n (ref_points "TET4") []) 0)) (/ 10 ^ 5)) as [H2|H2];
      first [rewrite (PC (conj H0 (conj H1 H2))) in HP; now injection HP as <-|exfalso; rewrite PN in HP; [discriminate|intros (A0 & A1 & A2); contradiction]]. }
    destruct k as [|[|[|k]]].
    - rewrite ZB by lia. destruct n as [|[|[|[|n]]]]; [..|lia]; reflexivity.
    - rewrite ZB by lia. destruct n as [|[|[|[|n]]]]; [..|lia]; reflexivity.
    - destruct n as [|[|[|[|n]]]]; [..|lia].
      + rewrite (P20 N0) in HP. injection HP as <-. cbn. ring.
      + rewrite (P20 N0) in HP. injection HP as <-. cbn. ring.
      + rewrite (P20 N0) in HP. injection HP as <-. cbn. ring.
      + rewrite (P21 N1) in HP. injection HP as <-. cbn. field.
    - rewrite P3 in HP by lia. discriminate. }
  split; [exact O|]. pose proof (quarter_spun a) as QS. split; [|split].
  - rewrite <- PE in QS. refine (spin_obeys f f' 0 (a - 1) tt (PI / 2) (stretch a) (quarter a) E _ QS O).
    rewrite PE. intros n Hn H0 H1 _. change (length (ref_points "TET4")) with 4%nat in Hn.
    assert (NB : near0 (INR 2 * / 2) -> False) by (intros X; exact (near01 _ X N1)).
    destruct n as [|[|[|[|n]]]]; [..|lia]; cbn [ref_points mesh_nodes2 map nth] in *.
    + split; cbn; ring.
    + exfalso. exact (NB H0).
    + exfalso. exact (NB H1).
    + split; cbn; ring.
  - intros X. apply (f_equal (fun l => nth 0 (nth 1 l []) 0)) in X. cbn in X. lra.
  - unfold target_value. rewrite PE, (spin_volume "TET4" f (ref_points "TET4") (PI / 2) (stretch a) (quarter a) (tet_element f B) (tet_points f B)); [reflexivity|unfold stretch; now rewrite map_length|exact QS|exact (tet_nonzero f B)].
Qed.
