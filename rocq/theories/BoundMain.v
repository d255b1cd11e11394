(** Lemmas for C113. *)
From Coq Require Import Reals String List Arith Lia Lra Bool.
From Verif Require Import Num Arr ArrFacts Fe Problem SpecAssembly SpecFe Basis GeomFacts SpecSelect SelectFacts Mesh MeshFacts MeshMain MeshFe Lagrangian BoundIndex SpecBound.
Import ListNotations.
Local Open Scope R_scope.

Section Agree.
  Context {K : ops}.
  Lemma agree_flags (g g' : list K -> nat -> bool) pts : forall all off, (forall n, (n < length pts)%nat -> nth (off + n) all [] = nth n pts []) -> (off + length pts <= length all)%nat ->
    (forall n, (n < length all)%nat -> g (nth n all []) n = g' (nth n all []) n) -> map2 g pts (seq off (length pts)) = map2 g' pts (seq off (length pts)).
  Proof.
    induction pts as [|x pts IH]; intros all off E L H; [reflexivity|]. change (g x off :: map2 g pts (seq (S off) (length pts)) = g' x off :: map2 g' pts (seq (S off) (length pts))). apply (f_equal2 cons).
    - specialize (E 0%nat ltac:(cbn; lia)). rewrite Nat.add_0_r in E. cbn [nth] in E. cbn [length] in L. specialize (H off ltac:(lia)). rewrite E in H. exact H.
    - apply (IH all (S off)); [|cbn [length] in L; lia|exact H]. intros n Hn. specialize (E (S n) ltac:(cbn; lia)). cbn [nth] in E. now rewrite <- E, Nat.add_succ_r.
  Qed.
  Lemma agree_as (pts : list (list K)) l l' : agree pts l l' -> (as_loc2 l = Err ValueErr /\ as_loc2 l' = Err ValueErr) \/
    exists g g', as_loc2 l = Ok g /\ as_loc2 l' = Ok g' /\ forall n, (n < length pts)%nat -> g (nth n pts []) n = g' (nth n pts []) n.
  Proof. intros (W & H). destruct l, l'; cbn in W, H |- *; try discriminate; [right; repeat eexists; exact H..|now left]. Qed.
  Lemma agree_loop (pts : list (list K)) : forall locs locs' vecs values, Forall2 (agree pts) locs locs' -> dirichlet_loop pts locs vecs values = dirichlet_loop pts locs' vecs values.
  Proof.
    intros locs locs' vecs values F. revert vecs values. induction F as [|l l' locs locs' A F IH]; intros vecs values; [reflexivity|]. destruct vecs as [|v vecs]; [reflexivity|]. destruct values as [|w values]; [reflexivity|]. cbn [dirichlet_loop].
    destruct (agree_as pts l l' A) as [(-> & ->)|(g & g' & -> & -> & H)]; [reflexivity|]. rewrite (IH vecs values). unfold dirichlet_group. rewrite (agree_flags g g' pts pts 0); [reflexivity|reflexivity|cbn; lia|exact H].
  Qed.
  Lemma agree_nodes (pts : list (list K)) locs locs' vecs values : Forall2 (agree pts) locs locs' ->
    Dirichlet_boundary_conditions pts (Some (locs, vecs, values)) = Dirichlet_boundary_conditions pts (Some (locs', vecs, values)).
  Proof. intros F. unfold Dirichlet_boundary_conditions. rewrite (agree_loop pts locs locs' vecs values F). assert (L : length locs = length locs') by (induction F; cbn; congruence). now rewrite L. Qed.
  Lemma agree_init sqrtK s quad fquad normals pts cls v d locs locs' vecs values : Forall2 (agree pts) locs locs' ->
    fe_init (K := K) sqrtK s quad fquad normals pts cls v d (Some (locs, vecs, values)) = fe_init (K := K) sqrtK s quad fquad normals pts cls v d (Some (locs', vecs, values)).
  Proof. intros F. unfold fe_init. now rewrite (agree_nodes pts locs locs' vecs values F). Qed.
  Lemma agree_one (f : fe K) g g' : faces_ok f -> (forall n, (n < length (points f))%nat -> g (nth n (points f) []) n = g' (nth n (points f) []) n) -> boundary_flags f g = boundary_flags f g'.
  Proof.
    intros (M & FI) H. unfold boundary_flags. apply map_ext_in. intros cell HC. apply map_ext_in. intros face HF. apply (In_nth _ _ []) in HC as (c & Hc & <-). destruct (M c Hc) as (LC & HN).
    assert (X : forall b, In b face -> (b < num_nodes f)%nat) by (intros b Hb; exact (FI face b HF Hb)). clear HF. induction face as [|b l IHl]; [reflexivity|]. cbn [forallb]. apply (f_equal2 andb).
    - assert (LB : (b < length (nth c (cells f) []))%nat) by (rewrite LC; apply X; now left). rewrite (gather_in 0%nat _ b LB). pose proof (HN _ (nth_In _ 0%nat LB)) as HL. rewrite (gather_in [] _ _ HL). now apply H.
    - apply IHl. intros b' Hb'. apply X. now right.
  Qed.
  Lemma agree_faces (f : fe K) locs locs' : faces_ok f -> Forall2 (agree (points f)) locs locs' -> get_boundary_conditions_inds f (Some locs) = get_boundary_conditions_inds f (Some locs').
  Proof.
    intros FO F. cbn [get_boundary_conditions_inds]. induction F as [|l l' locs locs' A F IH]; [reflexivity|]. cbn [boundary_loop]. destruct (agree_as _ l l' A) as [(-> & ->)|(g & g' & -> & -> & H)]; [reflexivity|]. now rewrite IH, (agree_one f g g' FO H).
  Qed.
End Agree.

Lemma near N L i : (0 < N)%nat -> (i <= N)%nat -> wider N L -> isclose (INR i * L / INR N) 0 (/ 10 ^ 5) = (i =? 0)%nat /\ isclose (INR i * L / INR N) L (/ 10 ^ 5) = (i =? N)%nat.
Proof.
  intros HN Hi (HL & W). assert (PN : 0 < INR N) by now apply lt_0_INR. assert (E : INR i * L / INR N = INR i * (L / INR N)) by (field; lra). rewrite E. assert (EL : L = INR N * (L / INR N)) by (field; lra). set (h := L / INR N) in *. assert (T : 0 < / 10 ^ 5) by (apply Rinv_0_lt_compat; lra).
  assert (PH : 0 < h) by nra. unfold isclose. rewrite Rabs_R0, (Rabs_right L) by lra. split.
  - destruct (Nat.eqb_spec i 0) as [->|NE]; destruct (Rle_dec _ _) as [R|R]; try reflexivity; exfalso.
    + apply R. cbn [INR]. rewrite Rmult_0_l, Rminus_0_r, Rabs_R0. lra.
    + assert (1 <= INR i) by (change 1 with (INR 1); apply le_INR; lia). rewrite Rminus_0_r, Rabs_right in R by nra. nra.
  - destruct (Nat.eqb_spec i N) as [->|NE]; destruct (Rle_dec _ _) as [R|R]; try reflexivity; exfalso.
    + apply R. rewrite <- EL. rewrite Rminus_diag_eq by reflexivity. rewrite Rabs_R0. nra.
    + assert (X : INR i + 1 <= INR N) by (rewrite <- S_INR; apply le_INR; lia). rewrite Rabs_left in R by nra. nra.
Qed.
Section Grid.
  Variables (Nx Ny : nat) (Lx Ly : R).
  Hypothesis HX : (0 < Nx)%nat. Hypothesis HY : (0 < Ny)%nat. Hypothesis WX : wider Nx Lx. Hypothesis WY : wider Ny Ly.
  Lemma grid n : (n < (Nx + 1) * (Ny + 1))%nat -> let x := nth n (m_points (rectangle_mesh Nx Ny Lx Ly)) [] in
    at_coordinate 0 0 x = (n <? Ny + 1)%nat /\ at_coordinate 0 Lx x = (Nx * (Ny + 1) <=? n)%nat /\ at_coordinate 1 0 x = (n mod (Ny + 1) =? 0)%nat /\ at_coordinate 1 Ly x = (n mod (Ny + 1) =? Ny)%nat.
  Proof.
    intros Hn x. set (i := (n / (Ny + 1))%nat). set (j := (n mod (Ny + 1))%nat). assert (DM : n = (i * (Ny + 1) + j)%nat) by (pose proof (Nat.div_mod n (Ny + 1) ltac:(lia)); unfold i, j; lia).
    assert (Hj : (j <= Ny)%nat) by (pose proof (Nat.mod_upper_bound n (Ny + 1) ltac:(lia)); unfold j; lia). assert (Hi : (i <= Nx)%nat) by nia.
    assert (EX : x = [INR i * Lx / INR Nx; INR j * Ly / INR Ny]) by (unfold x; rewrite DM; exact (rect_point Nx Ny Lx Ly HX HY i j Hi Hj)). unfold at_coordinate. rewrite EX. cbn [nth].
    destruct (near Nx Lx i HX Hi WX) as (-> & ->). destruct (near Ny Ly j HY Hj WY) as (-> & ->). clearbody i j. split; [|split; [|split; reflexivity]].
    - apply eq_true_iff_eq. rewrite Nat.eqb_eq, Nat.ltb_lt. split; [intros ->; lia|intros; nia].
    - apply eq_true_iff_eq. rewrite Nat.eqb_eq, Nat.leb_le. split; [intros ->; lia|intros; nia].
  Qed.
  (** the four sides by number *)
  Lemma grid_agree : let pts := m_points (rectangle_mesh Nx Ny Lx Ly) : list (list Rops) in
    agree pts (Loc1 (at_coordinate 0 0)) (Loc2 (fun _ n => (n <? Ny + 1)%nat)) /\ agree pts (Loc1 (at_coordinate 0 Lx)) (Loc2 (fun _ n => (Nx * (Ny + 1) <=? n)%nat)) /\
    agree pts (Loc1 (at_coordinate 1 0)) (Loc2 (fun _ n => (n mod (Ny + 1) =? 0)%nat)) /\ agree pts (Loc1 (at_coordinate 1 Ly)) (Loc2 (fun _ n => (n mod (Ny + 1) =? Ny)%nat)).
  Proof.
    intros pts. assert (LP : length pts = ((Nx + 1) * (Ny + 1))%nat) by exact (rect_points_len Nx Ny Lx Ly HX HY).
    split; [|split; [|split]]; (split; [reflexivity|]; intros n Hn; rewrite LP in Hn; destruct (grid n Hn) as (H1 & H2 & H3 & H4); assumption).
  Qed.
End Grid.

Definition bi_cells : list (list nat) := [[0; 3; 4; 1]; [1; 4; 5; 2]; [3; 6; 7; 4]; [4; 7; 8; 5]]%nat.
Lemma bi_cells_are : m_cells bi_mesh = bi_cells.
Proof. unfold bi_mesh. rewrite rectangle_rows by lia. reflexivity. Qed.
Lemma bi_len : length (m_points bi_mesh : list (list Rops)) = 9%nat.
Proof. exact (rect_points_len 2 2 1 1 ltac:(lia) ltac:(lia)). Qed.
Lemma bi_wider : wider 2 1. Proof. split; [lra|]. cbn [INR]. lra. Qed.
Definition ix_locs (a b : nat -> bool) : list (location_fn Rops) := [Loc2 (fun _ n => a n); Loc2 (fun _ n => b n)].
Lemma bi_dir : Forall2 (agree (m_points bi_mesh : list (list Rops))) [Loc1 bi_left; Loc2 bi_right] (ix_locs (fun n => (n <? 3)%nat) (fun n => isin n ind_set_right)).
Proof. destruct (grid_agree 2 2 1 1 ltac:(lia) ltac:(lia) bi_wider bi_wider) as (H1 & _). constructor; [exact H1|]. constructor; [|constructor]. split; reflexivity. Qed.
Lemma bi_bnd : Forall2 (agree (m_points bi_mesh : list (list Rops))) bi_locs (ix_locs (fun n => (n mod 3 =? 0)%nat) (fun n => isin n ind_set_top)).
Proof. destruct (grid_agree 2 2 1 1 ltac:(lia) ltac:(lia) bi_wider bi_wider) as (_ & _ & H1 & _). constructor; [exact H1|]. constructor; [|constructor]. split; reflexivity. Qed.
Lemma bi_main quad fquad normals : exists f p, fe_init (K := Rops) sqrt "QUAD4" quad fquad normals (m_points bi_mesh) (m_cells bi_mesh) 1 2 (Some bi_info) = Ok f /\ bi_problem f = Ok p /\ built_element "QUAD4" 2 f /\
  node_inds_list f = [[0; 1; 2]; [6; 7; 8]]%nat /\ vec_inds_list f = [[0; 0; 0]; [0; 0; 0]]%nat /\ vals_list f = [[0; 0; 0]; [0; 0; 0]] /\ boundary_inds_list p = [[(0, 0); (2, 0)]; [(1, 3); (3, 3)]]%nat.
Proof.
  assert (ED : Dirichlet_boundary_conditions (m_points bi_mesh : list (list Rops)) (Some bi_info) = Ok ([[0; 1; 2]; [6; 7; 8]]%nat, [[0; 0; 0]; [0; 0; 0]]%nat, [[0; 0; 0]; [0; 0; 0]])).
  { etransitivity; [exact (agree_nodes _ _ _ [0; 0]%nat [(fun _ => 0 : Rops); (fun _ => 0 : Rops)] bi_dir)|]. unfold bi_mesh. rewrite rectangle_rows by lia. reflexivity. }
  assert (B : exists f, fe_init (K := Rops) sqrt "QUAD4" quad fquad normals (m_points bi_mesh) (m_cells bi_mesh) 1 2 (Some bi_info) = Ok f) by (unfold fe_init; rewrite ED; eexists; reflexivity). destruct B as (f & B).
  pose proof (rect_element 2 2 1 1 ltac:(lia) ltac:(lia) _ _ _ _ _ _ f B) as BE. pose proof BE as (_ & _ & MO & _).
  destruct (built_inv _ _ _ _ _ _ _ _ _ _ _ B) as (info & fi & bc & HI & HFI & HD & Hf). rewrite ED in HD. injection HD as <-. injection HI as <-. cbn in HFI. injection HFI as <-.
  assert (EB : get_boundary_conditions_inds f (Some bi_locs) = Ok [[(0, 0); (2, 0)]; [(1, 3); (3, 3)]]%nat).
  { rewrite (agree_faces f bi_locs (ix_locs (fun n => (n mod 3 =? 0)%nat) (fun n => isin n ind_set_top)) (built_faces_ok _ _ _ _ _ _ _ _ _ _ _ B MO) ltac:(rewrite (built_points _ _ _ _ _ _ _ _ _ _ _ B); exact bi_bnd)).
    cbn [get_boundary_conditions_inds boundary_loop ix_locs as_loc2]. unfold boundary_flags. rewrite (built_cells _ _ _ _ _ _ _ _ _ _ _ B), bi_cells_are. rewrite Hf. reflexivity. }
  exists f. eexists. split; [exact B|]. unfold bi_problem. rewrite EB. split; [reflexivity|]. split; [exact BE|]. rewrite Hf. repeat split; reflexivity.
Qed.
Lemma grid_sets Nx Ny Lx Ly : (0 < Nx)%nat -> (0 < Ny)%nat -> wider Nx Lx -> wider Ny Ly -> let pts := m_points (rectangle_mesh Nx Ny Lx Ly) : list (list Rops) in
  (agree pts (Loc1 (at_coordinate 0 Lx)) (Loc2 bi_right) <-> (Nx = 2 /\ Ny = 2 \/ Nx = 3 /\ Ny = 1)%nat) /\ (agree pts (Loc1 (at_coordinate 1 Ly)) (Loc2 bi_top) <-> (Nx <= 2 /\ Ny = 2)%nat).
Proof.
  intros HX HY WX WY pts. assert (LP : length pts = ((Nx + 1) * (Ny + 1))%nat) by exact (rect_points_len Nx Ny Lx Ly HX HY).
  assert (G : forall n, (n < length pts)%nat -> at_coordinate 0 Lx (nth n pts []) = (Nx * (Ny + 1) <=? n)%nat /\ at_coordinate 1 Ly (nth n pts []) = (n mod (Ny + 1) =? Ny)%nat).
  { intros n Hn. rewrite LP in Hn. destruct (grid Nx Ny Lx Ly HX HY WX WY n Hn) as (_ & H2 & _ & H4). split; assumption. }
  split.
  - transitivity (forall n, (n < (Nx + 1) * (Ny + 1))%nat -> (Nx * (Ny + 1) <=? n)%nat = isin n ind_set_right).
    + unfold agree. rewrite LP in *. cbn [loc_wrong loc_holds]. unfold bi_right. split; [intros (_ & H) n Hn; rewrite <- (H n Hn); symmetry; exact (proj1 (G n Hn))|]. intros H. split; [reflexivity|]. intros n Hn. rewrite <- (H n Hn). exact (proj1 (G n Hn)).
    + clear - HX HY. split.
      * intros H. pose proof (H ((Nx + 1) * (Ny + 1) - 1)%nat ltac:(nia)) as H1. assert (X : (Nx * (Ny + 1) <=? (Nx + 1) * (Ny + 1) - 1)%nat = true) by (apply Nat.leb_le; nia). rewrite X in H1. symmetry in H1. unfold isin in H1. apply existsb_exists in H1 as (m & HI & HE). apply Nat.eqb_eq in HE.
        assert (BND : ((Nx + 1) * (Ny + 1) <= 9)%nat) by (cbn in HI; lia). assert (BND2 : (7 <= (Nx + 1) * (Ny + 1))%nat) by (cbn in HI; lia). clear X HI HE m.
        assert (NX8 : (Nx <= 8)%nat) by nia. assert (NY8 : (Ny <= 8)%nat) by nia. pose proof (fun n => H n) as H0.
        destruct Nx as [|[|[|[|[|[|[|[|[|Nx]]]]]]]]]; destruct Ny as [|[|[|[|[|[|[|[|[|Ny]]]]]]]]]; try lia; exfalso;
          first [specialize (H 0%nat ltac:(cbn; lia)); discriminate H | specialize (H 4%nat ltac:(cbn; lia)); discriminate H | specialize (H 5%nat ltac:(cbn; lia)); discriminate H | specialize (H 6%nat ltac:(cbn; lia)); discriminate H | specialize (H 7%nat ltac:(cbn; lia)); discriminate H | specialize (H 3%nat ltac:(cbn; lia)); discriminate H].
      * intros [(-> & ->)|(-> & ->)] n Hn; cbn in Hn; do 9 (destruct n as [|n]; [reflexivity|]); lia.
  - transitivity (forall n, (n < (Nx + 1) * (Ny + 1))%nat -> (n mod (Ny + 1) =? Ny)%nat = isin n ind_set_top).
    + unfold agree. rewrite LP in *. cbn [loc_wrong loc_holds]. unfold bi_top. split; [intros (_ & H) n Hn; rewrite <- (H n Hn); symmetry; exact (proj2 (G n Hn))|]. intros H. split; [reflexivity|]. intros n Hn. rewrite <- (H n Hn). exact (proj2 (G n Hn)).
    + split.
      * intros H. pose proof (H Ny ltac:(nia)) as H1. rewrite (Nat.mod_small Ny) in H1 by lia. rewrite Nat.eqb_refl in H1. symmetry in H1. unfold isin in H1. apply existsb_exists in H1 as (m & HI & HE). apply Nat.eqb_eq in HE. subst m.
        assert (Ny = 2%nat) as ->. { destruct HI as [<-|[<-|[<-|[]]]]; [reflexivity| |]; specialize (H 2%nat ltac:(lia)); discriminate H. }
        split; [|reflexivity]. destruct (le_lt_dec Nx 2) as [L|L]; [exact L|]. specialize (H 11%nat ltac:(lia)). discriminate H.
      * intros (LX & ->) n Hn. assert (n < 9)%nat by nia. do 9 (destruct n as [|n]; [reflexivity|]). lia.
Qed.
Lemma side_swap sq quad fquad normals Nx Ny Lx Ly v vecs values : (0 < Nx)%nat -> (0 < Ny)%nat -> wider Nx Lx -> wider Ny Ly -> let M := rectangle_mesh Nx Ny Lx Ly in
  let by_coordinates := [Loc1 (at_coordinate 0 0); Loc1 (at_coordinate 0 Lx); Loc1 (at_coordinate 1 0); Loc1 (at_coordinate 1 Ly)] in
  let by_numbers := [Loc2 (fun _ n => (n <? Ny + 1)%nat); Loc2 (fun _ n => (Nx * (Ny + 1) <=? n)%nat); Loc2 (fun _ n => (n mod (Ny + 1) =? 0)%nat); Loc2 (fun _ n => (n mod (Ny + 1) =? Ny)%nat)] in
  fe_init (K := Rops) sq "QUAD4" quad fquad normals (m_points M) (m_cells M) v 2 (Some (by_coordinates, vecs, values)) = fe_init (K := Rops) sq "QUAD4" quad fquad normals (m_points M) (m_cells M) v 2 (Some (by_numbers, vecs, values)) /\
  forall dir f, fe_init (K := Rops) sq "QUAD4" quad fquad normals (m_points M) (m_cells M) v 2 dir = Ok f -> get_boundary_conditions_inds f (Some by_coordinates) = get_boundary_conditions_inds f (Some by_numbers).
Proof.
  intros HX HY WX WY M bc bn. assert (A : Forall2 (agree (m_points M : list (list Rops))) bc bn) by (destruct (grid_agree Nx Ny Lx Ly HX HY WX WY) as (H1 & H2 & H3 & H4); repeat constructor; [apply H1|apply H2|apply H3|apply H4]).
  split; [exact (agree_init sq _ _ _ _ _ _ _ _ bc bn vecs values A)|]. intros dir f B. pose proof (rect_mesh_ok Nx Ny Lx Ly HX HY _ _ _ _ _ _ f B) as MO. apply (agree_faces f bc bn (built_faces_ok _ _ _ _ _ _ _ _ _ _ _ B MO)). rewrite (built_points _ _ _ _ _ _ _ _ _ _ _ B). exact A.
Qed.
