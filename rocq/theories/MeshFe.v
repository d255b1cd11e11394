(** Elements on the structured meshes; the tetrahedron check; the clean-up of the cylinder mesh. *)
From Coq Require Import String List Arith Bool Lia Reals Lra ZArith.
From Verif Require Import Num Arr ArrFacts ProblemFacts Fe Problem Basis SpecBasis SpecFe SpecGeom GeomFacts MeasureFacts Mesh SpecMesh MeshFacts MeshMain.
Import ListNotations.

Section Tet.
  Context {K : ops} (KR : ring_laws K).
  Open Scope num_scope.
  Let Kth : ring_theory (@zero K) one add mul sub opp eq := KR.
  Add Ring KringT : Kth.

  Definition at3 (p : list K) (i : nat) : K := nth i p 0.
  (** the triple product of the edges *)
  Definition triple (p q r s : list K) : K :=
    let e (x : list K) i := at3 x i - at3 p i in
    e q 0%nat * (e r 1%nat * e s 2%nat - e r 2%nat * e s 1%nat)
    - e q 1%nat * (e r 0%nat * e s 2%nat - e r 2%nat * e s 0%nat)
    + e q 2%nat * (e r 0%nat * e s 1%nat - e r 1%nat * e s 0%nat).
  Lemma quality_triple p q r s : List.length p = 3%nat -> List.length q = 3%nat -> List.length r = 3%nat -> List.length s = 3%nat ->
    quality [p; q; r; s] = Ok (triple p q r s).
  Proof.
    intros Hp Hq Hr Hs.
    destruct p as [|p0 [|p1 [|p2 [|? ?]]]]; try discriminate. destruct q as [|q0 [|q1 [|q2 [|? ?]]]]; try discriminate.
    destruct r as [|r0 [|r1 [|r2 [|? ?]]]]; try discriminate. destruct s as [|s0 [|s1 [|s2 [|? ?]]]]; try discriminate.
    cbn. f_equal. unfold np_dot, triple, at3. cbn. ring.
  Qed.
  Lemma vmap_all {A B} (f : A -> result B) (g : A -> B) l : (forall a, In a l -> f a = Ok (g a)) -> vmap_result f l = Ok (map g l).
  Proof.
    intros H. induction l as [|a l IH]; [reflexivity|]. cbn [vmap_result map]. rewrite (H a) by (cbn; auto). cbn [bind].
    rewrite IH by (intros; apply H; cbn; auto). reflexivity.
  Qed.
  Definition vtx (pts : list (list K)) (c : list nat) (a : nat) : list K := nth (nth a c 0%nat) pts [].
  Definition triple_of (pts : list (list K)) (c : list nat) : K := triple (vtx pts c 0) (vtx pts c 1) (vtx pts c 2) (vtx pts c 3).
  Lemma take_vertices (pts : list (list K)) c : (forall n, In n c -> (n < List.length pts)%nat) -> take [] pts c = map (fun n => nth n pts []) c.
  Proof. intros H. apply map_ext_in. intros n Hn. unfold gather. apply H in Hn. now replace (Nat.min n (List.length pts - 1)) with n by lia. Qed.
  Lemma quality_cell pts c : (forall p, In p pts -> List.length p = 3%nat) -> List.length c = 4%nat -> (forall n, In n c -> (n < List.length pts)%nat) ->
    quality (take [] pts c) = Ok (triple_of pts c).
  Proof.
    intros H3 Hc Hin. rewrite take_vertices by assumption.
    destruct c as [|a [|b [|d [|e [|? ?]]]]]; try discriminate. cbn [map]. apply quality_triple; apply H3, nth_In, Hin; cbn; auto.
  Qed.
  Theorem check_all pts cells : (forall p, In p pts -> List.length p = 3%nat) ->
    (forall c, In c cells -> List.length c = 4%nat /\ forall n, In n c -> (n < List.length pts)%nat) ->
    check_mesh_TET4 pts cells = Ok (map (triple_of pts) cells).
  Proof. intros H3 HC. apply vmap_all. intros c Hc. destruct (HC c Hc). now apply quality_cell. Qed.
End Tet.

Section TetFe.
  Context {K : ops} (KR : ring_laws K).
  Open Scope num_scope.
  Let Kth : ring_theory (@zero K) one add mul sub opp eq := KR.
  Add Ring KringT2 : Kth.
  Theorem check_is_jacobian (half : K) (f : fe K) : half + half = 1 -> built_element "TET4" 3 f -> (forall p, In p (points f) -> List.length p = 3%nat) ->
    exists qs, check_mesh_TET4 (points f) (cells f) = Ok qs /\ List.length qs = List.length (cells f) /\
    forall c q, (c < List.length (cells f))%nat -> get_JxW (points f) f c q = nth c qs 0 * quad_weights f q.
  Proof.
    intros Hh (LAG & DIM & MESH & sq & qd & fq & nm & p0 & cl & v & dr & B) H3.
    exists (map (triple_of (points f)) (cells f)). split; [|split].
    - apply (check_all KR); auto. intros c Hc. apply In_nth with (d := []) in Hc as (k & Hk & <-). destruct (MESH k Hk) as [L N]. split; auto.
      rewrite L. exact (built_nodes _ _ _ _ _ _ _ _ _ _ _ B).
    - apply map_length.
    - intros c q Hc. rewrite (nth_map_in _ _ _ []) by assumption.
      rewrite (jxw_aff KR _ _ _ _ _ _ _ _ _ _ _ B LAG MESH DIM (points f) eq_refl half _ _ c Hh Hc
                (simplex_affine KR half "TET4" (points f) f 3 c Hh (or_intror (conj eq_refl eq_refl)))).
      f_equal. unfold det_dim, det3, edge_mat, vx, triple_of, triple, at3, vtx. ring.
  Qed.
End TetFe.

Section TetMoves.
  Context {K : ops} (KR : ring_laws K).
  Open Scope num_scope.
  Let Kth : ring_theory (@zero K) one add mul sub opp eq := KR.
  Add Ring KringT3 : Kth.
  Theorem check_translated (pts pts' : list (list K)) cells t : tet_mesh pts cells -> (forall p, In p pts' -> List.length p = 3%nat) -> translation 3 t pts pts' ->
    check_mesh_TET4 pts' cells = check_mesh_TET4 pts cells.
  Proof.
    intros [H3 HC] H3' [HL HT]. rewrite !(check_all KR); auto.
    2:{ intros c Hc. rewrite HL. now apply HC. }
    f_equal. apply map_ext_in. intros c Hc. destruct (HC c Hc) as [L N].
    unfold triple_of, triple, at3, vtx. rewrite !HT; try lia; try (apply N, nth_In; lia). ring.
  Qed.
  Theorem check_swapped (pts : list (list K)) cells a b : tet_mesh pts cells -> (a < 4)%nat -> (b < 4)%nat -> a <> b ->
    exists qs, check_mesh_TET4 pts cells = Ok qs /\ check_mesh_TET4 pts (map (swap_at a b) cells) = Ok (map opp qs).
  Proof.
    intros [H3 HC] Ha Hb Hab. exists (map (triple_of pts) cells). split; [now apply (check_all KR)|].
    assert (S : forall c, In c cells -> exists x y z w, c = [x; y; z; w]).
    { intros c Hc. destruct (HC c Hc) as [L _]. destruct c as [|x [|y [|z [|w [|? ?]]]]]; try discriminate. eauto. }
    rewrite (check_all KR); auto.
    - f_equal. rewrite !map_map. apply map_ext_in. intros c Hc. destruct (S c Hc) as (x & y & z & w & ->).
      unfold triple_of, triple, at3, vtx, swap_at. cbn [List.length seq map].
      destruct a as [|[|[|[|a]]]]; try lia; destruct b as [|[|[|[|b]]]]; try lia; cbn [Nat.eqb nth]; try congruence; ring.
    - intros c Hc. apply in_map_iff in Hc as (c0 & <- & Hc0). destruct (HC c0 Hc0) as [L N]. unfold swap_at. split.
      + now rewrite map_length, seq_length.
      + intros n Hn. apply in_map_iff in Hn as (i & <- & Hi). apply in_seq in Hi. apply N, nth_In.
        destruct (i =? a)%nat; [lia|]. destruct (i =? b)%nat; lia.
  Qed.
  Theorem check_wrong_arity (pts : list (list K)) cells c : In c cells -> List.length c <> 4%nat -> exists e, check_mesh_TET4 pts cells = Err e.
  Proof.
    unfold check_mesh_TET4. induction cells as [|c0 cells IH]; [intros []|]. intros Hc Hl. cbn [vmap_result].
    destruct (quality (take [] pts c0)) as [v|e] eqn:E; cbn [bind]; [|eauto]. destruct Hc as [-> | Hc].
    - exfalso. unfold quality in E. destruct c as [|? [|? [|? [|? [|? ?]]]]]; cbn in *; congruence.
    - destruct (IH Hc Hl) as [e ->]. cbn. eauto.
  Qed.
End TetMoves.

(** Renumbering *)
Section Cylinder.
  Context {P : Type}.
  Let renum (c : Z) : Z := if (c >? 14)%Z then (c - 2)%Z else (c - 1)%Z.
  Lemma index_ok (l : list P) n d : (n < List.length l)%nat -> np_index l (Z.of_nat n) = Ok (nth n l d).
  Proof.
    intros H. unfold np_index. destruct (Z.ltb_spec (Z.of_nat n) 0); [lia|].
    destruct (Z.leb_spec 0 (Z.of_nat n)); [|lia]. destruct (Z.ltb_spec (Z.of_nat n) (Z.of_nat (List.length l))); [|lia]. cbn [andb].
    rewrite Nat2Z.id. now rewrite (nth_error_nth' l d H).
  Qed.
  Lemma cleaned_len (points : list P) : (15 <= List.length points)%nat -> List.length (slice 1 14 points ++ slice_from 15 points) = (List.length points - 2)%nat.
  Proof. intros H. unfold slice, slice_from. rewrite app_length, firstn_length, !skipn_length. lia. Qed.
  Lemma nth_skipn' {A} n (l : list A) i d : nth i (skipn n l) d = nth (n + i) l d.
  Proof. revert l; induction n; intros l; [reflexivity|]. destruct l; [destruct i; reflexivity|]. cbn. apply IHn. Qed.
  Lemma nth_firstn' {A} n (l : list A) i d : (i < n)%nat -> nth i (firstn n l) d = nth i l d.
  Proof. revert l i; induction n; intros l i H; [lia|]. destruct l; [destruct i; reflexivity|]. destruct i; cbn; auto. apply IHn. lia. Qed.
  Lemma cleaned_lo (points : list P) i d : (i < 13)%nat -> (i + 1 < List.length points)%nat -> nth i (slice 1 14 points ++ slice_from 15 points) d = nth (i + 1) points d.
  Proof.
    intros H HL. unfold slice, slice_from. rewrite app_nth1 by (rewrite firstn_length, skipn_length; lia).
    rewrite nth_firstn' by lia. rewrite nth_skipn'. f_equal. lia.
  Qed.
  Lemma cleaned_hi (points : list P) i d : (13 <= i)%nat -> (i + 2 < List.length points)%nat -> nth i (slice 1 14 points ++ slice_from 15 points) d = nth (i + 2) points d.
  Proof.
    intros H HL. unfold slice, slice_from. assert (E : List.length (firstn (14 - 1) (skipn 1 points)) = 13%nat) by (rewrite firstn_length, skipn_length; lia).
    rewrite app_nth2 by lia. rewrite E, nth_skipn'. f_equal. lia.
  Qed.
  Theorem cleanup_keeps (points : list P) c : (0 < c < Z.of_nat (List.length points))%Z -> c <> 14%Z ->
    np_index (fst (cylinder_cleanup points [])) (renum c) = np_index points c.
  Proof.
    intros Hc H14. cbn [cylinder_cleanup fst]. assert (Hn : (0 < List.length points)%nat) by lia.
    destruct points as [|d0 rest] eqn:EP; [cbn in Hn; lia|]. rewrite <- EP in *. clear EP rest Hn.
    assert (HT : exists n, c = Z.of_nat n) by (exists (Z.to_nat c); lia). destruct HT as [n ->].
    rewrite (index_ok points n d0) by lia. unfold renum. destruct (Z.gtb_spec (Z.of_nat n) 14) as [G|G].
    - replace (Z.of_nat n - 2)%Z with (Z.of_nat (n - 2)) by lia. rewrite (index_ok _ (n - 2) d0) by (rewrite cleaned_len; lia).
      rewrite cleaned_hi by lia. do 2 f_equal. lia.
    - replace (Z.of_nat n - 1)%Z with (Z.of_nat (n - 1)) by lia.
      rewrite (index_ok _ (n - 1) d0).
      + rewrite cleaned_lo by lia. do 2 f_equal. lia.
      + unfold slice, slice_from. rewrite app_length, firstn_length, !skipn_length. lia.
  Qed.
  Theorem cleanup_cells (points : list P) cells :
    (forall cell c, In cell cells -> In c cell -> (0 < c < Z.of_nat (List.length points))%Z /\ c <> 14%Z) ->
    let '(points', cells') := cylinder_cleanup points cells in
    map (map (np_index points')) cells' = map (map (np_index points)) cells.
  Proof.
    intros H. cbn [cylinder_cleanup]. rewrite map_map. apply map_ext_in. intros cell Hcell. rewrite map_map. apply map_ext_in. intros c Hc.
    destruct (H cell c Hcell Hc). now apply cleanup_keeps.
  Qed.
  Theorem cleanup_no_orphans (points : list P) cells : (15 <= List.length points)%nat ->
    (forall c, (0 < c < Z.of_nat (List.length points))%Z -> c <> 14%Z -> exists cell, In cell cells /\ In c cell) ->
    let '(points', cells') := cylinder_cleanup points cells in
    List.length points' = (List.length points - 2)%nat /\
    forall n, (n < List.length points')%nat -> exists cell, In cell cells' /\ In (Z.of_nat n) cell.
  Proof.
    intros HL H. cbn [cylinder_cleanup]. split; [now apply cleaned_len|]. intros n Hn. rewrite cleaned_len in Hn by assumption.
    destruct (Z.ltb_spec (Z.of_nat n) 13) as [L|L].
    - destruct (H (Z.of_nat n + 1)%Z) as (cell & Hc & Hin); [lia|lia|]. exists (map renum cell). split; [now apply in_map|].
      replace (Z.of_nat n) with (renum (Z.of_nat n + 1)); [now apply in_map|]. unfold renum. destruct (Z.gtb_spec (Z.of_nat n + 1) 14); lia.
    - destruct (H (Z.of_nat n + 2)%Z) as (cell & Hc & Hin); [lia|lia|]. exists (map renum cell). split; [now apply in_map|].
      replace (Z.of_nat n) with (renum (Z.of_nat n + 2)); [now apply in_map|]. unfold renum. destruct (Z.gtb_spec (Z.of_nat n + 2) 14); lia.
  Qed.
  (** A cell that uses a dropped point is silently attached to another one. *)
  Theorem cleanup_moves_14 (points : list P) : (13 < List.length points)%nat ->
    np_index (fst (cylinder_cleanup points [])) (renum 14) = np_index points 15.
  Proof.
    intros H. destruct points as [|d0 rest] eqn:EP; [cbn in H; lia|]. rewrite <- EP in *. clear EP rest.
    cbn [cylinder_cleanup fst]. change (renum 14) with (Z.of_nat 13).
    destruct (Nat.lt_ge_cases 15 (List.length points)) as [L|L].
    - change 15%Z with (Z.of_nat 15). rewrite (index_ok _ 13 d0) by (rewrite cleaned_len; lia). rewrite (index_ok _ 15 d0) by lia.
      rewrite cleaned_hi by lia. reflexivity.
    - unfold np_index. assert (E : List.length (slice 1 14 points ++ slice_from 15 points) = (List.length points - 1)%nat \/ (List.length (slice 1 14 points ++ slice_from 15 points) <= 13)%nat).
      { unfold slice, slice_from. rewrite app_length, firstn_length, !skipn_length. lia. }
      assert (E' : (List.length (slice 1 14 points ++ slice_from 15 points) <= 13)%nat).
      { unfold slice, slice_from. rewrite app_length, firstn_length, !skipn_length. lia. }
      destruct (Z.ltb_spec (Z.of_nat 13) 0); [lia|]. destruct (Z.leb_spec 0 (Z.of_nat 13)); [|lia].
      destruct (Z.ltb_spec (Z.of_nat 13) (Z.of_nat (List.length (slice 1 14 points ++ slice_from 15 points)))); [lia|].
      destruct (Z.ltb_spec 15 0); [lia|]. destruct (Z.leb_spec 0 15); [|lia]. destruct (Z.ltb_spec 15 (Z.of_nat (List.length points))); [lia|]. reflexivity.
  Qed.
  Theorem cleanup_moves_0 (points : list P) : (15 <= List.length points)%nat ->
    np_index (fst (cylinder_cleanup points [])) (renum 0) = np_index (fst (cylinder_cleanup points [])) (Z.of_nat (List.length points) - 3).
  Proof.
    intros H. cbn [cylinder_cleanup fst]. change (renum 0) with (-1)%Z. unfold np_index. rewrite cleaned_len by assumption.
    destruct (Z.ltb_spec (-1) 0); [|lia]. destruct (Z.ltb_spec (Z.of_nat (List.length points) - 3) 0); [lia|].
    replace (-1 + Z.of_nat (List.length points - 2))%Z with (Z.of_nat (List.length points) - 3)%Z by lia. reflexivity.
  Qed.
End Cylinder.

(** Elements on the structured meshes *)
Local Open Scope R_scope.
Lemma rsum_const n (v : R) : sum_n (K := Rops) n (fun _ => v) = INR n * v.
Proof.
  induction n as [|n IH]; [cbn; ring|]. rewrite (sum_n_S Rops_ring), IH, S_INR. cbn. ring.
Qed.
Section QuadFe.
  Context (Nx Ny : nat) (Lx Ly : R) (HX : (0 < Nx)%nat) (HY : (0 < Ny)%nat).
  Let M := rectangle_mesh Nx Ny Lx Ly.
  Context (sqrtK : R -> R) (quad fquad : list (list Rops) * list Rops) (normals : nat -> nat -> Rops) (v : nat)
    (dir : option (list (location_fn Rops) * list nat * list (list Rops -> Rops))) (f : fe Rops).
  Hypothesis BUILT : fe_init (K := Rops) sqrtK "QUAD4" quad fquad normals (m_points M) (m_cells M) v 2 dir = Ok f.
  Lemma rect_mesh_ok : mesh_ok f.
  Proof.
    intros c Hc. rewrite (built_nodes _ _ _ _ _ _ _ _ _ _ _ BUILT), (built_points _ _ _ _ _ _ _ _ _ _ _ BUILT) in *.
    rewrite (built_cells _ _ _ _ _ _ _ _ _ _ _ BUILT) in *. pose proof (nth_In (m_cells M) [] Hc) as I. split.
    - apply rect_in in I as (i & j & Hi & Hj & ->); auto.
    - intros n Hn. exact (rect_valid Nx Ny Lx Ly HX HY _ n I Hn).
  Qed.
  Lemma rect_affine c : (c < Nx * Ny)%nat ->
    affine_cell (K := Rops) (/ 2) "QUAD4" (m_points M) f 2 c
      (fun i j => if (i =? j)%nat then (if (i =? 0)%nat then Lx / INR Nx else Ly / INR Ny) else 0)
      (fun i => if (i =? 0)%nat then INR (c / Ny) * (Lx / INR Nx) else INR (c mod Ny) * (Ly / INR Ny)).
  Proof.
    intros Hc a i Ha Hi. change (node_count "QUAD4") with 4%nat in Ha.
    rewrite (built_cells _ _ _ _ _ _ _ _ _ _ _ BUILT). destruct (div_mod_lt _ _ _ Hc) as (A & B & C).
    assert (E : nth c (m_cells M) [] = quad_of Ny (c / Ny) (c mod Ny)) by (rewrite C at 1; now apply rect_cell).
    rewrite E. destruct (rect_vertex Nx Ny Lx Ly HX HY (c / Ny) (c mod Ny) a A B Ha) as [V0 V1]. unfold vertex in V0, V1. fold M in V0, V1.
    unfold affine, sum_n, sum_over, sumK, ref_coord.
    destruct a as [|[|[|[|a]]]]; try lia; destruct i as [|[|i]]; try lia; (eapply eq_trans; [exact V0 || exact V1|]); rewrite ?plus_INR; cbn; lra.
  Qed.
  Theorem rect_JxW c q : (c < Nx * Ny)%nat ->
    get_JxW (m_points M) f c q = (Lx / INR Nx) * (Ly / INR Ny) * quad_weights f q.
  Proof.
    intros Hc. assert (H2 : / 2 + / 2 = 1) by lra.
    assert (P : List.length (m_points M) = List.length (points f)) by now rewrite (built_points _ _ _ _ _ _ _ _ _ _ _ BUILT).
    assert (Hc' : (c < List.length (cells f))%nat) by (rewrite (built_cells _ _ _ _ _ _ _ _ _ _ _ BUILT); unfold M; now rewrite rect_cells_len).
    rewrite (jxw_aff Rops_ring _ _ _ _ _ _ _ _ _ _ _ BUILT (or_introl eq_refl) rect_mesh_ok eq_refl (m_points M) P (/ 2) _ _ c H2 Hc' (rect_affine c Hc)).
    unfold det_dim, det2. cbn. ring.
  Qed.
  Lemma rect_element : built_element "QUAD4" 2 f.
  Proof. split; [left; reflexivity|]. split; [reflexivity|]. split; [exact rect_mesh_ok|]. repeat eexists. exact BUILT. Qed.
  Lemma rect_num_cells : num_cells f = (Nx * Ny)%nat.
  Proof. unfold num_cells. rewrite (built_cells _ _ _ _ _ _ _ _ _ _ _ BUILT). unfold M. now apply rect_cells_len. Qed.
  Theorem rect_integral : sum_n (K := Rops) (num_cells f) (fun c => sum_n (K := Rops) (num_quads f) (get_JxW (m_points M) f c))
    = Lx * Ly * sum_n (K := Rops) (num_quads f) (quad_weights f).
  Proof.
    unfold num_cells. rewrite (built_cells _ _ _ _ _ _ _ _ _ _ _ BUILT). unfold M at 1. rewrite rect_cells_len by assumption.
    rewrite (sum_n_ext _ _ (fun _ => (Lx / INR Nx * (Ly / INR Ny) * sum_n (K := Rops) (num_quads f) (quad_weights f)))).
    - rewrite rsum_const, mult_INR. match goal with |- ?a = ?b => change (@eq R a b) end. field. split; apply not_0_INR; lia.
    - intros c Hc. rewrite <- (sum_n_mul_l Rops_ring). apply sum_n_ext. intros q _. now apply rect_JxW.
  Qed.
End QuadFe.
Section HexFe.
  Context (Nx Ny Nz : nat) (Lx Ly Lz : R) (HX : (0 < Nx)%nat) (HY : (0 < Ny)%nat) (HZ : (0 < Nz)%nat).
  Let M := box_mesh Nx Ny Nz Lx Ly Lz.
  Context (sqrtK : R -> R) (quad fquad : list (list Rops) * list Rops) (normals : nat -> nat -> Rops) (v : nat)
    (dir : option (list (location_fn Rops) * list nat * list (list Rops -> Rops))) (f : fe Rops).
  Hypothesis BUILT : fe_init (K := Rops) sqrtK "HEX8" quad fquad normals (m_points M) (m_cells M) v 3 dir = Ok f.
  Lemma box_mesh_ok : mesh_ok f.
  Proof.
    intros c Hc. rewrite (built_nodes _ _ _ _ _ _ _ _ _ _ _ BUILT), (built_points _ _ _ _ _ _ _ _ _ _ _ BUILT) in *.
    rewrite (built_cells _ _ _ _ _ _ _ _ _ _ _ BUILT) in *. pose proof (nth_In (m_cells M) [] Hc) as I. split.
    - apply box_in in I as (i & j & k & Hi & Hj & Hk & ->); auto.
    - intros n Hn. exact (box_valid Nx Ny Nz Lx Ly Lz HX HY HZ _ n I Hn).
  Qed.
  Lemma box_affine c : (c < Nx * Ny * Nz)%nat ->
    affine_cell (K := Rops) (/ 2) "HEX8" (m_points M) f 3 c
      (fun i j => if (i =? j)%nat then match i with 0%nat => Lx / INR Nx | 1%nat => Ly / INR Ny | _ => Lz / INR Nz end else 0)
      (fun i => match i with 0%nat => INR (c / Nz / Ny) * (Lx / INR Nx) | 1%nat => INR ((c / Nz) mod Ny) * (Ly / INR Ny) | _ => INR (c mod Nz) * (Lz / INR Nz) end).
  Proof.
    intros Hc a i Ha Hi. change (node_count "HEX8") with 8%nat in Ha.
    rewrite (built_cells _ _ _ _ _ _ _ _ _ _ _ BUILT). destruct (div_mod_lt _ _ _ Hc) as (A & B & C). destruct (div_mod_lt _ _ _ A) as (A' & B' & C').
    assert (E : nth c (m_cells M) [] = hex_of Ny Nz (c / Nz / Ny) ((c / Nz) mod Ny) (c mod Nz)).
    { rewrite C at 1. rewrite C' at 1. now apply box_cell. }
    rewrite E. destruct (box_vertex Nx Ny Nz Lx Ly Lz HX HY HZ _ _ _ a A' B' B Ha) as (V0 & V1 & V2). unfold vertex in V0, V1, V2. fold M in V0, V1, V2.
    unfold affine, sum_n, sum_over, sumK, ref_coord.
    destruct a as [|[|[|[|[|[|[|[|a]]]]]]]]; try lia; destruct i as [|[|[|i]]]; try lia; (eapply eq_trans; [exact V0 || exact V1 || exact V2|]);
      rewrite ?plus_INR; cbn; lra.
  Qed.
  Theorem box_JxW c q : (c < Nx * Ny * Nz)%nat ->
    get_JxW (m_points M) f c q = (Lx / INR Nx) * (Ly / INR Ny) * (Lz / INR Nz) * quad_weights f q.
  Proof.
    intros Hc. assert (H2 : / 2 + / 2 = 1) by lra.
    assert (P : List.length (m_points M) = List.length (points f)) by now rewrite (built_points _ _ _ _ _ _ _ _ _ _ _ BUILT).
    assert (Hc' : (c < List.length (cells f))%nat) by (rewrite (built_cells _ _ _ _ _ _ _ _ _ _ _ BUILT); unfold M; now rewrite box_cells_len).
    assert (LAG : In "HEX8"%string nine_names) by (cbn; tauto).
    rewrite (jxw_aff Rops_ring _ _ _ _ _ _ _ _ _ _ _ BUILT LAG box_mesh_ok eq_refl (m_points M) P (/ 2) _ _ c H2 Hc' (box_affine c Hc)).
    unfold det_dim, det3. cbn. ring.
  Qed.
  Lemma box_element : built_element "HEX8" 3 f.
  Proof. split; [cbn; tauto|]. split; [reflexivity|]. split; [exact box_mesh_ok|]. repeat eexists. exact BUILT. Qed.
  Lemma box_num_cells : num_cells f = (Nx * Ny * Nz)%nat.
  Proof. unfold num_cells. rewrite (built_cells _ _ _ _ _ _ _ _ _ _ _ BUILT). unfold M. now apply box_cells_len. Qed.
  Theorem box_integral : sum_n (K := Rops) (num_cells f) (fun c => sum_n (K := Rops) (num_quads f) (get_JxW (m_points M) f c))
    = Lx * Ly * Lz * sum_n (K := Rops) (num_quads f) (quad_weights f).
  Proof.
    unfold num_cells. rewrite (built_cells _ _ _ _ _ _ _ _ _ _ _ BUILT). unfold M at 1. rewrite box_cells_len by assumption.
    rewrite (sum_n_ext _ _ (fun _ => (Lx / INR Nx * (Ly / INR Ny) * (Lz / INR Nz) * sum_n (K := Rops) (num_quads f) (quad_weights f)))).
    - rewrite rsum_const, !mult_INR. match goal with |- ?a = ?b => change (@eq R a b) end. field. repeat split; apply not_0_INR; lia.
    - intros c Hc. rewrite <- (sum_n_mul_l Rops_ring). apply sum_n_ext. intros q _. now apply box_JxW.
  Qed.
End HexFe.
