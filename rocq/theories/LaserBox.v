(** Lemmas for C101: the faces selected on the mesh of the script. *)
From Coq Require Import String Reals List Arith Lia Lra Bool Permutation Sorted.
From Verif Require Import Num Arr ArrFacts Fe Problem Basis SpecBasis SpecFe FeFacts GeomFacts
  SpecSelect SelectFacts Mesh SpecMesh MeshFacts MeshMain MeshFe ElasticFacts DynamicsStable ThermalFacts Init Lagrangian Laser SpecLaser LaserHeat.
Import ListNotations.
Open Scope nat_scope.

Lemma hex_faces sqrtK quad fquad normals pts cls v d dir (f : fe Rops) : fe_init sqrtK "HEX8" quad fquad normals pts cls v d dir = Ok f ->
  face_inds f = [[0; 1; 3; 2]; [0; 1; 4; 5]; [0; 3; 4; 7]; [1; 2; 5; 6]; [3; 2; 7; 6]; [4; 5; 7; 6]].
Proof.
  intros B. destruct (built_inv _ _ _ _ _ _ _ _ _ _ _ B) as (info & fi & [[ns vs] ws] & HI & HFI & HD & Hf).
  assert (E : face_inds f = fi) by now rewrite Hf. rewrite E. clear - HI HFI. vm_compute in HI. injection HI as <-. vm_compute in HFI. now injection HFI as <-.
Qed.
Lemma lex_nodup b : StronglySorted lex b -> NoDup b.
Proof.
  induction 1 as [|x l S IH F]; constructor; auto. intros I. rewrite Forall_forall in F. specialize (F x I). unfold lex in F. lia.
Qed.
Lemma nodup_app {A} (l m : list A) : NoDup l -> NoDup m -> (forall x, In x l -> ~ In x m) -> NoDup (l ++ m).
Proof.
  induction 1 as [|x l N D IH]; intros HM H; [exact HM|]. cbn. constructor.
  - rewrite in_app_iff. intros [I|I]; [tauto|]. exact (H x ltac:(now left) I).
  - apply IH; [exact HM|]. intros y I. apply H. now right.
Qed.
(** the faces of the column m: all of the top cell, and the upper one of the cell below *)
Definition column (m : nat) : list (nat * nat) := (5 * m + 3, 5) :: map (fun fc => (5 * m + 4, fc)) (seq 0 6).
Lemma column_in m c fc : In (c, fc) (column m) <-> c = 5 * m + 3 /\ fc = 5 \/ c = 5 * m + 4 /\ fc < 6.
Proof.
  unfold column. cbn [In]. rewrite in_map_iff. split.
  - intros [H|(x & H & I)]; injection H as <- <-; [now left|]. apply in_seq in I. right. lia.
  - intros [[-> ->]|[-> H]]; [now left|]. right. exists fc. split; [reflexivity|]. apply in_seq. lia.
Qed.
Lemma column_nodup m : NoDup (column m).
Proof.
  unfold column. constructor.
  - rewrite in_map_iff. intros (x & H & _). injection H. lia.
  - apply FinFun.Injective_map_NoDup; [|apply seq_NoDup]. intros a b H. now injection H.
Qed.
Lemma columns_in n c fc : In (c, fc) (flat_map column (seq 0 n)) <-> c < 5 * n /\ fc < 6 /\ (c mod 5 = 4 \/ c mod 5 = 3 /\ fc = 5).
Proof.
  rewrite in_flat_map. split.
  - intros (m & I & H). apply in_seq in I. apply column_in in H. destruct H as [[-> ->]|[-> H]]; split; try lia; split; try lia.
    + right. split; [|reflexivity]. rewrite Nat.add_comm, Nat.mul_comm, Nat.mod_add by lia. reflexivity.
    + left. rewrite Nat.add_comm, Nat.mul_comm, Nat.mod_add by lia. reflexivity.
  - intros (Hc & Hf & H). exists (c / 5). pose proof (Nat.div_mod c 5 ltac:(lia)) as D. split.
    + apply in_seq. split; [lia|]. apply Nat.div_lt_upper_bound; lia.
    + apply column_in. lia.
Qed.
Lemma columns_nodup n : NoDup (flat_map column (seq 0 n)).
Proof.
  induction n as [|n IH]; [constructor|]. rewrite seq_S, flat_map_app. cbn [Nat.add flat_map]. rewrite app_nil_r.
  apply nodup_app; [exact IH|apply column_nodup|]. intros [c fc] I J. apply columns_in in I. apply column_in in J. lia.
Qed.
Lemma columns_len n : length (flat_map column (seq 0 n)) = 7 * n.
Proof. induction n as [|n IH]; [reflexivity|]. rewrite seq_S, flat_map_app, app_length, IH. cbn. lia. Qed.

Section Box.
  Variables (Nx Ny : nat) (X Y : R) (HX : 0 < Nx) (HY : 0 < Ny).
  Let M := box_mesh Nx Ny 5 X Y Lz.
  Variables (sqrtK : Rops -> Rops) (quad fquad : list (list Rops) * list Rops) (normals : nat -> nat -> Rops) (v : nat)
    (dir : option (list (location_fn Rops) * list nat * list (list Rops -> Rops))) (f : fe Rops).
  Hypothesis BUILT : fe_init (K := Rops) sqrtK "HEX8" quad fquad normals (m_points M) (m_cells M) v 3 dir = Ok f.
  Lemma box_height c a : c < Nx * Ny * 5 -> a < 8 ->
    coord (nth (nth a (nth c (cells f) []) 0) (points f) []) 2 = (INR (c mod 5 + match a with 4 | 5 | 6 | 7 => 1 | _ => 0 end) / 10 ^ 5)%R.
  Proof.
    intros Hc Ha. rewrite (built_points _ _ _ _ _ _ _ _ _ _ _ BUILT), (built_cells _ _ _ _ _ _ _ _ _ _ _ BUILT).
    destruct (div_mod_lt _ _ _ Hc) as (A & B & C). destruct (div_mod_lt _ _ _ A) as (A' & B' & C').
    destruct (box_vertex Nx Ny 5 X Y Lz HX HY ltac:(lia) (c / 5 / Ny) ((c / 5) mod Ny) (c mod 5) a A' B' B Ha) as (_ & _ & V).
    rewrite <- (box_cell Nx Ny 5 X Y Lz HX HY ltac:(lia)) in V by assumption. rewrite <- C', <- C in V.
    unfold coord. etransitivity; [exact V|]. 
    assert (E : (match a with 4 | 5 | 6 | 7 => c mod 5 + 1 | _ => c mod 5 end) = c mod 5 + match a with 4 | 5 | 6 | 7 => 1 | _ => 0 end).
    { destruct a as [|[|[|[|[|[|[|[|a]]]]]]]]; lia. }
    rewrite E. unfold Lz. replace (INR 5) with 5%R by (cbn; lra). req. field.
  Qed.
  Lemma top_height c a : c < Nx * Ny * 5 -> a < 8 ->
    top (nth (nth a (nth c (cells f) []) 0) (points f) []) = (4 <=? c mod 5 + match a with 4 | 5 | 6 | 7 => 1 | _ => 0 end).
  Proof.
    intros Hc Ha. pose proof (box_height c a Hc Ha) as H. set (h := c mod 5 + _) in *.
    assert (HB : h <= 5). { assert (c mod 5 < 5) by (apply Nat.mod_upper_bound; lia). unfold h. destruct a as [|[|[|[|[|[|[|[|a]]]]]]]]; lia. }
    destruct (Nat.leb_spec 4 h) as [L|L].
    - apply top_upper. rewrite H. apply le_INR in L, HB. change (INR 4) with (1 + 1 + 1 + 1)%R in L. change (INR 5) with (1 + 1 + 1 + 1 + 1)%R in HB. lra.
    - apply top_lower. rewrite H. assert (L3 : h <= 3) by lia. apply le_INR in L3. change (INR 3) with (1 + 1 + 1)%R in L3. lra.
  Qed.
  Variable b0 : list (nat * nat).
  Hypothesis SEL : faces_selected f (Loc1 top) b0.
  Lemma box_cells5 : length (cells f) = Nx * Ny * 5.
  Proof. rewrite (built_cells _ _ _ _ _ _ _ _ _ _ _ BUILT). now apply box_cells_len; lia. Qed.
  Lemma top_faces c fc : In (c, fc) b0 <-> c < Nx * Ny * 5 /\ fc < 6 /\ (c mod 5 = 4 \/ c mod 5 = 3 /\ fc = 5).
  Proof.
    rewrite (proj2 SEL c fc), box_cells5. pose proof (hex_faces _ _ _ _ _ _ _ _ _ _ BUILT) as HF. rewrite HF. cbn [length].
    split; intros (Hc & Hf & H); (split; [exact Hc|]; split; [exact Hf|]).
    - unfold face_holds in H. rewrite HF in H. pose proof (Nat.mod_upper_bound c 5 ltac:(lia)) as MB.
      assert (TT : forall a, In a (nth fc (face_inds f) []) -> a < 8 -> 4 <= c mod 5 + match a with 4 | 5 | 6 | 7 => 1 | _ => 0 end).
      { intros a Ia La. apply Nat.leb_le. rewrite <- (top_height c a Hc La). rewrite HF in Ia. exact (H a Ia). }
      rewrite HF in TT. destruct fc as [|[|[|[|[|[|fc]]]]]]; try lia; cbn [nth] in TT; cbn [In] in TT.
      + left. specialize (TT 0 ltac:(tauto) ltac:(lia)). cbv iota in TT. lia.
      + left. specialize (TT 0 ltac:(tauto) ltac:(lia)). cbv iota in TT. lia.
      + left. specialize (TT 0 ltac:(tauto) ltac:(lia)). cbv iota in TT. lia.
      + left. specialize (TT 1 ltac:(tauto) ltac:(lia)). cbv iota in TT. lia.
      + left. specialize (TT 3 ltac:(tauto) ltac:(lia)). cbv iota in TT. lia.
      + specialize (TT 4 ltac:(tauto) ltac:(lia)). cbv iota in TT. lia.
    - intros a Ia. rewrite HF in Ia. cbv zeta. cbn [loc_holds].
      assert (La : a < 8). { destruct fc as [|[|[|[|[|[|fc]]]]]]; try lia; cbn [nth In] in Ia; lia. }
      etransitivity; [exact (top_height c a Hc La)|]. apply Nat.leb_le. destruct H as [->|[-> ->]]; [lia|]. cbv iota.
      cbn [nth In] in Ia. destruct Ia as [<-|[<-|[<-|[<-|[]]]]]; cbv iota; lia.
  Qed.
  Lemma top_count : length b0 = 7 * (Nx * Ny).
  Proof.
    rewrite <- columns_len. apply Permutation_length, NoDup_Permutation; [apply lex_nodup, SEL|apply columns_nodup|].
    intros [c fc]. rewrite top_faces, columns_in. lia.
  Qed.
  (** the faces on the plane z = Lz *)
  Lemma true_top c fc : c < Nx * Ny * 5 -> fc < 6 ->
    (forall a, In a (nth fc (face_inds f) []) -> coord (nth (nth a (nth c (cells f) []) 0) (points f) []) 2 = Lz) <-> c mod 5 = 4 /\ fc = 5.
  Proof.
    intros Hc Hf. pose proof (hex_faces _ _ _ _ _ _ _ _ _ _ BUILT) as HF. rewrite HF.
    assert (EQ : forall a, a < 8 -> coord (nth (nth a (nth c (cells f) []) 0) (points f) []) 2 = Lz <-> c mod 5 + match a with 4 | 5 | 6 | 7 => 1 | _ => 0 end = 5).
    { intros a Ha. rewrite (box_height c a Hc Ha). split.
      - intros E. apply INR_eq. change (INR 5) with (1 + 1 + 1 + 1 + 1)%R. unfold Lz in E. lra.
      - intros ->. unfold Lz. change (INR 5) with (1 + 1 + 1 + 1 + 1)%R. lra. }
    pose proof (Nat.mod_upper_bound c 5 ltac:(lia)) as MB. split.
    - intros H. destruct fc as [|[|[|[|[|[|fc]]]]]]; try lia; cbn [nth In] in H.
      + specialize (H 0 ltac:(tauto)). apply EQ in H; [cbv iota in H; lia|lia].
      + specialize (H 0 ltac:(tauto)). apply EQ in H; [cbv iota in H; lia|lia].
      + specialize (H 0 ltac:(tauto)). apply EQ in H; [cbv iota in H; lia|lia].
      + specialize (H 1 ltac:(tauto)). apply EQ in H; [cbv iota in H; lia|lia].
      + specialize (H 3 ltac:(tauto)). apply EQ in H; [cbv iota in H; lia|lia].
      + specialize (H 4 ltac:(tauto)). apply EQ in H; [cbv iota in H; lia|lia].
    - intros [E ->]. cbn [nth In]. intros a [<-|[<-|[<-|[<-|[]]]]]; apply EQ; cbv iota; lia.
  Qed.

  (** the same facet of every cell has the same measure, and cells of the same column the same horizontal positions *)
  Let J : nat -> nat -> R := fun i j => if (i =? j)%nat then match i with 0%nat => (X / INR Nx)%R | 1%nat => (Y / INR Ny)%R | _ => (Lz / INR 5)%R end else 0%R.
  Lemma box_face_jac c fc q i j : c < Nx * Ny * 5 -> i < 3 -> j < 3 -> face_jacobian (K := Rops) (m_points M) f c fc q i j = J i j.
  Proof.
    intros Hc Hi Hj. eapply (face_jac_aff Rops_ring) with (half := (/ 2)%R) (s := "HEX8"%string); [exact BUILT|cbn; tauto|..];
      first [exact Hi|exact Hj|reflexivity|exact (box_mesh_ok Nx Ny 5 X Y Lz HX HY ltac:(lia) _ _ _ _ _ _ f BUILT)|now rewrite (built_points _ _ _ _ _ _ _ _ _ _ _ BUILT)|now rewrite box_cells5
            |exact (box_affine Nx Ny 5 X Y Lz HX HY ltac:(lia) _ _ _ _ _ _ f BUILT c Hc)|change (@eq R (/ 2 + / 2)%R 1%R); lra].
  Qed.
  Lemma box_dim : dim f = 3. Proof. exact (built_dim _ _ _ _ _ _ _ _ _ _ _ BUILT). Qed.
  Lemma same_scale c c' fc q : c < Nx * Ny * 5 -> c' < Nx * Ny * 5 ->
    nanson_scale (K := Rops) sqrtK (m_points M) f c fc q = nanson_scale (K := Rops) sqrtK (m_points M) f c' fc q.
  Proof.
    intros Hc Hc'. unfold nanson_scale. cbv zeta. rewrite box_dim.
    assert (EJ : forall i j, i < 3 -> j < 3 -> face_jacobian (K := Rops) (m_points M) f c fc q i j = face_jacobian (K := Rops) (m_points M) f c' fc q i j).
    { intros i j Hi Hj. now rewrite !box_face_jac by assumption. }
    rewrite (det_ext 3 _ _ EJ). f_equal. f_equal. f_equal. apply sum_n_ext. intros j Hj.
    rewrite (sum_n_ext 3 _ (fun i => mul (face_normals f fc i) (inv_mat (K := Rops) 3 (face_jacobian (K := Rops) (m_points M) f c' fc q) i j))); [reflexivity|].
    intros i Hi. f_equal. now apply inv_mat_ext.
  Qed.
  Lemma scale_nonneg c fc q : c < Nx * Ny * 5 -> (0 < X)%R -> (0 < Y)%R -> (forall x, 0 <= sqrtK x)%R -> (0 <= face_quad_weights f fc q)%R ->
    (0 <= nanson_scale (K := Rops) sqrtK (m_points M) f c fc q)%R.
  Proof.
    intros Hc PX PY PS PW. unfold nanson_scale. cbv zeta. rewrite box_dim.
    rewrite (det_ext 3 _ J) by (intros; now apply box_face_jac).
    assert (D : (0 <= det (K := Rops) 3 J)%R).
    { assert (0 < X / INR Nx)%R by (apply Rdiv_lt_0_compat; [lra|now apply lt_0_INR]). assert (0 < Y / INR Ny)%R by (apply Rdiv_lt_0_compat; [lra|now apply lt_0_INR]).
      assert (0 < Lz / INR 5)%R by (apply Rdiv_lt_0_compat; [unfold Lz; lra|apply lt_0_INR; lia]).
      replace (det (K := Rops) 3 J) with (X / INR Nx * (Y / INR Ny) * (Lz / INR 5))%R; [apply Rlt_le, Rmult_lt_0_compat; [apply Rmult_lt_0_compat; assumption|assumption]|].
      rewrite (det_dim_ok Rops_ring) by auto. unfold det_dim, det3, J. cbn. ring. }
    cbn [mul Rops]. apply Rmult_le_pos; [apply Rmult_le_pos; [apply PS|exact D]|exact PW].
  Qed.
  Lemma column_xy m fc q i : m < Nx * Ny -> i < 2 ->
    get_physical_surface_quad_points (K := Rops) (m_points M) f (5 * m + 3) fc q i = get_physical_surface_quad_points (K := Rops) (m_points M) f (5 * m + 4) fc q i.
  Proof.
    intros Hm Hi. unfold get_physical_surface_quad_points. apply sum_n_ext. intros a Ha. f_equal.
    assert (MO : mesh_ok f) by exact (box_mesh_ok Nx Ny 5 X Y Lz HX HY ltac:(lia) _ _ _ _ _ _ f BUILT).
    assert (EP : points f = m_points M) by exact (built_points _ _ _ _ _ _ _ _ _ _ _ BUILT).
    assert (LA : a < 8) by (rewrite (built_nodes _ _ _ _ _ _ _ _ _ _ _ BUILT) in Ha; exact Ha).
    rewrite <- EP. rewrite !(coo_vx "HEX8" 3 f MO eq_refl (points f) eq_refl) by (auto; rewrite box_cells5; lia).
    assert (V : forall k, k < 5 -> vx (points f) f (5 * m + k) a i = affine (K := Rops) 3 (fun i j => if (i =? j)%nat then match i with 0%nat => X / INR Nx | 1%nat => Y / INR Ny | _ => Lz / INR 5 end else 0)%R
      (fun i => match i with 0%nat => INR (m / Ny) * (X / INR Nx) | 1%nat => INR (m mod Ny) * (Y / INR Ny) | _ => INR k * (Lz / INR 5) end)%R (fun k => ref_coord (/ 2)%R "HEX8" a k) i).
    { intros k Hk. rewrite EP. etransitivity; [exact (box_affine Nx Ny 5 X Y Lz HX HY ltac:(lia) _ _ _ _ _ _ f BUILT (5 * m + k) ltac:(lia) a i LA ltac:(lia))|].
      assert (E1 : (5 * m + k) / 5 = m) by (symmetry; apply (Nat.div_unique _ 5 m k); lia). assert (E2 : (5 * m + k) mod 5 = k) by (symmetry; apply (Nat.mod_unique _ 5 m k); lia).
      now rewrite E1, E2. }
    etransitivity; [exact (V 3 ltac:(lia))|]. etransitivity; [|symmetry; exact (V 4 ltac:(lia))]. unfold affine.
    destruct i as [|[|i]]; [reflexivity|reflexivity|lia].
  Qed.
  (** a heat input that depends on the horizontal position only is at least doubled *)
  Lemma doubled (g : R -> R -> R) : (0 < X)%R -> (0 < Y)%R -> (forall x, 0 <= sqrtK x)%R -> (forall fc q, 0 <= face_quad_weights f fc q)%R -> (forall x y, 0 <= g x y)%R ->
    let G := fun c fc q => g (get_physical_surface_quad_points (K := Rops) (m_points M) f c fc q 0) (get_physical_surface_quad_points (K := Rops) (m_points M) f c fc q 1) in
    (2 * over_list sqrtK f (m_points M) (map (fun m => (5 * m + 4, 5)%nat) (seq 0 (Nx * Ny))) G <= over_list sqrtK f (m_points M) b0 G)%R.
  Proof.
    intros PX PY PS PW PG G. unfold over_list. set (h := fun x : nat * nat => sum_n (K := Rops) (num_face_quads f) (fun q => (G (fst x) (snd x) q * nanson_scale sqrtK (m_points M) f (fst x) (snd x) q)%R)).
    assert (PM : Permutation b0 (flat_map column (seq 0 (Nx * Ny)))).
    { apply NoDup_Permutation; [apply lex_nodup, SEL|apply columns_nodup|]. intros [c fc]. rewrite top_faces, columns_in. lia. }
    rewrite (sum_over_perm Rops_ring _ _ h PM), (sum_over_flat_map (K := Rops) Rops_ring), (sum_over_map (K := Rops)).
    assert (HN : forall c fc, c < Nx * Ny * 5 -> (0 <= h (c, fc))%R).
    { intros c fc Hc. unfold h. cbn [fst snd]. apply Rsum_nonneg. intros q Hq. apply Rmult_le_pos; [apply PG|]. apply scale_nonneg; auto. }
    assert (HE : forall m, m < Nx * Ny -> h (5 * m + 3, 5) = h (5 * m + 4, 5)).
    { intros m Hm. unfold h. cbn [fst snd]. apply sum_n_ext. intros q Hq. unfold G. rewrite !column_xy by lia. rewrite (same_scale (5 * m + 3) (5 * m + 4)) by lia. reflexivity. }
    pose proof (Rsum_mul (Nx * Ny) 2%R (fun m => h (5 * m + 4, 5))) as RM.
    apply Rle_trans with (sum_n (K := Rops) (Nx * Ny) (fun m => (2 * h (5 * m + 4, 5)%nat)%R)).
    - right. symmetry. exact RM.
    - apply Rsum_le. intros m Hm. unfold column. rewrite (sum_over_cons (K := Rops)), (sum_over_map (K := Rops)).
      rewrite (HE m Hm). cbn [seq]. rewrite !(sum_over_cons (K := Rops)), (sum_over_nil (K := Rops)). cbn [add zero Rops].
      pose proof (HN (5 * m + 4) 0 ltac:(lia)). pose proof (HN (5 * m + 4) 1 ltac:(lia)). pose proof (HN (5 * m + 4) 2 ltac:(lia)). pose proof (HN (5 * m + 4) 3 ltac:(lia)).
      pose proof (HN (5 * m + 4) 4 ltac:(lia)). lra.
  Qed.
End Box.
