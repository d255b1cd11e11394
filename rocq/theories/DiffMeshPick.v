(** Lemmas for C104: the chosen node and the numbers of faces. *)
From Coq Require Import Reals String List Arith Lia Lra Psatz Bool Sorting.Sorted.
From Verif Require Import Num Arr ArrFacts Fe Problem SpecAssembly BatchFacts ProblemFacts Basis SpecBasis SpecFe FeFacts GeomFacts SolverBc SpecBc BcFacts SpecSelect SelectFacts SpecWeak
  ElasticFacts Mesh SpecMesh MeshFacts MeshMain MeshFe Init SpecInit InitFacts Lagrangian LaserHeat DiffMesh SpecDiffMesh DiffMeshMain DiffMeshRun DiffMeshEnd.
Import ListNotations.
Local Open Scope R_scope.

Lemma close_iff x : isclose x 0 (/ 10 ^ 3) = true <-> Rabs x <= / 10 ^ 3.
Proof.
  destruct (isclose x 0 (/ 10 ^ 3)) eqn:E; split; intros H; try easy.
  - destruct (Rle_lt_dec (Rabs x) (/ 10 ^ 3)) as [|L]; [assumption|]. rewrite close_false in E; [discriminate|]. rewrite Rabs_R0, Rminus_0_r. lra.
  - assert (C : isclose x 0 (/ 10 ^ 3) = true) by (apply isclose_true; rewrite Rabs_R0, Rminus_0_r; lra). rewrite C in E. discriminate.
Qed.
Lemma fd_distance_at x y : fd_distance [x; y] = (if isclose y 0 (/ 10 ^ 3) then if Rlt_dec (/ 10 ^ 4) x then if Rlt_dec x (1 - / 10 ^ 4) then Some ((x - 35 / 100) ^ 2 + y ^ 2) else None else None else None).
Proof. unfold fd_distance. cbn [nth]. destruct (isclose y 0 _), (Rlt_dec _ x), (Rlt_dec x _); cbn [andb]; try reflexivity. now rewrite Rminus_0_r. Qed.

Section Pick.
  Variables (Nx Ny : nat) (HX : (1 < Nx)%nat) (HY : (0 < Ny)%nat).
  Let M := rectangle_mesh Nx Ny 1 1.
  Let P0 : list (list Rops) := m_points M.
  Let HX0 : (0 < Nx)%nat. Proof. lia. Qed.
  Lemma pk_point i j : (i <= Nx)%nat -> (j <= Ny)%nat -> nth (i * (Ny + 1) + j) P0 [] = [INR i / INR Nx; INR j / INR Ny].
  Proof. intros Hi Hj. etransitivity; [exact (rect_point Nx Ny 1 1 HX0 HY i j Hi Hj)|]. f_equal; [req; field; apply not_0_INR; lia|]. f_equal. req. field. apply not_0_INR. lia. Qed.
  Lemma pk_in i j : (i <= Nx)%nat -> (j <= Ny)%nat -> (i * (Ny + 1) + j < length P0)%nat.
  Proof. intros. unfold P0, M. rewrite rect_points_len by (assumption || exact HX0). nia. Qed.
  Definition inside i : Prop := / 10 ^ 4 < INR i / INR Nx < 1 - / 10 ^ 4.
  Lemma pk_row i j : (i <= Nx)%nat -> (j <= Ny)%nat -> fd_distance (nth (i * (Ny + 1) + j) P0 []) =
    if isclose (INR j / INR Ny) 0 (/ 10 ^ 3) then if Rlt_dec (/ 10 ^ 4) (INR i / INR Nx) then if Rlt_dec (INR i / INR Nx) (1 - / 10 ^ 4) then Some ((INR i / INR Nx - 35 / 100) ^ 2 + (INR j / INR Ny) ^ 2) else None else None else None.
  Proof. intros Hi Hj. rewrite pk_point by assumption. apply fd_distance_at. Qed.
  Lemma pk_first i : (i <= Nx)%nat -> inside i -> fd_distance (nth (i * (Ny + 1)) P0 []) = Some ((INR i / INR Nx - 35 / 100) ^ 2).
  Proof.
    intros Hi (A & B). rewrite <- (Nat.add_0_r (i * (Ny + 1))). rewrite pk_row by lia. cbn [INR]. replace (0 / INR Ny) with 0 by (field; apply not_0_INR; lia).
    assert (isclose 0 0 (/ 10 ^ 3) = true) as -> by (apply close_iff; rewrite Rabs_R0; lra). destruct (Rlt_dec _ _); [|lra]. destruct (Rlt_dec _ _); [|lra]. f_equal. ring.
  Qed.
  Lemma pk_middle : exists i, (i <= Nx)%nat /\ inside i.
  Proof.
    exists (Nx / 2)%nat. assert (A : (2 * (Nx / 2) <= Nx)%nat) by (apply Nat.mul_div_le; lia). assert (B : (Nx <= 3 * (Nx / 2))%nat).
    { pose proof (Nat.div_mod Nx 2 ltac:(lia)). pose proof (Nat.mod_upper_bound Nx 2 ltac:(lia)). assert (1 <= Nx / 2)%nat by (apply Nat.div_le_lower_bound; lia). lia. }
    split; [lia|]. apply le_INR in A, B. rewrite mult_INR in A, B. cbn [INR] in A, B. pose proof (lt_0_INR Nx HX0) as P. unfold inside. set (a := INR (Nx / 2)) in *. set (n := INR Nx) in *. clearbody a n.
    assert (A' : a / n <= / 2). { apply Rmult_le_reg_r with n; [exact P|]. unfold Rdiv. rewrite Rmult_assoc, Rinv_l by lra. lra. }
    assert (B' : / 3 <= a / n). { apply Rmult_le_reg_r with n; [exact P|]. unfold Rdiv. rewrite Rmult_assoc, Rinv_l by lra. lra. }
    lra.
  Qed.
  Lemma sq_abs a b : a ^ 2 <= b ^ 2 -> Rabs a <= Rabs b.
  Proof. intros H. apply Rsqr_le_abs_0. unfold Rsqr. lra. Qed.
  Lemma pick_spec r : pick_fd_node_on_neumann_edge P0 = Ok r ->
    exists i, r = (i * (Ny + 1))%nat /\ (0 < i < Nx)%nat /\ inside i /\ forall k, (k <= Nx)%nat -> inside k -> Rabs (INR i / INR Nx - 35 / 100) <= Rabs (INR k / INR Nx - 35 / 100).
  Proof.
    intros H. apply argmin_spec in H as (Hr & MIN). rewrite map_length in Hr, MIN. destruct (rect_point_inv Nx Ny 1 1 HX0 HY r Hr) as (i & j & Hi & Hj & ->).
    assert (G : forall k, (k < length P0)%nat -> nth k (map fd_distance P0) None = fd_distance (nth k P0 [])).
    { intros k Hk. etransitivity; [apply (nth_indep _ None (fd_distance [])); rewrite map_length; exact Hk|apply map_nth]. }
    assert (MIN' : forall k, (k <= Nx)%nat -> inside k -> less (fd_distance (nth (k * (Ny + 1)) P0 [])) (fd_distance (nth (i * (Ny + 1) + j) P0 [])) = false).
    { intros k Hk _. assert (LK : (k * (Ny + 1) < length P0)%nat) by (rewrite <- (Nat.add_0_r (k * (Ny + 1))); apply pk_in; lia). rewrite <- !G by (exact Hr || exact LK). apply MIN. exact LK. }
    destruct pk_middle as (m & Hm & Im). pose proof (MIN' m Hm Im) as MM. rewrite (pk_first m Hm Im), (pk_row i j Hi Hj) in MM.
    destruct (isclose (INR j / INR Ny) 0 (/ 10 ^ 3)) eqn:EJ; [|discriminate]. destruct (Rlt_dec (/ 10 ^ 4) (INR i / INR Nx)) as [I1|]; [|discriminate]. destruct (Rlt_dec (INR i / INR Nx) (1 - / 10 ^ 4)) as [I2|]; [|discriminate].
    clear MM. assert (II : inside i) by (split; assumption).
    assert (KK : forall k, (k <= Nx)%nat -> inside k -> (INR i / INR Nx - 35 / 100) ^ 2 + (INR j / INR Ny) ^ 2 <= (INR k / INR Nx - 35 / 100) ^ 2).
    { intros k Hk Ik. pose proof (MIN' k Hk Ik) as MK. rewrite (pk_first k Hk Ik), (pk_row i j Hi Hj), EJ in MK. destruct (Rlt_dec _ (INR i / _)) in MK; [|contradiction]. destruct (Rlt_dec (INR i / _) _) in MK; [|contradiction].
      cbn [less] in MK. destruct (Rlt_dec _ _) in MK; [discriminate|lra]. }
    assert (J0 : j = 0%nat).
    { pose proof (KK i Hi II) as K. destruct (Nat.eq_dec j 0) as [|NJ]; [assumption|]. exfalso. assert (0 < INR j / INR Ny) by (apply Rdiv_lt_0_compat; apply lt_0_INR; lia). pose proof (pow_lt _ 2 H). lra. }
    subst j. exists i. split; [apply Nat.add_0_r|]. split; [|split; [exact II|]].
    - destruct II as (A & B). pose proof (lt_0_INR Nx HX0) as P. split.
      + destruct i; [|lia]. cbn [INR] in A. unfold Rdiv in A. rewrite Rmult_0_l in A. lra.
      + destruct (Nat.eq_dec i Nx) as [->|]; [|lia]. unfold Rdiv in B. rewrite Rinv_r in B by lra. lra.
    - intros k Hk Ik. apply sq_abs. pose proof (KK k Hk Ik) as K. cbn [INR] in K. replace (0 / INR Ny) with 0 in K by (field; apply not_0_INR; lia). lra.
  Qed.
  Lemma pick_ok : exists r, pick_fd_node_on_neumann_edge P0 = Ok r.
  Proof. unfold pick_fd_node_on_neumann_edge. assert (L : (0 < length P0)%nat) by (apply (pk_in 0 0); lia). destruct P0 as [|x l]; [cbn in L; lia|]. cbn. eauto. Qed.
End Pick.
(** with a single column of cells there is no node away from the corners; the first node is taken *)
Lemma argmin_none l : Forall (fun x : option R => x = None) l -> forall i n, argmin_from (i, None) n l = i.
Proof. induction 1 as [|x l -> H IH]; intros; cbn; [reflexivity|apply IH]. Qed.
Lemma pick_narrow Ny : (0 < Ny)%nat -> pick_fd_node_on_neumann_edge (m_points (rectangle_mesh 1 Ny 1 1)) = Ok 0%nat.
Proof.
  intros HY. unfold pick_fd_node_on_neumann_edge. set (P0 := m_points (rectangle_mesh 1 Ny 1 1)).
  assert (F : Forall (fun x : option R => x = None) (map fd_distance P0)).
  { apply Forall_forall. intros x Hx. apply in_map_iff in Hx as (z & <- & Hz). apply (In_nth _ _ []) in Hz as (n & Hn & <-). destruct (rect_point_inv 1 Ny 1 1 ltac:(lia) HY n Hn) as (i & j & Hi & Hj & ->).
    assert (E : nth (i * (Ny + 1) + j) P0 [] = [INR i * 1 / INR 1; INR j * 1 / INR Ny]) by exact (rect_point 1 Ny 1 1 ltac:(lia) HY i j Hi Hj). etransitivity; [exact (f_equal fd_distance E)|]. rewrite fd_distance_at. destruct (isclose _ _ _); [|reflexivity].
    destruct i as [|[|i]]; [..|lia]; cbn [INR]; destruct (Rlt_dec _ _) as [A|]; try reflexivity; destruct (Rlt_dec _ _) as [B|]; try reflexivity; exfalso; lra. }
  assert (L : (0 < length P0)%nat) by (unfold P0; rewrite rect_points_len by lia; nia). destruct P0 as [|x l]; [cbn in L; lia|]. cbn [map argmin] in *. inversion F as [|? ? E F']. subst. rewrite E. now rewrite argmin_none.
Qed.

(** ** the number of faces *)
Section Count.
  Variables (Nx Ny : nat) (HX : (0 < Nx)%nat) (HY : (0 < Ny)%nat).
  Let M := rectangle_mesh Nx Ny 1 1.
  Let P0 : list (list Rops) := m_points M.
  Variable i0 : nat.
  Hypothesis I0 : (i0 < Nx)%nat.
  Let n0 := (i0 * (Ny + 1))%nat.
  Variables (quad fquad : list (list Rops) * list Rops) (normals : nat -> nat -> Rops).
  Let mk := new_problem quad fquad normals (m_cells M).
  Lemma qf : forall pts f, fe_init sqrt "QUAD4" quad fquad normals pts (m_cells M) 1 2 (Some dm_bc) = Ok f -> In [0; 1]%nat (face_inds f).
  Proof.
    intros pts f B. destruct (built_inv _ _ _ _ _ _ _ _ _ _ _ B) as (info & fi & [[ns vs] ws] & HI & HFI & HD & Hf). assert (E : face_inds f = fi) by now rewrite Hf. rewrite E. clear - HI HFI.
    vm_compute in HI. injection HI as <-. vm_compute in HFI. injection HFI as <-. cbn. tauto.
  Qed.
  Lemma mk_faces pts p : length pts = length P0 -> mk pts = Ok p -> exists f b, fe_init sqrt "QUAD4" quad fquad normals pts (m_cells M) 1 2 (Some dm_bc) = Ok f /\ boundary_inds_list p = [b] /\ faces_selected f (Loc1 dm_bottom) b.
  Proof.
    intros L B. destruct (problem_inv _ _ _ _ _ _ _ _ _ _ _ _ _ B) as (f & EF & EB & EP & _).
    assert (MO : mesh_ok f).
    { assert (RC : forall c, In c (m_cells M) -> length c = num_nodes f /\ forall n, In n c -> (n < length (points f))%nat).
      { intros c Hc. rewrite (built_points _ _ _ _ _ _ _ _ _ _ _ EF), L, (built_nodes _ _ _ _ _ _ _ _ _ _ _ EF). split; [|intros n Hn; exact (cells_ok Nx Ny HX HY c n Hc Hn)].
        apply rect_in in Hc as (i & k & Hi & Hk & ->); auto. }
      intros c Hc. rewrite (built_cells _ _ _ _ _ _ _ _ _ _ _ EF) in Hc |- *. exact (RC _ (nth_In _ [] Hc)). }
    destruct (boundary_spec f [Loc1 dm_bottom] (built_faces_ok _ _ _ _ _ _ _ _ _ _ _ EF MO)) as (_ & S). destruct (S eq_refl) as (bs & E & LB & SEL). rewrite E in EB. injection EB as EB.
    destruct bs as [|b [|]]; try discriminate. exists f, b. split; [exact EF|]. split; [now rewrite <- EB|]. exact (SEL 0%nat ltac:(cbn; lia)).
  Qed.
  Lemma lex_nodup b : StronglySorted lex b -> NoDup b.
  Proof.
    induction 1 as [|x l _ IH F]; constructor; [|exact IH]. intros I. rewrite Forall_forall in F. destruct (F x I) as [A|(_ & A)]; lia.
  Qed.
  Lemma fewer_faces t p p' b b' : / 10 ^ 3 < Rabs t -> mk P0 = Ok p -> mk (moved P0 n0 1 t) = Ok p' -> boundary_inds_list p = [b] -> boundary_inds_list p' = [b'] -> (length b' < length b)%nat.
  Proof.
    intros T B B' Eb Eb'. destruct (mk_faces P0 p eq_refl B) as (f & b1 & EF & E1 & (S & SEL)). rewrite Eb in E1. injection E1 as <-.
    destruct (mk_faces (moved P0 n0 1 t) p' (moved_length _ _ _ _) B') as (f' & b2 & EF' & E2 & (S' & SEL')). rewrite Eb' in E2. injection E2 as <-.
    pose proof (built_points _ _ _ _ _ _ _ _ _ _ _ EF) as PE. pose proof (built_points _ _ _ _ _ _ _ _ _ _ _ EF') as PE'. pose proof (built_cells _ _ _ _ _ _ _ _ _ _ _ EF) as CE. pose proof (built_cells _ _ _ _ _ _ _ _ _ _ _ EF') as CE'.
    assert (FI : face_inds f' = face_inds f).
    { destruct (built_inv _ _ _ _ _ _ _ _ _ _ _ EF) as (info & fi & [[ns vs] ws] & HI & HFI & HD & Hf). destruct (built_inv _ _ _ _ _ _ _ _ _ _ _ EF') as (info' & fi' & [[ns' vs'] ws'] & HI' & HFI' & HD' & Hf').
      rewrite HI in HI'. injection HI' as <-. rewrite HFI in HFI'. injection HFI' as <-. rewrite Hf, Hf'. reflexivity. }
    assert (BOT : dm_bottom (nth n0 (moved P0 n0 1 t) []) = false).
    { unfold n0, P0, M. rewrite (n0_moved Nx Ny HX HY i0 ltac:(lia)). unfold dm_bottom. cbn [nth]. apply close_false. rewrite Rabs_R0, Rminus_0_r. lra. }
    assert (W : forall n, dm_bottom (nth n (moved P0 n0 1 t) []) = true -> n <> n0 /\ dm_bottom (nth n P0 []) = true).
    { intros n Hn. assert (D : n <> n0) by (intros ->; rewrite BOT in Hn; discriminate). split; [exact D|]. now rewrite moved_other in Hn by exact D. }
    assert (INC : incl b' b).
    { intros (c, fc) H. apply SEL' in H as (A1 & A2 & A3). apply SEL. rewrite CE, <- CE', <- FI. split; [exact A1|]. split; [exact A2|]. intros a Ha. specialize (A3 a). rewrite FI in A3. specialize (A3 Ha). cbv zeta in A3 |- *.
      rewrite CE', PE' in A3. rewrite CE, PE. cbn [loc_holds] in A3 |- *. apply W in A3. tauto. }
    destruct (In_nth _ _ [] (qf _ _ EF)) as (fc & Hfc & EFc). pose (c0 := (i0 * Ny + 0)%nat).
    assert (CELL : nth c0 (m_cells M) [] = quad_of Ny i0 0) by (unfold c0, M; apply (rect_cell Nx Ny 1 1 HX HY); lia).
    assert (LC : (c0 < length (m_cells M))%nat). { destruct (Nat.lt_ge_cases c0 (length (m_cells M))) as [|G]; [assumption|]. rewrite nth_overflow in CELL by exact G. discriminate. }
    assert (IN : In (c0, fc) b).
    { apply SEL. rewrite CE. split; [exact LC|]. split; [exact Hfc|]. intros a Ha. rewrite EFc in Ha. rewrite CE, PE, CELL. cbn [loc_holds]. unfold dm_bottom, quad_of.
      destruct Ha as [<-|[<-|[]]]; cbn [nth]; rewrite (rect_point Nx Ny 1 1 HX HY) by lia; cbn [nth INR]; apply close_iff; unfold Rdiv; rewrite !Rmult_0_l, Rabs_R0; lra. }
    assert (NIN : ~ In (c0, fc) b').
    { intros H. apply SEL' in H as (_ & _ & A). specialize (A 0%nat). rewrite FI, EFc in A. specialize (A (or_introl eq_refl)). cbv zeta in A. rewrite CE', PE', CELL in A. unfold quad_of in A. cbn [nth loc_holds] in A.
      apply W in A. apply (proj1 A). unfold n0. lia. }
    assert (ND : NoDup ((c0, fc) :: b')) by (constructor; [exact NIN|now apply lex_nodup]).
    apply (NoDup_incl_length ND). intros z [<-|Hz]; [exact IN|now apply INC].
  Qed.
End Count.
