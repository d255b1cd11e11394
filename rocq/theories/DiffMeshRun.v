(** Lemmas for C104: the unit square with one node of its lower edge moved. *)
From Coq Require Import Reals String List Arith Lia Lra Psatz Bool.
From Verif Require Import Num Arr ArrFacts Fe Problem SpecAssembly BatchFacts ProblemFacts Basis SpecBasis SpecFe FeFacts GeomFacts SolverBc SpecBc BcFacts SpecSelect SelectFacts SpecWeak KernelFacts SpecEnergy EnergyFacts
  Elastic ElasticFacts SpecElastic ElasticMain SpecSolve LinAlg SpecWave SpecLinear SpecPosed AffineFacts FieldFacts Mesh SpecMesh MeshFacts MeshMain MeshFe PosedMain SpecMonotone MonoFacts MonoMain MonoUse
  Init SpecInit InitFacts Lagrangian LaserHeat DiffMesh SpecDiffMesh DiffMeshMain DiffMeshUniq.
Import ListNotations.
Local Open Scope R_scope.

Lemma close_false x y a : a + / 10 ^ 5 * Rabs y < Rabs (x - y) -> isclose x y a = false.
Proof. intros H. apply not_true_is_false. intros X. apply isclose_true in X. lra. Qed.
Lemma moved_length (pts : list (list Rops)) n a t : length (moved pts n a t) = length pts.
Proof. unfold moved. revert n. induction pts as [|x l IH]; intros [|n]; cbn; auto. Qed.
Lemma moved_other (pts : list (list Rops)) n a t m : m <> n -> nth m (moved pts n a t) [] = nth m pts [].
Proof. unfold moved. revert n m. induction pts as [|x l IH]; intros [|n] [|m] H; cbn; auto; lia. Qed.
Lemma moved_same (pts : list (list Rops)) n a t : (n < length pts)%nat -> nth n (moved pts n a t) [] = upd_nth a (fun x => x + t) (nth n pts []).
Proof. unfold moved. revert n. induction pts as [|x l IH]; intros [|n] H; cbn in *; auto; try lia. apply IH. lia. Qed.
Lemma moved_zero (pts : list (list Rops)) n a : moved pts n a 0 = pts.
Proof.
  unfold moved. revert n. induction pts as [|x l IH]; intros [|n]; cbn; auto; f_equal; auto.
  clear. revert a. induction x as [|y x IH]; intros [|a]; cbn; auto; f_equal; auto. apply Rplus_0_r.
Qed.

Section Square.
  Variables (Nx Ny : nat) (HX : (0 < Nx)%nat) (HY : (0 < Ny)%nat).
  Let M := rectangle_mesh Nx Ny 1 1.
  Let P0 : list (list Rops) := m_points M.
  Variable i0 : nat.
  Hypothesis I0 : (i0 <= Nx)%nat.
  Let n0 := (i0 * (Ny + 1))%nat.
  Lemma n0_in : (n0 < length P0)%nat.
  Proof. unfold P0, M, n0. rewrite rect_points_len by assumption. nia. Qed.
  Lemma n0_point : nth n0 P0 [] = [INR i0 * 1 / INR Nx; 0].
  Proof. unfold n0. pose proof (rect_point Nx Ny 1 1 HX HY i0 0 I0 ltac:(lia)) as H. rewrite Nat.add_0_r in H. etransitivity; [exact H|]. repeat f_equal. cbn. field. apply not_0_INR. lia. Qed.
  Lemma n0_moved t : nth n0 (moved P0 n0 1 t) [] = [INR i0 * 1 / INR Nx; t].
  Proof. rewrite moved_same by exact n0_in. rewrite n0_point. cbn. repeat f_equal. apply Rplus_0_l. Qed.
  Lemma cells_ok : cells_valid (m_cells M) P0.
  Proof. intros c n Hc Hn. exact (rect_valid Nx Ny 1 1 HX HY c n Hc Hn). Qed.

  (** the lists of boundary nodes and faces *)
  Lemma moved_boundaries t : Rabs t <= / 10 ^ 3 -> same_boundaries (Some dm_bc) (Some [Loc1 dm_bottom]) P0 (moved P0 n0 1 t).
  Proof.
    intros T. assert (AT : - / 10 ^ 3 <= t <= / 10 ^ 3) by (unfold Rabs in T; destruct (Rcase_abs t); lra).
    assert (TOP : dm_top [INR i0 * 1 / INR Nx; t] = false /\ dm_top [INR i0 * 1 / INR Nx; 0] = false).
    { unfold dm_top. cbn [nth]. split; apply close_false; rewrite Rabs_R1; rewrite Rabs_left by lra; lra. }
    assert (BOT : dm_bottom [INR i0 * 1 / INR Nx; t] = true /\ dm_bottom [INR i0 * 1 / INR Nx; 0] = true).
    { unfold dm_bottom. cbn [nth]. split; apply isclose_true; rewrite Rabs_R0, Rminus_0_r; [|rewrite Rabs_R0]; lra. }
    split; [apply moved_length|]. split.
    - intros ls vs ws [= <- <- <-]. split.
      + intros l n Hl Hn. destruct (Nat.eq_dec n n0) as [->|D]; [|now rewrite moved_other by exact D]. rewrite n0_moved, n0_point.
        destruct Hl as [<-|[<-|[<-|[]]]]; cbn [loc_holds]; [reflexivity|reflexivity|]. destruct TOP as (-> & ->). reflexivity.
      + intros i n l w Hl Hw Hn S. destruct (Nat.eq_dec n n0) as [->|D]; [|now rewrite moved_other by exact D]. rewrite n0_moved, n0_point.
        destruct i as [|[|[|i]]]; cbn in Hw; try (destruct i; discriminate); injection Hw as <-; reflexivity.
    - intros ls l n [= <-] [<-|[]] Hn. cbn [loc_holds]. destruct (Nat.eq_dec n n0) as [->|D]; [|now rewrite moved_other by exact D]. rewrite n0_moved, n0_point. destruct BOT as (-> & ->). reflexivity.
  Qed.

  Variables (quad fquad : list (list Rops) * list Rops) (normals : nat -> nat -> Rops).
  Definition dm_var (pts : list (list Rops)) : var_args Rops := mkVar pts (m_cells M) 1 "QUAD4" quad fquad normals (Some dm_bc).
  Lemma dm_args pts : length pts = length P0 -> args_ok [dm_var pts].
  Proof.
    intros L. split; [discriminate|]. split.
    - intros a [<-|[]]. split; [cbn; tauto|]. split.
      + intros cell Hc. split.
        * cbn [dm_var va_cells va_ele_type] in *. apply rect_in in Hc as (i & j & Hi & Hj & ->); auto.
        * intros n Hn. cbn [dm_var va_points]. rewrite L. exact (cells_ok cell n Hc Hn).
      + cbn [dm_var va_bc dm_bc]. split; [reflexivity|]. split; [reflexivity|]. intros g [<-|[<-|[<-|[]]]]; reflexivity.
    - intros a b [<-|[]] [<-|[]]. reflexivity.
  Qed.
  Lemma dm_locations : locations_ok (K := Rops) (Some [Loc1 dm_bottom]).
  Proof. intros g [<-|[]]. reflexivity. Qed.
  Lemma dm_built pts : length pts = length P0 -> exists p f, new_problem quad fquad normals (m_cells M) pts = Ok p /\
    fe_init sqrt "QUAD4" quad fquad normals pts (m_cells M) 1 2 (Some dm_bc) = Ok f /\ fes p = [f] /\ maps p = dm_maps /\ wf_problem p /\ ivs_ok p /\ length (boundary_inds_list p) = 1%nat.
  Proof.
    intros L. destruct (init_wf (K := Rops) (V := unit) sqrt 2 [dm_var pts] (Some [Loc1 dm_bottom]) dm_maps (fun iv ivs => (iv, ivs)) (dm_args pts L) dm_locations eq_refl)
      as (p & B & WF & MP & LF & LB & _ & IV & _).
    destruct (problem_inv _ _ _ _ _ _ _ _ _ _ _ _ _ B) as (f & EF & _ & EP & _). exists p, f. split; [exact B|]. split; [exact EF|]. split; [now rewrite EP|]. split; [exact MP|].
    split; [exact WF|]. split; [apply IV; reflexivity|exact LB].
  Qed.
  Lemma dm_inv pts p : length pts = length P0 -> new_problem quad fquad normals (m_cells M) pts = Ok p -> exists f,
    fe_init sqrt "QUAD4" quad fquad normals pts (m_cells M) 1 2 (Some dm_bc) = Ok f /\ fes p = [f] /\ maps p = dm_maps /\ wf_problem p /\ ivs_ok p /\ length (boundary_inds_list p) = 1%nat.
  Proof. intros L B. destruct (dm_built pts L) as (p' & f & B' & H). rewrite B in B'. injection B' as <-. exists f. exact H. Qed.

  (** the geometry *)
  Variable f : fe Rops.
  Hypothesis BUILT : fe_init sqrt "QUAD4" quad fquad normals P0 (m_cells M) 1 2 (Some dm_bc) = Ok f.
  Lemma sq_points : points f = P0. Proof. exact (built_points _ _ _ _ _ _ _ _ _ _ _ BUILT). Qed.
  Lemma sq_cells : cells f = m_cells M. Proof. exact (built_cells _ _ _ _ _ _ _ _ _ _ _ BUILT). Qed.
  Lemma sq_nodes : num_nodes f = 4%nat. Proof. exact (built_nodes _ _ _ _ _ _ _ _ _ _ _ BUILT). Qed.
  Lemma sq_dim : dim f = 2%nat. Proof. exact (built_dim _ _ _ _ _ _ _ _ _ _ _ BUILT). Qed.
  Lemma sq_vec : vec f = 1%nat. Proof. exact (built_vec _ _ _ _ _ _ _ _ _ _ _ BUILT). Qed.
  Lemma sq_grad q a j : shape_grads_ref f q a j = match get_elements "QUAD4" with Ok info => shape_grad info (nth q (fst quad) []) a j | Err _ => 0 end.
  Proof. destruct (built_inv _ _ _ _ _ _ _ _ _ _ _ BUILT) as (info & fi & [[ns vs] ws] & HI & HFI & HD & Hf). rewrite HI, Hf. reflexivity. Qed.
  Let hx := 1 / INR Nx.
  Let hy := 1 / INR Ny.
  Lemma moved_point t i j : (i <= Nx)%nat -> (j <= Ny)%nat -> nth (i * (Ny + 1) + j) (moved P0 n0 1 t) [] = [INR i * hx; INR j * hy + (if (i =? i0)%nat && (j =? 0)%nat then t else 0)].
  Proof.
    intros Hi Hj. destruct (Nat.eq_dec (i * (Ny + 1) + j) n0) as [E|E].
    - assert (i = i0 /\ j = 0)%nat as (-> & ->). { unfold n0 in E. assert (i = i0) by nia. subst. split; [reflexivity|lia]. }
      rewrite E, n0_moved, !Nat.eqb_refl. cbn [andb INR]. unfold hx. f_equal; [req; field; apply not_0_INR; lia|]. f_equal. req. ring.
    - rewrite moved_other by exact E. etransitivity; [exact (rect_point Nx Ny 1 1 HX HY i j Hi Hj)|].
      assert ((i =? i0)%nat && (j =? 0)%nat = false) as ->.
      { apply andb_false_iff. destruct (Nat.eq_dec i i0) as [->|]; [right|left; now apply Nat.eqb_neq]. apply Nat.eqb_neq. intros ->. apply E. unfold n0. lia. }
      unfold hx, hy. f_equal; [req; field; apply not_0_INR; lia|]. f_equal. req. field. apply not_0_INR. lia.
  Qed.
  Lemma moved_coo t I J a k : (I < Nx)%nat -> (J < Ny)%nat -> (a < 4)%nat ->
    coo (moved P0 n0 1 t) f (I * Ny + J) a k = nth k (nth (nth a (quad_of Ny I J) 0%nat) (moved P0 n0 1 t) []) 0.
  Proof.
    intros Hi Hj Ha. unfold coo, cell_node. rewrite sq_cells. unfold M at 1. rewrite (rect_cell Nx Ny 1 1 HX HY) by assumption.
    rewrite gather_in; [reflexivity|]. rewrite moved_length. unfold P0, M. apply (rect_valid Nx Ny 1 1 HX HY (quad_of Ny I J)).
    - apply rect_in; auto. exists I, J. auto.
    - apply nth_In. exact Ha.
  Qed.
  Lemma moved_det t I J q : (I < Nx)%nat -> (J < Ny)%nat ->
    det (K := Rops) 2 (jacobian_dx_deta (moved P0 n0 1 t) f (I * Ny + J) q) =
    hx * (hy - (if (I =? i0)%nat && (J =? 0)%nat then t else 0) * (1 - nth 0 (nth q (fst quad) []) 0) - (if (I + 1 =? i0)%nat && (J =? 0)%nat then t else 0) * nth 0 (nth q (fst quad) []) 0).
  Proof.
    intros Hi Hj.
    assert (C : forall a k, (a < 4)%nat -> coo (moved P0 n0 1 t) f (I * Ny + J) a k =
       nth k (nth a [ [INR I * hx; INR J * hy + (if (I =? i0)%nat && (J =? 0)%nat then t else 0)]; [INR (I + 1) * hx; INR J * hy + (if (I + 1 =? i0)%nat && (J =? 0)%nat then t else 0)];
                      [INR (I + 1) * hx; INR (J + 1) * hy]; [INR I * hx; INR (J + 1) * hy]] []) 0).
    { intros a k Ha. rewrite (moved_coo t I J a k Hi Hj Ha). unfold quad_of.
      assert (EJ : (J + 1 =? 0)%nat = false) by (apply Nat.eqb_neq; lia).
      destruct a as [|[|[|[|a]]]]; [..|lia]; cbn [nth]; rewrite moved_point by lia; rewrite ?EJ, ?andb_false_r, ?Rplus_0_r; reflexivity. }
    set (s0 := if (I =? i0)%nat && (J =? 0)%nat then t else 0) in *. set (s1 := if (I + 1 =? i0)%nat && (J =? 0)%nat then t else 0) in *. clearbody s0 s1.
    assert (JJ : forall i j, jacobian_dx_deta (moved P0 n0 1 t) f (I * Ny + J) q i j =
      sum_n (K := Rops) 4 (fun a => nth i (nth a [ [INR I * hx; INR J * hy + s0]; [INR (I + 1) * hx; INR J * hy + s1]; [INR (I + 1) * hx; INR (J + 1) * hy]; [INR I * hx; INR (J + 1) * hy]] []) 0 *
        match get_elements "QUAD4" with Ok info => shape_grad info (nth q (fst quad) []) a j | Err _ => 0 end)).
    { intros i j. unfold jacobian_dx_deta. rewrite sq_nodes. apply Rsum_ext. intros a Ha. rewrite sq_grad, C by exact Ha. reflexivity. }
    cbn [det]. unfold minor, skip. cbn. rewrite !JJ. set (x := nth q (fst quad) []). unfold shape_grad. cbn. rewrite !plus_INR. cbn [INR]. clearbody hx hy. change (nth 0 (nth q (fst quad) []) 0) with (pt x 0). generalize (pt x 0) (pt x 1). cbn [car Rops]. intros a b. req. ring.
  Qed.
End Square.
