(** Lemmas for C106: solutions on a line, the parameters, areas and a case that meets the hypotheses. *)
From Coq Require Import Reals String List Arith Lia Lra Bool.
From Verif Require Import Num Arr ArrFacts BatchFacts Fe Problem Basis SpecBasis SpecFe SpecGeom FeFacts GeomFacts NansonFacts SpecBc BcFacts SpecSelect SelectFacts SpecEnergy ElasticFacts Lagrangian LaserHeat SpecErrorNorm ErrorNormMet HyperElastic HyperEnd Volume SpecVolume VolumeMain.
Import ListNotations.
Local Open Scope R_scope.
Local Notation sum := (sum_n (K := Rops)).

Lemma grad_line s d (f : fe Rops) P sol v t c q i j : built_element s d f -> vec f = d -> fits f sol -> fits f v -> (c < num_cells f)%nat -> (i < d)%nat ->
  sol_to_grad P f (along (K := Rops) sol v t) c q i j = sol_to_grad P f sol c q i j + t * sol_to_grad P f v c q i j.
Proof.
  intros B VE (LS & RS) (LV & RV) Hc Hi. unfold sol_to_grad. rewrite <- Rsum_mul, <- Rsum_plus. apply Rsum_ext. intros a Ha.
  assert (NODE : (cell_node f c a < length (points f))%nat) by (destruct B as (_ & _ & MESH & _); destruct (MESH c Hc) as (L & N); apply N; unfold cell_node; apply nth_In; now rewrite L).
  assert (E : cell_sol_at f (along (K := Rops) sol v t) c a i = cell_sol_at f sol c a i + t * cell_sol_at f v c a i).
  { unfold cell_sol_at, along. rewrite !gather_in; [|now rewrite LV|now rewrite LS|rewrite length_map2, LS, LV; lia].
    rewrite (nth_map2 _ sol v _ [] [] []) by (first [now rewrite LS|now rewrite LV]).
    assert (I1 : (i < length (nth (cell_node f c a) sol []))%nat) by (rewrite RS by (apply nth_In; now rewrite LS); now rewrite VE).
    assert (I2 : (i < length (nth (cell_node f c a) v []))%nat) by (rewrite RV by (apply nth_In; now rewrite LV); now rewrite VE).
    rewrite (nth_map2 _ _ _ i 0 0 0) by assumption. reflexivity. }
  etransitivity; [exact (f_equal (fun z => z * get_shape_grads P f c q a j) E)|]. cbn [mul Rops]. req. generalize (get_shape_grads P f c q a j). cbn [car Rops]. intros g. ring.
Qed.

Lemma target_spec P f sol : 0 <= target_value P f sol /\ (target_value P f sol = 0 <-> crt_volume P f sol = 101 / 100).
Proof.
  unfold target_value. split; [apply pow2_ge_0|]. split; intros H.
  - assert (crt_volume P f sol - 101 / 100 = 0); [|lra]. destruct (Req_dec (crt_volume P f sol - 101 / 100) 0) as [E|E]; [exact E|]. exfalso. exact (pow_nonzero _ 2 E H).
  - rewrite H. ring.
Qed.

(** ** The parameters *)
Lemma corner_iff p : vs_corner p = true <-> near0 (nth 0 p 0) /\ near0 (nth 1 p 0) /\ near0 (nth 2 p 0).
Proof. unfold vs_corner, near0. rewrite !andb_true_iff, !isclose_true, Rabs_R0, Rmult_0_r, Rplus_0_r, !Rminus_0_r. tauto. Qed.
Lemma bottom_iff p : vs_bottom p = true <-> near0 (nth 2 p 0).
Proof. unfold vs_bottom, near0. now rewrite isclose_true, Rabs_R0, Rmult_0_r, Rplus_0_r, Rminus_0_r. Qed.
Lemma top_iff p : vs_top p = true <-> near1 (nth 2 p 0).
Proof. unfold vs_top, near1. rewrite isclose_true, Rabs_R1. split; intros; lra. Qed.
Lemma near01 x : near0 x -> near1 x -> False.
Proof. unfold near0, near1, Rabs. intros H H1. destruct (Rcase_abs x), (Rcase_abs (x - 1)); lra. Qed.
Lemma set_params {V} (f : fe Rops) disp0 disp (params : V) : exists f', vs_set_params f (vs_bc disp0) (disp, params) = Ok (vs_bc disp, f', params) /\ same_mesh f f' /\
  forall n, (n < length (points f))%nat -> let x k := nth k (nth n (points f) []) 0 in
    (forall k, (k < 2)%nat -> (near0 (x 0%nat) /\ near0 (x 1%nat) /\ near0 (x 2%nat) -> prescribed f' n k = Some 0) /\ (~ (near0 (x 0%nat) /\ near0 (x 1%nat) /\ near0 (x 2%nat)) -> prescribed f' n k = None)) /\
    (near0 (x 2%nat) -> prescribed f' n 2 = Some 0) /\ (near1 (x 2%nat) -> prescribed f' n 2 = Some disp) /\ (~ near0 (x 2%nat) -> ~ near1 (x 2%nat) -> prescribed f' n 2 = None) /\
    (forall k, (3 <= k)%nat -> prescribed f' n k = None).
Proof.
  assert (E0 : vs_set_params f (vs_bc disp0) (disp, params) = bind (update_Dirichlet_boundary_conditions f (Some (vs_bc disp))) (fun f' => Ok (vs_bc disp, f', params))) by reflexivity. rewrite E0.
  destruct (dirichlet_spec (K := Rops) (points f) (fst (fst (vs_bc disp))) (snd (fst (vs_bc disp))) (snd (vs_bc disp))) as (_ & _ & D). destruct (D eq_refl eq_refl eq_refl) as (ns & vs & ws & ED & OK).
  change (Some (fst (fst (vs_bc disp)), snd (fst (vs_bc disp)), snd (vs_bc disp))) with (Some (vs_bc disp)) in ED. unfold update_Dirichlet_boundary_conditions. rewrite ED. unfold bind. eexists. split; [reflexivity|]. set (f' := mkFe _ _ _ _ _ _ _ _ _ _ _ _ _ _ _ _ ns vs ws).
  split; [unfold same_mesh; repeat (split; [reflexivity|]); intros; reflexivity|]. intros n Hn.
  pose proof (proj1 (proj2 (dirichlet_prescribed f' _ _ _ OK)) n) as PR. change (points f') with (points f) in PR. unfold dirichlet_value in PR. cbn [vs_bc fst snd length seq fold_left nth loc_holds] in PR.
  apply Nat.ltb_lt in Hn. rewrite Hn in PR. cbn [andb] in PR. pose proof (corner_iff (nth n (points f) [])) as CI. pose proof (bottom_iff (nth n (points f) [])) as BI. pose proof (top_iff (nth n (points f) [])) as TI. pose proof (near01 (nth 2 (nth n (points f) []) 0)) as N01.
  cbn [zero_dirichlet_val get_dirichlet_top] in PR.
  assert (C : near0 (nth 0 (nth n (points f) []) 0) /\ near0 (nth 1 (nth n (points f) []) 0) /\ near0 (nth 2 (nth n (points f) []) 0) \/ ~ (near0 (nth 0 (nth n (points f) []) 0) /\ near0 (nth 1 (nth n (points f) []) 0) /\ near0 (nth 2 (nth n (points f) []) 0))) by (destruct (vs_corner _); [left; tauto|right; intros X; apply CI in X; discriminate]).
  split; [|split; [|split; [|split]]].
  - intros k Hk. split; intros H; rewrite PR.
    + apply CI in H. rewrite H. destruct k as [|[|k]]; [reflexivity|reflexivity|lia].
    + destruct (vs_corner _); [exfalso; apply H; tauto|]. destruct k as [|[|k]]; [| |lia]; cbn; destruct (vs_bottom _), (vs_top _); reflexivity.
  - intros H. rewrite PR. assert (TF : vs_top (nth n (points f) []) = false) by (destruct (vs_top _); [exfalso; tauto|reflexivity]). apply BI in H. rewrite H, TF. cbn. destruct (vs_corner _); reflexivity.
  - intros H. rewrite PR. apply TI in H. rewrite H. reflexivity.
  - intros H0 H1. rewrite PR. destruct (vs_bottom _); [exfalso; tauto|]. destruct (vs_top _); [exfalso; tauto|]. cbn. destruct (vs_corner _); reflexivity.
  - intros k Hk. rewrite PR. destruct k as [|[|[|k]]]; [lia|lia|lia|]. cbn. destruct (vs_corner _), (vs_bottom _), (vs_top _); reflexivity.
Qed.

(** ** Rotations *)
Lemma orthonormal_det d A : d = 2%nat \/ d = 3%nat -> orthonormal d A -> 0 < det_dim (K := Rops) d A -> det_dim (K := Rops) d A = 1.
Proof.
  intros D23 O HP. assert (E : det_dim (K := Rops) d A * det_dim (K := Rops) d A = 1); [|nra].
  pose proof (det_mul Rops_ring d (fun i j => A j i) A D23) as M.
  rewrite (det_ext (K := Rops) d _ (fun i j => if (i =? j)%nat then 1 else 0)) in M by (intros i j Hi Hj; exact (O i j Hi Hj)).
  rewrite <- (det_dim_ok Rops_ring d A D23). cbn [mul Rops] in M.
  set (I := fun i j : nat => if (i =? j)%nat then 1 else 0) in *.
  assert (DI : det (K := Rops) d I = 1) by (destruct D23 as [-> | ->]; cbv -[Rplus Rmult Ropp IZR]; ring).
  assert (DT : det (K := Rops) d (fun i j => A j i) = det (K := Rops) d A) by (destruct D23 as [-> | ->]; cbv -[Rplus Rmult Ropp IZR]; ring).
  etransitivity; [|exact DI]. symmetry. etransitivity; [exact M|]. exact (f_equal (fun z => z * det (K := Rops) d A) DT).
Qed.

(** ** Areas *)
Lemma area_sum s d (f : fe Rops) P sqrtK sol g : built_element s d f -> exists inds area, get_boundary_conditions_inds f (Some [Loc1 g]) = Ok [inds] /\ faces_selected f (Loc1 g) inds /\ compute_surface_area sqrtK P f (Loc1 g) sol = Ok area /\
  forall k, area k = sum_over (K := Rops) inds (fun cf => sum (num_face_quads f) (nanson_scale sqrtK P f (fst cf) (snd cf))).
Proof.
  intros (LAG & DIM & MESH & sq & qd & fq & nm & p0 & cl & v & dr & BB). destruct (boundary_spec f [Loc1 g] (built_faces_ok _ _ _ _ _ _ _ _ _ _ _ BB MESH)) as (_ & S). destruct (S eq_refl) as (bs & E & L & FS).
  destruct bs as [|b [|b' bs]]; try discriminate L. exists b. unfold compute_surface_area, surface_integral_at. rewrite E. cbn [bind nth]. eexists. split; [reflexivity|]. split; [exact (FS 0%nat ltac:(cbn; lia))|]. split; [reflexivity|]. intros k. unfold surface_integral. apply sum_over_in. intros cf _. apply Rsum_ext. intros q _. exact (Rmult_1_l _).
Qed.
Lemma area_wrong s d (f : fe Rops) P sqrtK sol l : built_element s d f -> loc_wrong l = true -> compute_surface_area sqrtK P f l sol = Err ValueErr.
Proof.
  intros (LAG & DIM & MESH & sq & qd & fq & nm & p0 & cl & v & dr & BB) W. destruct (boundary_spec f [l] (built_faces_ok _ _ _ _ _ _ _ _ _ _ _ BB MESH)) as (S & _). unfold compute_surface_area, surface_integral_at. rewrite S; [reflexivity|]. cbn [existsb]. now rewrite W.
Qed.
Lemma area_true s quad fquad normals pts0 cls v d dir (f : fe Rops) P sol g : fe_init (K := Rops) sqrt s quad fquad normals pts0 cls v d dir = Ok f -> built_element s d f -> length P = length (points f) ->
  (forall c, (c < num_cells f)%nat -> exists M b, affine_cell (K := Rops) (/ 2) s P f d c M b /\ 0 < det_dim (K := Rops) d M) -> facet_normals s d f ->
  exists inds area, get_boundary_conditions_inds f (Some [Loc1 g]) = Ok [inds] /\ faces_selected f (Loc1 g) inds /\ compute_surface_area sqrt P f (Loc1 g) sol = Ok area /\
  forall k, area k = sum_over (K := Rops) inds (fun cf => facet_size d (facet_edges P f (fst cf) (snd cf))) * sum (num_face_quads f) (fun q => nth q (snd fquad) 0).
Proof.
  intros B BE PE AFF FN. destruct (area_sum s d f P sqrt sol g BE) as (inds & area & GB & FS & E & A). exists inds, area. split; [exact GB|]. split; [exact FS|]. split; [exact E|]. intros k. rewrite A. rewrite Rmult_comm, <- sum_over_mul. apply sum_over_in. intros (c & fc) HI. cbn [fst snd]. apply FS in HI as (Hc & Hf & _).
  destruct (AFF c Hc) as (M & b & HA & HD). destruct BE as (LAG & DIM & MESH & _). destruct (FN fc Hf) as (HU & HO).
  rewrite Rmult_comm, <- Rsum_mul. apply Rsum_ext. intros q _. etransitivity; [exact (nanson_aff s quad fquad normals pts0 cls v d dir f B LAG MESH DIM P PE M b c Hc HA fc Hf ltac:(lra) HU HO q)|].
  unfold SpecGeom.sign. destruct (Rlt_dec _ _); [lra|]. rewrite Rmult_1_l. reflexivity.
Qed.
