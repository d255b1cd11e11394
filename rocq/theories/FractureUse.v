(** The traction of an affine displacement, a derivative routine, and a specimen on which every pass is well posed: for C86, C87, C88. *)
From Coq Require Import Reals List Arith Lia Lra Bool String.
From Coquelicot Require Derive.
From Verif Require Import Num Arr ArrFacts Fe Problem SpecAssembly BatchFacts ProblemFacts Basis SpecBasis SpecFe FeFacts GeomFacts SolverBc SpecBc BcFacts SpecSelect SelectFacts SpecWeak KernelFacts
  SpecEnergy EnergyFacts DerivFacts Elastic ElasticFacts ElasticMain LinAlg Plasticity SpecPlasticity PlasticityFacts Eigen SpecEigen EigenFacts EigenMain EigenMore
  Mesh MeshFacts MeshMain MeshFe Init SpecInit SpecPatch PatchFacts SpecSolve SolveBox
  SpecLinear SpecPosed PosedFacts AffineFacts DiffusionFacts FieldFacts PosedMain SpecMonotone MonoMain MonoUse XNum Fracture SpecFracture FractureFacts FractureMore FractureMain FractureLoop.
Import ListNotations.
Local Open Scope R_scope.
Local Notation sum n g := (sum_n (K := Rops) n g).
Local Ltac rr := cbv beta; cbn [add mul zero Rops]; req; try change (car Rops) with R; ring.

(** ** The traction *)
Lemma traction_affine s eigh el (f : fe Rops) P A b sol_u sol_d dv sqrtK inds k :
  eigh_ok 2 eigh -> built_element el 2 f -> vec f = 2%nat -> List.length P = List.length (points f) -> samples (K := Rops) 2 2 A b P sol_u ->
  (forall c a, (c < num_cells f)%nat -> (a < num_nodes f)%nat -> cell_sol_at f sol_d c a 0 = dv) -> (k < 2)%nat ->
  (forall e q, (e < List.length inds)%nat -> (q < num_face_quads f)%nat -> (fst (nth e inds (0%nat, 0%nat)) < num_cells f)%nat /\ nanson_scale (K := Rops) sqrtK P f (fst (nth e inds (0%nat, 0%nat))) (snd (nth e inds (0%nat, 0%nat))) q <> 0) ->
  compute_traction sqrtK (stress_fn_opt2 s eigh (dim f)) f P inds sol_u sol_d k =
  stress_fn_opt2 s eigh 2 A dv k 1%nat * sum (List.length inds) (fun e => sum (num_face_quads f) (fun q => nanson_scale (K := Rops) sqrtK P f (fst (nth e inds (0%nat, 0%nat))) (snd (nth e inds (0%nat, 0%nat))) q)).
Proof.
  intros EO (LAG & DIM & MESH & sq & qd & fq & nm & p0 & cl & v & dr & B) VE PL SA DV Hk HN. unfold compute_traction. rewrite <- Rsum_mul. apply Rsum_ext. intros e He. rewrite <- Rsum_mul. apply Rsum_ext. intros q Hq.
  destruct (HN e q He Hq) as (Hc & NZ). set (c := fst (nth e inds (0%nat, 0%nat))) in *. set (fc := snd (nth e inds (0%nat, 0%nat))) in *.
  assert (DE : dim f = 2%nat) by (exact (built_dim _ _ _ _ _ _ _ _ _ _ _ B)).
  assert (DF : sum_n (K := Rops) (num_nodes f) (fun a => cell_sol_at f sol_d c a 0%nat * face_shape_vals f fc q a) = dv).
  { rewrite (Rsum_ext _ _ (fun a => dv * face_shape_vals f fc q a)) by (intros a Ha; now rewrite (DV c a Hc Ha)). rewrite Rsum_mul, (face_vals_sum Rops_ring _ _ _ _ _ _ _ _ _ _ _ B LAG fc q). cbn. req. ring. }
  cbv zeta. rewrite DF. rewrite DE.
  assert (SM : same_on 2 (fun k j => sum_n (K := Rops) (num_nodes f) (fun a => cell_sol_at f sol_u c a k * get_face_shape_grads P f c fc q a j)) A).
  { intros i j Hi Hj. assert (SA' : samples (K := Rops) 2 (vec f) A b P sol_u) by (rewrite VE; exact SA). apply (face_grad_affine Rops_field _ _ _ _ _ _ _ _ _ _ _ B LAG MESH DIM P PL sqrtK A b sol_u c fc q i j SA' Hc); [now rewrite VE|exact Hj|exact NZ]. }
  assert (GE : forall G, same_on 2 G A -> sum 2 (fun j => stress_fn_opt2 s eigh 2 G dv k j * (if (j =? 1)%nat then 1 else 0)) = stress_fn_opt2 s eigh 2 A dv k 1%nat).
  { intros G HG. pose proof (opt2_same s 2 eigh EO dv _ _ HG) as SS. assert (S1 : stress_fn_opt2 s eigh 2 G dv k 1%nat = stress_fn_opt2 s eigh 2 A dv k 1%nat) by (apply SS; lia). rewrite <- S1. generalize (stress_fn_opt2 s eigh 2 G dv k). intros h. cbn. req. change (car Rops) with R. ring. }
  exact (f_equal (fun t => t * nanson_scale (K := Rops) sqrtK P f c fc q) (GE _ SM)).
Qed.

(** ** A derivative routine *)
Definition partials (psi : tensor -> R) (x : tensor) : tensor :=
  fun i j => Derive.Derive (fun t => psi (fun a b => x a b + t * ((if (i =? a)%nat then 1 else 0) * (if (j =? b)%nat then 1 else 0)))) 0.
Lemma partials_ok d eigh : grad_ok d eigh partials.
Proof.
  intros psi x S _ G. assert (E : same_on d (partials psi x) S).
  { intros i j Hi Hj. unfold partials. set (H := fun a b => (if (i =? a)%nat then 1 else 0) * (if (j =? b)%nat then 1 else 0)).
    assert (V : dot2 (K := Rops) d d S H = S i j).
    { unfold dot2, H. transitivity (sum d (fun a => (if (i =? a)%nat then 1 else 0) * S a j)); [|exact (Rsum_delta d i (fun a => S a j) Hi)].
      apply Rsum_ext. intros a Ha. transitivity ((if (i =? a)%nat then 1 else 0) * sum d (fun b => (if (j =? b)%nat then 1 else 0) * S a b)).
      - rewrite <- Rsum_mul. apply Rsum_ext. intros b Hb. rr.
      - f_equal. exact (Rsum_delta d j (fun b => S a b) Hj). }
    apply Derive.is_derive_unique. apply Derive.is_derive_Reals. rewrite <- V. exact (G H). }
  intros H. replace (dot2 (K := Rops) d d (partials psi x) H) with (dot2 (K := Rops) d d S H); [apply G|]. apply dot2_ext. intros i j Hi Hj. split; [symmetry; now apply E|reflexivity].
Qed.

(** ** A specimen *)
Lemma rebuilt sqrtK el quad fquad normals pts cls v d dir f info f' : fe_init (K := Rops) sqrtK el quad fquad normals pts cls v d dir = Ok f -> update_Dirichlet_boundary_conditions f info = Ok f' ->
  fe_init (K := Rops) sqrtK el quad fquad normals pts cls v d info = Ok f'.
Proof.
  intros H U. unfold fe_init in *. destruct (get_elements el) as [inf|]; [|discriminate H]. destruct (reorder_inds _ _) as [fi|]; [|discriminate H]. destruct (Dirichlet_boundary_conditions pts dir) as [bc|]; [|discriminate H].
  injection H as <-. destruct bc as [[n0 v0] w0]. unfold update_Dirichlet_boundary_conditions, make_fe in *. cbn [points] in U. destruct (Dirichlet_boundary_conditions pts info) as [[[ns vs] ws]|]; [|discriminate U]. injection U as <-. reflexivity.
Qed.
Lemma rect_covers Nx Ny Lx Ly n : (0 < Nx)%nat -> (0 < Ny)%nat -> (n < List.length (m_points (rectangle_mesh Nx Ny Lx Ly)))%nat -> exists cell, In cell (m_cells (rectangle_mesh Nx Ny Lx Ly)) /\ In n cell.
Proof.
  intros HX HY Hn. destruct (rect_point_inv Nx Ny Lx Ly HX HY n Hn) as (i & j & Hi & Hj & ->). destruct (near_cell j Ny HY Hj) as (j0 & Hj0 & Ej). destruct (near_cell i Nx HX Hi) as (i0 & Hi0 & Ei).
  exists (quad_of Ny i0 j0). split; [now apply rect_in_cell|]. exact (rect_near Nx Ny i0 j0 i j Ei Ej).
Qed.

Lemma sub2_self x : norm2 (sub2 x x) = 0.
Proof.
  unfold norm2. assert (Z : fold_right Rplus 0 (map (fun r => fold_right Rplus 0 (map (fun v : R => v * v) r)) (sub2 x x)) = 0).
  { induction x as [|r x IH]; [reflexivity|]. change (fold_right Rplus 0 (map (fun v : R => v * v) (map2 (fun a b : R => a - b) r r)) + fold_right Rplus 0 (map (fun r => fold_right Rplus 0 (map (fun v : R => v * v) r)) (sub2 x x)) = 0).
    rewrite IH. clear IH. replace (fold_right Rplus 0 (map (fun v : R => v * v) (map2 (fun a b : R => a - b) r r))) with 0; [ring|]. induction r as [|a r IH]; [reflexivity|]. change (0 = (a - a) * (a - a) + fold_right Rplus 0 (map (fun v : R => v * v) (map2 (fun a b : R => a - b) r r))). rewrite <- IH. req. change (car Rops) with R. ring. }
  rewrite Z. apply sqrt_0.
Qed.
Section Specimen.
  Variables (s : solid) (Nx Ny : nat) (Lx Ly stretch : R) (sqrtK : R -> R) (fquad : list (list Rops) * list Rops) (normals : nat -> nat -> Rops).
  Hypothesis HX : (0 < Nx)%nat.
  Hypothesis HY : (0 < Ny)%nat.
  Hypothesis LX : 0 < Lx.
  Hypothesis LY : 0 < Ly.
  Hypothesis L0 : 0 <= f_lmbda s.
  Hypothesis M0 : 0 < f_mu s.
  Hypothesis GC : 0 < f_Gc s.
  Hypothesis LL : 0 < f_l s.
  Let M := rectangle_mesh Nx Ny Lx Ly.
  Let P := m_points M.
  Definition two_by_two : list (list Rops) * list Rops := (flat_map (fun x => map (fun y => [x; y]) [/ 4; 3 / 4]) [/ 4; 3 / 4], repeat (/ 4) 4).
  Definition sides : list Rops -> bool := fun pt => if Req_EM_T (nth 0 pt (@zero Rops)) 0 then true else if Req_EM_T (nth 0 pt (@zero Rops)) Lx then true else false.
  (** the ends are held: at x = 0, at x = Lx moved by stretch Lx *)
  Definition pull_info : list (location_fn Rops) * list nat * list (list Rops -> Rops) := ([Loc1 sides; Loc1 sides], [0%nat; 1%nat], [(fun pt => stretch * nth 0 pt (@zero Rops)); (fun _ => 1)]).
  Lemma two_sharp : sharp_rule "QUAD4" (fst two_by_two).
  Proof.
    right. left. split; [reflexivity|]. exists (/ 4), (3 / 4). split; [lra|]. intros x L H. destruct x as [|a [|c [|]]]; try discriminate.
    pose proof (H 0%nat ltac:(lia)) as H0. pose proof (H 1%nat ltac:(lia)) as H1. cbn in H0, H1. destruct H0 as [->| ->], H1 as [->| ->]; cbn; tauto.
  Qed.
  Lemma two_grid : grid_rule 2 (fst two_by_two).
  Proof.
    exists (/ 4), (3 / 4). split; [lra|]. intros y z [->| ->] _; [exists [/ 4; / 4]|exists [/ 4; 3 / 4]]; (split; [cbn; tauto|]; split; [reflexivity|]; split; [reflexivity|]; intros; discriminate).
  Qed.
  Lemma two_pos q : (q < List.length (fst two_by_two))%nat -> 0 < nth q (snd two_by_two) (@zero Rops).
  Proof. intros Hq. change (q < 4)%nat in Hq. destruct q as [|[|[|[|q]]]]; [..|lia]; cbn; lra. Qed.
  Lemma quad_built v info bc : Dirichlet_boundary_conditions P info = Ok bc -> exists f, fe_init (K := Rops) sqrtK "QUAD4" two_by_two fquad normals P (m_cells M) v 2 info = Ok f.
  Proof.
    intros E. unfold fe_init. assert (exists inf fi, get_elements "QUAD4" = Ok inf /\ reorder_inds (facets (basix_ele inf)) (re_order inf) = Ok fi) as (inf & fi & -> & ->) by (do 2 eexists; split; reflexivity).
    rewrite E. eexists. reflexivity.
  Qed.
  Lemma pull_bc pts vals : List.length vals = 2%nat -> exists ns vs ws, Dirichlet_boundary_conditions (K := Rops) pts (Some (fst pull_info, vals)) = Ok (ns, vs, ws) /\ dirichlet_ok pts [Loc1 sides; Loc1 sides] [0%nat; 1%nat] vals ns vs ws.
  Proof. intros E. destruct (dirichlet_spec (K := Rops) pts [Loc1 sides; Loc1 sides] [0%nat; 1%nat] vals) as (_ & _ & D). exact (D eq_refl E eq_refl). Qed.
  Lemma pull_prescribed (f : fe Rops) va vb n : dirichlet_ok (points f) [Loc1 sides; Loc1 sides] [0%nat; 1%nat] [va; vb] (node_inds_list f) (vec_inds_list f) (vals_list f) ->
    (n < List.length (points f))%nat -> forall k, (k < 2)%nat -> prescribed f n k = if sides (nth n (points f) []) then Some ((if (k =? 0)%nat then va else vb) (nth n (points f) [])) else None.
  Proof.
    intros D Hn k Hk. destruct (dirichlet_prescribed f _ _ _ D) as (_ & PR & _). rewrite PR. unfold dirichlet_value. cbn [List.length seq fold_left nth]. replace (n <? List.length (points f))%nat with true by (symmetry; now apply Nat.ltb_lt).
    cbn [andb loc_holds]. destruct k as [|[|k]]; [| |lia]; cbn [Nat.eqb andb]; destruct (sides (nth n (points f) [])); reflexivity.
  Qed.
  Theorem specimen : exists pu pd fu fd st st' err (u d : list (list Rops)),
    is_problem_u (stress_fn_opt2 s eigh2 (dim fu)) pu fu /\ is_problem_d s pd fd /\ same_rule fu fd /\ eigh_ok (dim fu) eigh2 /\
    (forall c q, (c < num_cells fu)%nat -> (q < num_quads fu)%nat -> 0 < get_JxW P fu c q) /\
    fs_pu st = pu /\ fs_pd st = pd /\ fs_u_old st = fs_u st /\ fs_d_old st = fs_d st /\
    stagger_pass s eigh2 (fun _ => Ok u) (fun _ => Ok d) P 0 st = Ok (st', err) /\ solves (fs_pu st') [P] [fs_u st'] /\ solves (fs_pd st') [P] [fs_d st'] /\
    one_solution (fs_pu st') [P] /\ one_solution (fs_pd st') [P] /\
    sol_ok pu [fs_u st] /\ meets_bcs (fe0 (fs_pu st')) (fs_u st) /\ sol_ok pd [fs_d st] /\ meets_bcs fd (fs_d st) /\
    (forall c q, (c < num_cells fu)%nat -> (q < num_quads fu)%nat -> history_at (fs_history_old st) c q <= drive s eigh2 fu P (fs_u st') c q) /\
    (forall n, (n < List.length P)%nat -> nth 0 (nth n P []) (@zero Rops) = Lx -> get2 (@zero Rops) (fs_u st') n 0 = stretch * Lx) /\
    fe_init (K := Rops) sqrtK "QUAD4" two_by_two fquad normals P (m_cells M) 1 2 None = Ok fd /\ mesh_ok fd /\ sharp_rule "QUAD4" (fst two_by_two) /\
    exists sts, frac_steps s eigh2 (fun _ => Ok u) (fun _ => Ok d) P 2 [0] st = Finished sts.
  Proof.
    destruct (pull_bc P (snd pull_info) eq_refl) as (ns & vs & ws & E0 & _). destruct (quad_built 2 (Some pull_info) _ E0) as (fu & BU).
    destruct (quad_built 1 None _ eq_refl) as (fd & BD).
    assert (PU : points fu = P) by exact (built_points _ _ _ _ _ _ _ _ _ _ _ BU). assert (PD : points fd = P) by exact (built_points _ _ _ _ _ _ _ _ _ _ _ BD).
    assert (DU : dim fu = 2%nat) by exact (built_dim _ _ _ _ _ _ _ _ _ _ _ BU). assert (DD : dim fd = 2%nat) by exact (built_dim _ _ _ _ _ _ _ _ _ _ _ BD).
    assert (VU : vec fu = 2%nat) by exact (built_vec _ _ _ _ _ _ _ _ _ _ _ BU). assert (VD : vec fd = 1%nat) by exact (built_vec _ _ _ _ _ _ _ _ _ _ _ BD).
    assert (SR : same_rule fu fd).
    { unfold fe_init in BU, BD. destruct (get_elements "QUAD4") as [inf|]; [|discriminate]. destruct (reorder_inds _ _) as [fi|]; [|discriminate]. change (Dirichlet_boundary_conditions P (Some pull_info) = Ok (ns, vs, ws)) in E0. rewrite E0 in BU. cbn [Dirichlet_boundary_conditions] in BD. injection BU as <-. injection BD as <-. repeat split. }
    pose proof (rect_mesh_ok Nx Ny Lx Ly HX HY _ _ _ _ _ _ fu BU) as MU. pose proof (rect_mesh_ok Nx Ny Lx Ly HX HY _ _ _ _ _ _ fd BD) as MD.
    pose proof (rect_num_cells Nx Ny Lx Ly HX HY _ _ _ _ _ _ fu BU) as NU. pose proof (rect_num_cells Nx Ny Lx Ly HX HY _ _ _ _ _ _ fd BD) as ND.
    pose proof (rect_measure Nx Ny Lx Ly HX HY LX LY _ _ _ _ _ fu BU two_pos) as WU.
    assert (CP : (0 < Nx * Ny)%nat) by nia.
    set (zeros := repeat (fun _ : nat => 0) (Nx * Ny)).
    set (pu := mkProblem [fu] [] (fracture_u_maps (stress_fn_opt2 s eigh2 (dim fu))) [zeros] []).
    set (pd := mkProblem [fd] [] (fracture_d_maps s) [zeros] []).
    assert (LZ : List.length zeros = (Nx * Ny)%nat) by apply repeat_length.
    assert (WF : forall (f : fe Rops) m ivs, mesh_ok f -> wf_problem (mkProblem [f] [] m ivs [] : problem Rops R)).
    { intros f m ivs MESH. constructor; cbn.
      - intros f0 [<-|[]]. reflexivity.
      - intros f0 cell [<-|[]] Hc. apply In_nth with (d := []) in Hc as (c & Hc & <-). now apply MESH.
      - intros f0 cell n [<-|[]] Hc Hn. apply In_nth with (d := []) in Hc as (c & Hc & <-). now apply (MESH c Hc).
      - intros b' c fc []. }
    assert (IU : is_problem_u (stress_fn_opt2 s eigh2 (dim fu)) pu fu).
    { split; [repeat split; left; discriminate|]. split; [congruence|]. split; [reflexivity|]. split; [reflexivity|]. split; [reflexivity|]. split; [now apply WF|]. split.
      - split; [intros iv [<-|[]]; unfold p_num_cells, fe0; cbn; now rewrite NU|]. split; [reflexivity|]. intros x iv Hs. cbn in Hs. lia.
      - unfold p_num_cells, fe0. cbn. now rewrite NU. }
    assert (IDD : is_problem_d s pd fd).
    { split; [repeat split; left; discriminate|]. split; [exact VD|]. split; [reflexivity|]. split; [reflexivity|]. split; [reflexivity|]. split; [now apply WF|]. split.
      - split; [intros iv [<-|[]]; unfold p_num_cells, fe0; cbn; now rewrite ND|]. split; [reflexivity|]. intros x iv Hs. cbn in Hs. lia.
      - unfold p_num_cells, fe0. cbn. now rewrite ND. }
    set (u0 := map (fun pt : list Rops => [stretch * nth 0 pt (@zero Rops); 0]) P).
    assert (US : shaped (List.length P) 2 u0) by (split; [apply map_length|]; intros row Hr; apply in_map_iff in Hr as (pt & <- & _); reflexivity).
    set (d0 := fld (List.length P) 1 (fun _ => 0)).
    (* the displacement problem of the pass *)
    set (vals := [(fun pt => stretch * nth 0 pt (@zero Rops)); (fun _ => 0)] : list (list Rops -> Rops)).
    destruct (pull_bc (points fu) vals eq_refl) as (ns1 & vs1 & ws1 & E1 & OK1).
    assert (exists fu', update_Dirichlet_boundary_conditions fu (Some (fst pull_info, vals)) = Ok fu' /\ dirichlet_ok (points fu') [Loc1 sides; Loc1 sides] [0%nat; 1%nat] vals (node_inds_list fu') (vec_inds_list fu') (vals_list fu')) as (fu' & E2 & OK2).
    { unfold update_Dirichlet_boundary_conditions. rewrite E1. eexists. split; [reflexivity|]. exact OK1. }
    pose proof (rebuilt _ _ _ _ _ _ _ _ _ _ _ _ _ BU E2) as BU'.
    pose proof (update_rebound _ _ _ E2) as RB.
    assert (PU' : points fu' = P) by (destruct RB as (? & ? & ? & ->); exact PU). assert (VU' : vec fu' = 2%nat) by (destruct RB as (? & ? & ? & ->); exact VU). assert (DU' : dim fu' = 2%nat) by (destruct RB as (? & ? & ? & ->); exact DU).
    assert (NU' : num_cells fu' = (Nx * Ny)%nat) by (destruct RB as (? & ? & ? & ->); exact NU).
    set (damage := map (fun c q => convert_from_dof_to_quad fu d0 c q 0%nat) (seq 0 (num_cells fu))).
    set (pu1 := mkProblem [fu'] [] (fracture_u_maps (stress_fn_opt2 s eigh2 (dim fu))) [damage] [] : problem Rops R).
    assert (SP : set_params_u pu pull_info d0 0 = Ok (pu1, (fst pull_info, vals))).
    { unfold set_params_u, pu. cbn [fes snd pull_info]. cbn [set_last bind]. fold vals. match goal with |- bind ?a _ = _ => replace a with (Ok fu') end. reflexivity. }
    assert (PO : posed_u pu pull_info d0 0 pu1).
    { exists fu, [], fu', vals. split; [reflexivity|]. split; [reflexivity|]. split; [reflexivity|]. split; [discriminate|]. split.
      - intros i x E. destruct i as [|[|i]]; cbn in E; [| |destruct i; discriminate]; injection E as <-; reflexivity.
      - split; [exact E2|]. do 3 (split; [reflexivity|]). exists damage. split; [reflexivity|]. unfold damage. split; [now rewrite map_length, seq_length|]. intros c q Hc. unfold history_at.
        rewrite (nth_map_in _ _ _ 0%nat) by now rewrite seq_length. now rewrite seq_nth. }
    destruct (posed_is _ _ _ _ _ _ _ IU PO) as (fu2 & E3 & _ & IU1). injection E3 as <-.
    assert (NC1 : p_num_cells pu1 = num_cells fu') by reflexivity.
    assert (DZ : forall c q, (c < num_cells fu)%nat -> convert_from_dof_to_quad fu d0 c q 0 = 0).
    { intros c q Hc. unfold convert_from_dof_to_quad. apply Rsum_zero. intros a Ha. rewrite (cell_entry 1 fu MU d0 c a 0%nat); [|rewrite PU; apply fld_shaped|exact Hc|exact Ha]. destruct (MU c Hc) as (LC & IN).
      unfold d0. rewrite fld_get; [rr| |lia]. rewrite <- PU. apply IN, nth_In. lia. }
    assert (OU : one_solution pu1 [P]).
    { assert (IU2 : is_problem_u (stress_fn_opt2 s eigh2 (dim fu')) pu1 fu') by (rewrite DU', <- DU; exact IU1).
      apply (u_one s eigh2 pu1 fu' P); auto.
      - rewrite DU'. exact eigh2_ok.
      - intros c q Hc Hq. rewrite NC1 in Hc. exact (rect_measure Nx Ny Lx Ly HX HY LX LY _ _ _ _ _ fu' BU' two_pos c q Hc Hq).
      - apply (rect_held Nx Ny Lx Ly HX HY LX LY _ _ _ _ _ fu' BU' two_pos two_grid); [|reflexivity|reflexivity]. intros n k Hn Hk X. rewrite VU' in Hk. rewrite (pull_prescribed fu' _ _ n OK2 Hn k Hk). unfold sides at 1. destruct (Req_EM_T _ _); [eauto|contradiction].
      - intros c q Hc Hq. rewrite NC1, NU', <- NU in Hc. unfold damage_at. rewrite (one_iv_at pu1 damage c q eq_refl) by (unfold damage; now rewrite map_length, seq_length). unfold history_at, damage. rewrite (nth_map_in _ _ _ 0%nat) by now rewrite seq_length. rewrite seq_nth by exact Hc. cbn [Nat.add]. rewrite (DZ c q Hc). lra. }
    destruct OU as (ux & SU & UU). pose proof SU as ((LU & _) & _). destruct ux as [|u [|]]; try (cbn in LU; discriminate).
    (* the phase field of the pass *)
    set (history := map (fun c q => Rmax (psi_plus_fn s eigh2 (dim fu') (sol_to_grad P fu' u c q)) (nth c zeros (fun _ => 0) q)) (seq 0 (num_cells fu'))).
    set (pd1 := with_vars pd [history]).
    assert (LH : List.length history = num_cells fd) by (unfold history; now rewrite map_length, seq_length, NU', ND).
    pose proof (history_is s pd fd history IDD LH) as ID1. fold pd1 in ID1.
    assert (HV : forall c q, (c < num_cells fd)%nat -> nth 0 (iv_at pd1 c q) 0 = Rmax (psi_plus_fn s eigh2 (dim fu') (sol_to_grad P fu' u c q)) (nth c zeros (fun _ => 0) q)).
    { intros c q Hc. rewrite (one_iv_at pd1 history c q eq_refl) by now rewrite LH. unfold history_at, history. rewrite (nth_map_in _ _ _ 0%nat) by (rewrite seq_length, NU', <- ND; exact Hc). rewrite seq_nth by (rewrite NU', <- ND; exact Hc). reflexivity. }
    assert (OD : one_solution pd1 [P]).
    { refine (proj2 (proj2 (d_one s pd1 fd P ID1 GC LL _ _ "QUAD4" sqrtK two_by_two fquad normals P (m_cells M) 1 None BD MD two_sharp _))).
      - intros c q Hc Hq. change (c < num_cells fd)%nat in Hc. rewrite HV by exact Hc. eapply Rle_trans; [|apply Rmax_l]. unfold psi_plus_fn. apply psi_plus_nn; lra.
      - intros c q Hc Hq. rewrite (same_jxw P fu fd SR). apply WU; [rewrite NU, <- ND; exact Hc|]. destruct SR as (_ & _ & _ & <- & _). exact Hq.
      - intros n Hn. rewrite PD in Hn. rewrite (built_cells _ _ _ _ _ _ _ _ _ _ _ BD). now apply rect_covers. }
    destruct OD as (dx & SD & UD). pose proof SD as ((LD & _) & _). destruct dx as [|d [|]]; try (cbn in LD; discriminate).
    set (st := mkFrac pu pd pull_info u0 d0 u0 d0 zeros zeros).
    set (st' := mkFrac pu1 pd1 (fst pull_info, vals) u d u d history zeros).
    assert (PS : stagger_pass s eigh2 (fun _ => Ok u) (fun _ => Ok d) P 0 st = Ok (st', xmax (change u u0) (change d d0))).
    { unfold stagger_pass, st. cbn [fs_pu fs_pd fs_info fs_u fs_d fs_u_old fs_d_old fs_history fs_history_old]. rewrite SP. cbn [bind fes pu1]. unfold compute_history. rewrite LZ, NU', Nat.eqb_refl. cbn [bind]. rewrite <- NU'. reflexivity. }
    exists pu, pd, fu, fd, st, st', (xmax (change u u0) (change d d0)), u, d.
    split; [exact IU|]. split; [exact IDD|]. split; [exact SR|]. split; [rewrite DU; exact eigh2_ok|]. split; [exact WU|]. do 4 (split; [reflexivity|]). split; [exact PS|]. split; [exact SU|]. split; [exact SD|].
    split; [exists [u]; auto|]. split; [exists [d]; auto|].
    split. { split; [reflexivity|]. intros v Hv. cbn in Hv. assert (v = 0)%nat as -> by lia. unfold fe_of. cbn [nth fes pu fe0]. rewrite PU, VU. exact US. }
    split. { intros n k b Hn Hk E. change (fe0 (fs_pu st')) with fu' in *. rewrite VU' in Hk. rewrite (pull_prescribed fu' _ _ n OK2 Hn k Hk) in E. rewrite PU' in Hn, E. match type of E with (if ?c then _ else _) = _ => destruct c end; [|discriminate E]. injection E as <-. cbn [fs_u st]. unfold u0, get2. rewrite (nth_map_in _ _ _ []) by assumption. destruct k as [|[|k]]; [reflexivity|reflexivity|lia]. }
    split. { split; [reflexivity|]. intros v Hv. cbn in Hv. assert (v = 0)%nat as -> by lia. unfold fe_of. cbn [nth fes pd fe0]. rewrite PD, VD. apply fld_shaped. }
    split. { intros n k b Hn Hk E. exfalso. assert (NI : node_inds_list fd = []). { unfold fe_init in BD. destruct (get_elements "QUAD4") as [inf|]; [|discriminate]. destruct (reorder_inds _ _) as [fi|]; [|discriminate]. cbn [Dirichlet_boundary_conditions] in BD. injection BD as <-. reflexivity. }
      unfold prescribed, bc_entries in E. rewrite NI in E. discriminate. }
    split. { intros c q Hc Hq. cbn [fs_history_old st]. unfold history_at, zeros. rewrite nth_repeat. unfold drive. apply psi_plus_nn; lra. }
    split. { intros n Hn X. pose proof SU as (_ & (res & _ & HB)). specialize (HB 0%nat n 0%nat ltac:(cbn; lia)). unfold fe_of in HB. cbn [nth fes pu1 fe0] in HB. rewrite VU', PU' in HB. specialize (HB Hn ltac:(lia)).
      assert (Hn' : (n < List.length (points fu'))%nat) by (rewrite PU'; exact Hn). pose proof (pull_prescribed fu' _ _ n OK2 Hn' 0%nat Nat.lt_0_2) as PR.
      assert (SI : sides (nth n (points fu') []) = true) by (rewrite PU'; unfold sides; destruct (Req_EM_T _ 0); [reflexivity|]; destruct (Req_EM_T _ Lx) as [|NE]; [reflexivity|exfalso; exact (NE X)]).
      rewrite SI in PR. rewrite PR in HB. cbn [Nat.eqb] in HB. cbn [fs_u st']. etransitivity; [exact HB|]. apply f_equal. rewrite PU'. exact X. }
    split; [exact BD|]. split; [exact MD|]. split; [exact two_sharp|].
    assert (CH : forall x, change x x = Fin 0 \/ change x x = NaN).
    { intros x. pose proof (sub2_self x) as Z.
      destruct (change_cases x x) as [(N1 & E)|[(N1 & N2 & E)|(N1 & N2 & E)]]; [left; rewrite E, Z; f_equal; unfold Rdiv; ring|now right|congruence]. }
    assert (P2 : exists st2, stagger_pass s eigh2 (fun _ => Ok u) (fun _ => Ok d) P 0 st' = Ok (st2, xmax (change u u) (change d d))).
    { pose proof (update_again fu fu' (Some (fst pull_info, vals)) RB) as UA. rewrite E2 in UA.
      assert (SP2 : exists pu2, set_params_u pu1 (fst pull_info, vals) d 0 = Ok (pu2, (fst pull_info, vals)) /\ fes pu2 = [fu']).
      { unfold set_params_u, pu1. cbn [fes snd]. unfold vals at 1. cbn [set_last bind fst]. fold vals. match goal with |- context [bind ?a _] => replace a with (Ok fu') by (symmetry; exact UA) end. eexists. split; reflexivity. }
      destruct SP2 as (pu2 & SP2 & F2). unfold stagger_pass, st'. cbn [fs_pu fs_pd fs_info fs_u fs_d fs_u_old fs_d_old fs_history fs_history_old]. rewrite SP2. cbn [bind]. rewrite F2.
      unfold compute_history. rewrite LZ, NU', Nat.eqb_refl. cbn [bind]. eexists. reflexivity. }
    destruct P2 as (st2 & P2).
    assert (ST : xltb (Fin frac_tol) (xmax (change u u) (change d d)) = false).
    { pose proof tol_pos. unfold xmax. destruct (CH u) as [->| ->], (CH d) as [->| ->]; cbn [isnan orb]; try reflexivity. cbn [xltb]. unfold Rltb. destruct (Rlt_dec 0 0); [lra|]. cbn [xltb]. unfold Rltb. destruct (Rlt_dec frac_tol 0); [lra|reflexivity]. }
    cbn [frac_steps stagger_loop]. rewrite xltb_one. rewrite PS. destruct (xltb (Fin frac_tol) (xmax (change u u0) (change d d0))); [|eexists; reflexivity]. rewrite P2, ST. eexists. reflexivity.
  Qed.
End Specimen.
