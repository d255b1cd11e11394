(** Lemmas for C104: the objective on the moved meshes, the chosen node, the finite difference. *)
From Coq Require Import Reals String List Arith Lia Lra Psatz Bool Sorting.Sorted.
From Verif Require Import Num Arr ArrFacts Fe Problem SpecAssembly BatchFacts ProblemFacts Basis SpecBasis SpecFe FeFacts GeomFacts SolverBc SpecBc BcFacts SpecSelect SelectFacts SpecWeak KernelFacts SpecEnergy EnergyFacts
  Elastic ElasticFacts SpecElastic ElasticMain SpecSolve LinAlg SpecWave SpecLinear SpecPosed AffineFacts FieldFacts Mesh SpecMesh MeshFacts MeshMain MeshFe PosedMain SpecMonotone MonoFacts MonoMain MonoUse
  Init SpecInit InitFacts Lagrangian LagrangianLoop LaserHeat DiffMesh SpecDiffMesh DiffMeshMain DiffMeshUniq DiffMeshRun.
Import ListNotations.
Local Open Scope R_scope.

(** ** the maps *)
Lemma dm_maps_ok : maps_ok (K := Rops) 1 2 dm_maps.
Proof.
  split; [|split].
  - intros tm [= <-] G G' iv H k j Hk Hj. now apply H.
  - intros mm [= <-] u u' x x' iv HU Hx k Hk. unfold dm_mass. now rewrite (HU 0%nat ltac:(lia)), (Hx 0%nat ltac:(lia)), (Hx 1%nat ltac:(lia)).
  - intros sms sm [= <-] [<-|[]] u u' x x' iv HU Hx k Hk. unfold neumann_flux. now rewrite (Hx 0%nat ltac:(lia)).
Qed.
Lemma cube_mono a b : 0 <= (a ^ 3 - b ^ 3) * (a - b).
Proof. replace ((a ^ 3 - b ^ 3) * (a - b)) with ((a - b) ^ 2 * ((a + b / 2) ^ 2 + 3 / 4 * b ^ 2)) by field. apply Rmult_le_pos; [apply pow2_ge_0|]. pose proof (pow2_ge_0 (a + b / 2)). pose proof (pow2_ge_0 b). lra. Qed.
Lemma dm_grows (p : problem Rops unit) (f : fe Rops) P c q x y : vec f = 1%nat -> maps p = dm_maps ->
  grad_product (vec f) (dim f) (lminus x y) (lminus x y) <= lwork (vec f) (dim f) (lminus (flux_at p f P c q x) (flux_at p f P c q y)) (lminus x y).
Proof.
  intros VE ME. unfold lwork, grad_product, flux_at. rewrite ME. cbn [dm_maps tensor_map mass_map lminus lcomb fst snd]. rewrite VE.
  unfold dot1. cbn [sum_n fold_left]. unfold sum_n. cbn. unfold dm_mass.
  pose proof (cube_mono (snd x 0%nat) (snd y 0%nat)) as C. match goal with |- ?a <= ?a + ?b => enough (0 <= b) by lra end.
  set (g := _ + (sin _ * _) ^ 3). eapply Rle_trans; [exact C|]. right. cbn. ring.
Qed.
(** ** uniqueness, for any points *)
Section Unique.
  Variables (Nx Ny : nat) (HX : (0 < Nx)%nat) (HY : (0 < Ny)%nat).
  Let M := rectangle_mesh Nx Ny 1 1.
  Let P0 : list (list Rops) := m_points M.
  Variables (quad fquad : list (list Rops) * list Rops) (normals : nat -> nat -> Rops).
  Hypothesis SHARP : full_grid 2 (fst quad).
  Variable p : problem Rops unit.
  Hypothesis NEW : new_problem quad fquad normals (m_cells M) P0 = Ok p.
  Lemma u_prescribed (pts : list (list Rops)) f n j : fe_init sqrt "QUAD4" quad fquad normals pts (m_cells M) 1 2 (Some dm_bc) = Ok f ->
    prescribed f n j = dirichlet_value pts [Loc1 dm_left; Loc1 dm_right; Loc1 dm_top] [0; 0; 0]%nat [u0; u0; u0_top] n j.
  Proof.
    intros B. destruct (built_inv _ _ _ _ _ _ _ _ _ _ _ B) as (info & fi & [[ns vs] ws] & HI & HFI & HD & Hf).
    destruct (dirichlet_spec (K := Rops) pts [Loc1 dm_left; Loc1 dm_right; Loc1 dm_top] [0; 0; 0]%nat [u0; u0; u0_top]) as (_ & _ & D).
    destruct (D eq_refl eq_refl eq_refl) as (ns' & vs' & ws' & ED & OK). change (Some ([Loc1 dm_left; Loc1 dm_right; Loc1 dm_top], [0; 0; 0]%nat, [u0; u0; u0_top])) with (Some dm_bc) in ED.
    rewrite HD in ED. injection ED as <- <- <-. assert (PE : points f = pts) by now rewrite Hf.
    rewrite <- PE in OK |- *. refine (proj1 (proj2 (dirichlet_prescribed f _ _ _ _)) n j). rewrite Hf. rewrite Hf in OK. exact OK.
  Qed.
  Lemma u_anchored f : fe_init sqrt "QUAD4" quad fquad normals P0 (m_cells M) 1 2 (Some dm_bc) = Ok f -> anchored f.
  Proof.
    intros B n k Hn Hk. pose proof (built_points _ _ _ _ _ _ _ _ _ _ _ B) as PE. rewrite (built_vec _ _ _ _ _ _ _ _ _ _ _ B) in Hk. assert (k = 0%nat) as -> by lia.
    assert (L : (0 < length P0)%nat) by (unfold P0, M; rewrite rect_points_len by assumption; nia).
    assert (E0 : nth 0 P0 [] = [0; 0]). { etransitivity; [exact (rect_point Nx Ny 1 1 HX HY 0 0 ltac:(lia) ltac:(lia))|]. cbn. unfold Rdiv. rewrite !Rmult_0_l. reflexivity. }
    exists 0%nat. assert (exists b, prescribed f 0 0 = Some b) as (b & Eb).
    { rewrite (u_prescribed P0 f 0 0 B). unfold dirichlet_value. cbn [length seq fold_left nth loc_holds Nat.eqb]. rewrite E0. apply Nat.ltb_lt in L. rewrite L. cbn [andb].
      assert (dm_left [0; 0] = true) as -> by (apply isclose_true; cbn [nth]; rewrite Rminus_0_r, Rabs_R0; lra). destruct (dm_right _), (dm_top _); eexists; reflexivity. }
    exists b. rewrite PE in *. split; [exact L|]. split; [exact Eb|]. rewrite (built_cells _ _ _ _ _ _ _ _ _ _ _ B). exact (rect_linked Nx Ny 1 1 HX HY n 0 Hn L).
  Qed.
  Lemma u_unique P x y : (forall c q, (c < Nx * Ny)%nat -> (q < length (fst quad))%nat -> 0 < get_JxW P (fe_of p 0) c q) -> solves p [P] x -> solves p [P] y -> x = y.
  Proof.
    intros JP. destruct (dm_inv Nx Ny HX HY quad fquad normals P0 p eq_refl NEW) as (f & B & EF & MP & WF & IV & LB).
    assert (FE : fe_of p 0 = f) by (unfold fe_of; now rewrite EF). rewrite FE in JP.
    pose proof (rect_num_cells Nx Ny 1 1 HX HY _ _ _ _ _ _ f B) as NCE. assert (CE : p_num_cells p = num_cells f) by (unfold p_num_cells, fe0; now rewrite EF).
    pose proof (built_vec _ _ _ _ _ _ _ _ _ _ _ B) as VE. pose proof (built_dim _ _ _ _ _ _ _ _ _ _ _ B) as DE. pose proof (built_quads _ _ _ _ _ _ _ _ _ _ _ B) as QE.
    pose proof (rect_mesh_ok Nx Ny 1 1 HX HY _ _ _ _ _ _ f B) as MO.
    assert (J' : forall c q, (c < p_num_cells p)%nat -> (q < num_quads f)%nat -> 0 < get_JxW P f c q) by (intros c q Hc Hq; apply JP; [rewrite CE, NCE in Hc; exact Hc|rewrite QE in Hq; exact Hq]).
    assert (STD : standard_problem p f). { split; [exact EF|]. rewrite MP. split; [reflexivity|]. split; [reflexivity|]. split; [left; discriminate|]. cbn. now rewrite LB. }
    apply (increasing_unique unit p f P (fun _ _ => grad_product (vec f) (dim f))); auto.
    - rewrite CE, NCE. nia.
    - rewrite VE, DE, MP. exact dm_maps_ok.
    - intros; apply grad_inner.
    - intros c q _ _ a b. now apply dm_grows.
    - intros sms sm u u' z iv k E I. rewrite MP in E. injection E as <-. destruct I as [<-|[]]. reflexivity.
    - apply grad_seen. intros d SD HZ ZG.
      apply (anchored_free "QUAD4" sqrt quad fquad normals P0 (m_cells M) 1 (Some dm_bc) f B MO (or_intror (or_introl (conj eq_refl SHARP))) P p (fun _ => 1) (fun _ _ => 0) (fun _ _ _ => 0) EF (u_anchored f B) (fun _ _ _ _ => Rlt_0_1)); auto.
      + intros c q Hc Hq Z. pose proof (J' c q Hc Hq) as J. unfold get_JxW in J. rewrite Z in J. cbn in J. rewrite Rmult_0_l in J. lra.
      + intros c q k0 Hc Hq Hk X. unfold alpha_at in X. lra.
      + intros s0 e q k0 Hs He Hq Hk X. unfold beta_at in X. lra.
  Qed.
End Unique.

(** ** the weights of the moved mesh *)
Lemma moved_jxw Nx Ny (HX : (0 < Nx)%nat) (HY : (0 < Ny)%nat) i0 quad fquad normals f t : (i0 <= Nx)%nat ->
  fe_init sqrt "QUAD4" quad fquad normals (m_points (rectangle_mesh Nx Ny 1 1)) (m_cells (rectangle_mesh Nx Ny 1 1)) 1 2 (Some dm_bc) = Ok f ->
  (forall q, (q < length (fst quad))%nat -> 0 <= nth 0 (nth q (fst quad) []) 0 <= 1 /\ 0 < nth q (snd quad) 0) -> Rabs t < / INR Ny ->
  forall c q, (c < Nx * Ny)%nat -> (q < length (fst quad))%nat -> 0 < get_JxW (moved (m_points (rectangle_mesh Nx Ny 1 1)) (i0 * (Ny + 1)) 1 t) f c q.
Proof.
  intros I0 B RULE T c q Hc Hq. destruct (RULE q Hq) as (R1 & R2). unfold get_JxW. rewrite (built_dim _ _ _ _ _ _ _ _ _ _ _ B), (built_weights _ _ _ _ _ _ _ _ _ _ _ B).
  apply Rmult_lt_0_compat; [|exact R2]. destruct (div_mod_lt _ _ _ Hc) as (A1 & A2 & A3). rewrite A3 at 1.
  rewrite (moved_det Nx Ny HX HY i0 I0 quad fquad normals f B t (c / Ny) (c mod Ny) q A1 A2).
  pose proof (lt_0_INR Nx HX) as PX. pose proof (lt_0_INR Ny HY) as PY. apply Rmult_lt_0_compat; [apply Rdiv_lt_0_compat; lra|].
  set (xi := nth 0 (nth q (fst quad) []) 0) in *. clearbody xi. replace (1 / INR Ny) with (/ INR Ny) by (field; lra).
  assert (HT : t < / INR Ny /\ 0 < / INR Ny) by (split; [eapply Rle_lt_trans; [apply Rle_abs|exact T]|apply Rinv_0_lt_compat; exact PY]).
  assert (G : forall h s0 s1 : R, 0 < h -> s0 < h -> s1 < h -> 0 < h - s0 * (1 - xi) - s1 * xi).
  { intros h s0 s1 A B1 B2. replace (h - s0 * (1 - xi) - s1 * xi) with ((h - s0) * (1 - xi) + (h - s1) * xi) by ring.
    destruct (Req_dec xi 0) as [->|]; [lra|]. assert (0 <= (h - s0) * (1 - xi)) by (apply Rmult_le_pos; lra). assert (0 < (h - s1) * xi) by (apply Rmult_lt_0_compat; lra). lra. }
  apply G; [tauto|destruct (_ && _); tauto|destruct (_ && _); tauto].
Qed.

(** ** the objective *)
Lemma objective_value N (x : list (list Rops)) : shaped N 1 x -> objective_sum_u_squared [x] = sum_of_squares N x.
Proof.
  unfold objective_sum_u_squared, sum_of_squares. cbn [nth]. revert N. induction x as [|row x IH]; intros N (L & H).
  - cbn in L. subst N. reflexivity.
  - destruct N as [|N]; [discriminate|]. cbn in L. injection L as L. pose proof (H row (or_introl eq_refl)) as LR. destruct row as [|u [|]]; try discriminate.
    cbn [concat app map fold_right]. rewrite (IH N (conj L (fun r Hr => H r (or_intror Hr)))). etransitivity; [|symmetry; exact (LagrangianLoop.sum_n_head (fun a => get2 (@zero Rops) ([u] :: x) a 0 * get2 (@zero Rops) ([u] :: x) a 0) N)]. change (get2 (@zero Rops) ([u] :: x) 0 0) with u. assert (Q : forall z : R, z ^ 2 = z * z) by (intros; ring). exact (f_equal2 Rplus (Q u) eq_refl).
Qed.

(** ** argmin *)
Lemma less_irr x : less x x = false.
Proof. destruct x as [a|]; cbn; [destruct (Rlt_dec a a); [lra|]|]; reflexivity. Qed.
Lemma less_step x y z : less x y = true -> less z y = false -> less z x = false.
Proof. destruct x as [a|], y as [b|], z as [c|]; cbn; try discriminate; auto; repeat destruct (Rlt_dec _ _); try discriminate; auto; exfalso; lra. Qed.
Lemma argmin_from_spec l : forall (pre : list (option R)) r, (r < length pre)%nat -> (forall k, (k < length pre)%nat -> less (nth k pre None) (nth r pre None) = false) ->
  let s := argmin_from (r, nth r pre None) (length pre) l in
  (s < length (pre ++ l))%nat /\ forall k, (k < length (pre ++ l))%nat -> less (nth k (pre ++ l) None) (nth s (pre ++ l) None) = false.
Proof.
  induction l as [|x l IH]; intros pre r Hr H; cbn [argmin_from].
  - rewrite app_nil_r. cbn [fst]. auto.
  - replace (pre ++ x :: l) with ((pre ++ [x]) ++ l) by now rewrite <- app_assoc. replace (S (length pre)) with (length (pre ++ [x])) by (rewrite app_length; cbn; lia). cbn [snd].
    assert (NX : nth (length pre) (pre ++ [x]) None = x) by (rewrite app_nth2, Nat.sub_diag by lia; reflexivity).
    assert (NP : forall k, (k < length pre)%nat -> nth k (pre ++ [x]) None = nth k pre None) by (intros k Hk; now rewrite app_nth1).
    assert (LP : length (pre ++ [x]) = S (length pre)) by (rewrite app_length; cbn; lia).
    destruct (less x (nth r pre None)) eqn:E.
    + pose proof (IH (pre ++ [x]) (length pre)) as I. rewrite NX in I. apply I; [lia|]. clear I. intros k Hk. destruct (Nat.eq_dec k (length pre)) as [->|D]; [rewrite NX; apply less_irr|]. rewrite NP by lia.
      eapply less_step; [exact E|]. apply H. lia.
    + pose proof (IH (pre ++ [x]) r) as I. rewrite (NP r Hr) in I. apply I; [lia|]. clear I. intros k Hk. destruct (Nat.eq_dec k (length pre)) as [->|D]; [now rewrite NX|]. rewrite NP by lia. apply H. lia.
Qed.
Lemma argmin_spec l r : argmin l = Ok r -> (r < length l)%nat /\ forall k, (k < length l)%nat -> less (nth k l None) (nth r l None) = false.
Proof.
  destruct l as [|x l]; [discriminate|]. cbn [argmin]. intros [= <-]. apply (argmin_from_spec l [x] 0%nat); [cbn; lia|]. intros k Hk. cbn in Hk. assert (k = 0)%nat as -> by lia. apply less_irr.
Qed.
