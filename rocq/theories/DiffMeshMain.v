(** Lemmas for C104: a problem built again on other points. *)
From Coq Require Import String List Arith Bool Lia Reals.
From Verif Require Import Num Arr ArrFacts Fe Problem Basis Init SpecFe SpecAssembly SpecBc SpecLinear SpecDiffMesh.
Import ListNotations.
Local Open Scope nat_scope.

Lemma map2_same {A} (g : list Rops -> nat -> A) (pts pts' : list (list Rops)) : length pts' = length pts ->
  (forall n, n < length pts -> g (nth n pts' []) n = g (nth n pts []) n) ->
  map2 g pts' (seq 0 (length pts')) = map2 g pts (seq 0 (length pts)).
Proof.
  intros L H. rewrite L. unfold map2.
  assert (X : forall (l l' : list (list Rops)) s, length l' = length l -> (forall n, n < length l -> g (nth n l' []) (s + n) = g (nth n l []) (s + n)) ->
    map (fun ab => g (fst ab) (snd ab)) (combine l' (seq s (length l))) = map (fun ab => g (fst ab) (snd ab)) (combine l (seq s (length l)))).
  { clear. induction l as [|x l IH]; intros [|x' l'] s L H; try discriminate; [reflexivity|]. cbn. f_equal.
    - specialize (H 0 ltac:(cbn; lia)). cbn in H. rewrite Nat.add_0_r in H. exact H.
    - apply IH; [now injection L|]. intros n Hn. specialize (H (S n) (proj1 (Nat.succ_lt_mono _ _) Hn)). cbn in H. rewrite <- plus_n_Sm in H. exact H. }
  apply (X pts pts' 0 L). intros n Hn. now apply H.
Qed.
Lemma map2_nth {A} (d : A) (g : list Rops -> nat -> A) (pts : list (list Rops)) n : n < length pts -> nth n (map2 g pts (seq 0 (length pts))) d = g (nth n pts []) n.
Proof.
  intros Hn. unfold map2. rewrite (nth_indep _ d (g [] 0)) by (rewrite map_length, combine_length, seq_length; lia).
  change (g [] 0) with ((fun ab => g (fst ab) (snd ab)) (@nil Rops, 0)). rewrite map_nth, combine_nth by now rewrite seq_length. cbn [fst snd]. now rewrite seq_nth.
Qed.
Lemma group_same (pts pts' : list (list Rops)) g v w : length pts' = length pts -> (forall n, n < length pts -> g (nth n pts' []) n = g (nth n pts []) n) ->
  (forall n, n < length pts -> g (nth n pts []) n = true -> w (nth n pts' []) = w (nth n pts [])) -> dirichlet_group (K := Rops) pts' g v w = dirichlet_group pts g v w.
Proof.
  intros L H W. unfold dirichlet_group. rewrite (map2_same g pts pts' L H). f_equal. unfold take. rewrite !map_map. apply map_ext_in.
  intros n Hn. apply argwhere_In in Hn. destruct Hn as (Hl & Hf). unfold map2 in Hl. rewrite map_length, combine_length, seq_length in Hl.
  rewrite map2_nth in Hf by lia. unfold gather. rewrite L. replace (Nat.min n (length pts - 1)) with n by lia. apply W; [lia|exact Hf].
Qed.
Lemma loop_same (pts pts' : list (list Rops)) : length pts' = length pts -> forall ls vs ws,
  (forall l n, In l ls -> n < length pts -> loc_holds l (nth n pts' []) n = loc_holds l (nth n pts []) n) ->
  (forall i n l w, nth_error ls i = Some l -> nth_error ws i = Some w -> n < length pts -> loc_holds l (nth n pts []) n = true -> w (nth n pts' []) = w (nth n pts [])) ->
  dirichlet_loop (K := Rops) pts' ls vs ws = dirichlet_loop pts ls vs ws.
Proof.
  intros L. induction ls as [|l ls IH]; intros vs ws H W; [reflexivity|]. destruct vs as [|v vs]; [reflexivity|]. destruct ws as [|w ws]; [reflexivity|].
  cbn [dirichlet_loop]. rewrite (IH vs ws) by first [intros; apply H; [now right|assumption]|intros i n l0 w0; apply (W (S i) n l0 w0)].
  destruct l as [g|g|k]; cbn [as_loc2]; [| |reflexivity];
    (destruct (dirichlet_loop pts ls vs ws) as [[[a b] c]|e]; [|reflexivity]);
    (rewrite (group_same pts pts' _ v w L); [reflexivity|intros n Hn; exact (H _ n (or_introl eq_refl) Hn)|intros n Hn E; exact (W 0 n _ w eq_refl eq_refl Hn E)]).
Qed.
Lemma bc_same dir locs (pts pts' : list (list Rops)) : same_boundaries dir locs pts pts' -> Dirichlet_boundary_conditions pts' dir = Dirichlet_boundary_conditions pts dir.
Proof.
  intros (L & D & _). destruct dir as [[[ls vs] ws]|]; [|reflexivity]. destruct (D ls vs ws eq_refl) as (D1 & D2). cbn. destruct (_ && _); [|reflexivity]. now apply loop_same.
Qed.
Lemma faces_same (f f' : fe Rops) : cells f' = cells f -> face_inds f' = face_inds f -> length (points f') = length (points f) -> cells_valid (cells f) (points f) -> forall ls,
  (forall l n, In l ls -> n < length (points f) -> loc_holds l (nth n (points f') []) n = loc_holds l (nth n (points f) []) n) -> boundary_loop f' ls = boundary_loop f ls.
Proof.
  intros EC EF L CV ls. induction ls as [|l ls IH]; intros H; [reflexivity|]. cbn [boundary_loop]. rewrite IH by (intros; apply H; [now right|assumption]).
  assert (X : forall g, (forall n, n < length (points f) -> g (nth n (points f') []) n = g (nth n (points f) []) n) -> boundary_flags f' g = boundary_flags f g).
  { intros g Hg. unfold boundary_flags. rewrite EC, EF. apply map_ext_in. intros c Hc. apply map_ext. intros face.
    induction face as [|a face IHf]; [reflexivity|]. cbn [forallb]. f_equal; [|exact IHf]. set (n := gather 0 c a). cbv zeta. unfold gather. rewrite L. subst n.
    destruct (Nat.eq_dec (length (points f)) 0) as [Z|Z].
    - apply length_zero_iff_nil in Z. assert (Z' : points f' = []) by (apply length_zero_iff_nil; rewrite L, Z; reflexivity). now rewrite Z, Z'.
    - assert (Hn : gather 0 c a < length (points f)).
      { unfold gather. destruct c as [|x c]; [destruct (Nat.min _ _); exact (proj1 (Nat.neq_0_lt_0 _) Z)|]. apply (CV (x :: c)); [exact Hc|]. apply nth_In. cbn [length]. lia. }
      replace (Nat.min (gather 0 c a) (length (points f) - 1)) with (gather 0 c a) by lia. now apply Hg. }
  destruct l as [g|g|k]; cbn [as_loc2]; [| |reflexivity]; (rewrite X; [reflexivity|intros n Hn; exact (H _ n (or_introl eq_refl) Hn)]).
Qed.

(** p on other points *)
Definition with_points (f : fe Rops) (pts : list (list Rops)) : fe Rops :=
  mkFe pts (cells f) (vec f) (dim f) (num_quads f) (num_nodes f) (num_faces f) (num_face_quads f) (shape_vals f) (shape_grads_ref f) (quad_weights f)
       (face_shape_vals f) (face_shape_grads_ref f) (face_quad_weights f) (face_normals f) (face_inds f) (node_inds_list f) (vec_inds_list f) (vals_list f).
Lemma problem_inv {V} s quad fquad normals pts cls v d dir locs (m : user_maps Rops V) init p :
  problem_init sqrt d [mkVar pts cls v s quad fquad normals dir] locs m init = Ok p ->
  exists f, fe_init sqrt s quad fquad normals pts cls v d dir = Ok f /\ get_boundary_conditions_inds f locs = Ok (boundary_inds_list p) /\
    p = mkProblem [f] (boundary_inds_list p) m (fst (init [] (map (fun _ => []) (boundary_inds_list p)))) (snd (init [] (map (fun _ => []) (boundary_inds_list p)))) /\
    pre_jit_check p = Ok tt.
Proof.
  unfold problem_init, make_fes. cbn [mapM bind va_ele_type va_quad va_fquad va_normals va_points va_cells va_vec va_bc].
  destruct (fe_init _ _ _ _ _ _ _ _ _ _) as [f|e]; [|discriminate]. cbn [bind]. destruct (get_boundary_conditions_inds f locs) as [bil|e] eqn:EB; [|discriminate]. cbn [bind].
  destruct (forallb _ _); [|discriminate]. set (q := mkProblem _ _ _ _ _). destruct (pre_jit_check q) as [[]|e] eqn:E; [|discriminate]. cbn [bind]. intros [= <-].
  exists f. split; [reflexivity|]. cbn [q boundary_inds_list]. split; [assumption||reflexivity|]. split; [reflexivity|exact E].
Qed.
Section Rebuild.
  Context {V : Type}.
  Variables (s : string) (quad fquad : list (list Rops) * list Rops) (normals : nat -> nat -> Rops) (cls : list (list nat)) (v d : nat).
  Variables (dir : option (list (location_fn Rops) * list nat * list (list Rops -> Rops))) (locs : option (list (location_fn Rops))) (m : user_maps Rops V).
  Variable init : list (list (nat -> V)) -> list (list (list (nat -> V))) -> list (list (nat -> V)) * list (list (list (nat -> V))).
  Variables (pts pts' : list (list Rops)) (p : problem Rops V).
  Hypothesis CV : cells_valid cls pts.
  Hypothesis SB : same_boundaries dir locs pts pts'.
  Hypothesis BUILT : problem_init sqrt d [mkVar pts cls v s quad fquad normals dir] locs m init = Ok p.
  Lemma rebuild_fe f : fe_init sqrt s quad fquad normals pts cls v d dir = Ok f -> fe_init sqrt s quad fquad normals pts' cls v d dir = Ok (with_points f pts').
  Proof.
    unfold fe_init. destruct (get_elements s) as [info|e]; [|discriminate]. destruct (reorder_inds _ _) as [fi|e]; [|discriminate].
    rewrite (bc_same dir locs pts pts' SB). destruct (Dirichlet_boundary_conditions pts dir) as [[[ns vs] ws]|e]; [|discriminate]. intros [= <-]. reflexivity.
  Qed.
  Lemma built_pc f : fe_init sqrt s quad fquad normals pts cls v d dir = Ok f -> points f = pts /\ cells f = cls.
  Proof.
    unfold fe_init. destruct (get_elements s) as [info|e]; [|discriminate]. destruct (reorder_inds _ _) as [fi|e]; [|discriminate].
    destruct (Dirichlet_boundary_conditions pts dir) as [[[ns vs] ws]|e]; [|discriminate]. intros [= <-]. split; reflexivity.
  Qed.
  Definition moved_problem : problem Rops V :=
    mkProblem (map (fun f => with_points f pts') (fes p)) (boundary_inds_list p) (maps p) (internal_vars p) (internal_vars_surfaces p).
  Lemma rebuild_init : problem_init sqrt d [mkVar pts' cls v s quad fquad normals dir] locs m init = Ok moved_problem.
  Proof.
    destruct (problem_inv _ _ _ _ _ _ _ _ _ _ _ _ _ BUILT) as (f & EF & EB & EP & PJ). destruct (built_pc f EF) as (Ep & Ec).
    unfold problem_init, make_fes. cbn [mapM bind va_ele_type va_quad va_fquad va_normals va_points va_cells va_vec va_bc].
    rewrite (rebuild_fe f EF). cbn [bind].
    assert (EB' : get_boundary_conditions_inds (with_points f pts') locs = Ok (boundary_inds_list p)).
    { rewrite <- EB. unfold get_boundary_conditions_inds. destruct locs as [ls|] eqn:EL; [|reflexivity]. destruct SB as (L & _ & F). apply faces_same; try reflexivity.
      - cbn. now rewrite Ep.
      - now rewrite Ep, Ec.
      - cbn [with_points points]. rewrite Ep. intros l n Hl Hn. exact (F ls l n eq_refl Hl Hn). }
    rewrite EB'. cbn [bind forallb]. rewrite Nat.eqb_refl. cbn [andb].
    assert (EM : mkProblem [with_points f pts'] (boundary_inds_list p) m (fst (init [] (map (fun _ => []) (boundary_inds_list p)))) (snd (init [] (map (fun _ => []) (boundary_inds_list p)))) = moved_problem).
    { unfold moved_problem. rewrite EP. reflexivity. }
    rewrite EM. assert (PJ' : pre_jit_check moved_problem = Ok tt) by exact PJ. rewrite PJ'. reflexivity.
  Qed.
  Lemma single : exists f, fes p = [f] /\ points f = pts.
  Proof. destruct (problem_inv _ _ _ _ _ _ _ _ _ _ _ _ _ BUILT) as (f & EF & _ & EP & _). exists f. rewrite EP. split; [reflexivity|]. apply (built_pc f EF). Qed.
  Lemma helper_same w wf : compute_residual_vars_helper moved_problem w wf = compute_residual_vars_helper p w wf.
  Proof.
    destruct single as (f & EF & EP). unfold compute_residual_vars_helper, moved_problem. destruct p as [fs b mm iv ivs]. cbn [fes] in EF. subst fs. cbn [fes map length seq nth].
    unfold num_total_nodes. cbn [with_points points]. destruct SB as (L & _). rewrite L, <- EP. reflexivity.
  Qed.
  Lemma residual_same P sol : compute_residual sqrt moved_problem [P] sol = compute_residual sqrt p [P] sol.
  Proof.
    destruct single as (f & EF & EP). unfold compute_residual, compute_residual_vars. pose proof helper_same as H. unfold moved_problem in *. destruct p as [fs b mm iv ivs]. cbn [fes] in EF. subst fs.
    cbn [fes map boundary_inds_list maps internal_vars internal_vars_surfaces] in *.
    match goal with |- bind ?a ?g = bind ?a' ?g' => change a with a'; destruct a' as [w|e]; [|reflexivity] end. cbn [bind].
    match goal with |- bind ?a ?g = bind ?a' ?g' => change a with a'; destruct a' as [wf|e]; [|reflexivity] end. cbn [bind]. now rewrite H.
  Qed.
  Lemma newton_same jvp P sol : newton_update jvp sqrt moved_problem [P] sol = newton_update jvp sqrt p [P] sol.
  Proof.
    destruct single as (f & EF & EP). unfold newton_update, compute_newton_vars. pose proof helper_same as H. unfold moved_problem in *. destruct p as [fs b mm iv ivs]. cbn [fes] in EF. subst fs.
    cbn [fes map boundary_inds_list maps internal_vars internal_vars_surfaces] in *.
    match goal with |- bind ?a ?g = bind ?a' ?g' => change a with a'; destruct a' as [w|e]; [|reflexivity] end. cbn [bind].
    match goal with |- bind ?a ?g = bind ?a' ?g' => change a with a'; destruct a' as [wf|e]; [|reflexivity] end. cbn [bind]. now rewrite H.
  Qed.
  Lemma solves_same P sol : solves moved_problem [P] sol <-> solves p [P] sol.
  Proof.
    destruct single as (f & EF & EP). pose proof (residual_same P sol) as R. destruct SB as (L & _).
    assert (A : sol_ok moved_problem sol <-> sol_ok p sol).
    { unfold sol_ok, fe_of, moved_problem. cbn [fes]. rewrite EF. cbn [map length nth]. split; intros (H1 & H2); (split; [exact H1|]); intros i Hi; specialize (H2 i Hi); assert (i = 0) as -> by lia; cbn [nth with_points points vec] in *; now rewrite ?L, ?EP in *. }
    unfold solves. rewrite R, A. unfold fe_of, moved_problem. cbn [fes]. rewrite EF. cbn [map length].
    split; intros (H1 & res & H2 & H3); (split; [exact H1|]); exists res; (split; [exact H2|]); intros i n j Hi Hn Hj; specialize (H3 i n j Hi);
      assert (i = 0) as -> by lia; cbn [nth with_points points vec] in *; rewrite ?L, ?EP in *; exact (H3 Hn Hj).
  Qed.
End Rebuild.
Theorem rebuilt_problem : forall (V : Type) s quad fquad normals cls v d dir locs (m : user_maps Rops V) init pts pts' p,
  cells_valid cls pts -> same_boundaries dir locs pts pts' ->
  problem_init sqrt d [mkVar pts cls v s quad fquad normals dir] locs m init = Ok p ->
  exists p', problem_init sqrt d [mkVar pts' cls v s quad fquad normals dir] locs m init = Ok p' /\ map points (fes p') = [pts'] /\
    boundary_inds_list p' = boundary_inds_list p /\
    (forall sol, compute_residual sqrt p' [pts'] sol = compute_residual sqrt p [pts'] sol) /\
    (forall jvp sol, newton_update jvp sqrt p' [pts'] sol = newton_update jvp sqrt p [pts'] sol) /\
    (forall n j, prescribed (fe_of p' 0) n j = prescribed (fe_of p 0) n j) /\
    forall sol, solves p' [pts'] sol <-> solves p [pts'] sol.
Proof.
  intros V s quad fquad normals cls v d dir locs m init pts pts' p CV SB B. exists (moved_problem pts' p).
  destruct (single s quad fquad normals cls v d dir locs m init pts p B) as (f & EF & EP).
  split; [exact (rebuild_init s quad fquad normals cls v d dir locs m init pts pts' p CV SB B)|]. split; [unfold moved_problem; cbn [fes]; now rewrite EF|]. split; [reflexivity|].
  split; [intros; exact (residual_same s quad fquad normals cls v d dir locs m init pts pts' p SB B _ _)|].
  split; [intros; exact (newton_same s quad fquad normals cls v d dir locs m init pts pts' p SB B _ _ _)|].
  split; [intros; unfold fe_of, moved_problem; cbn [fes]; now rewrite EF|].
  intros. exact (solves_same s quad fquad normals cls v d dir locs m init pts pts' p SB B _ _).
Qed.
