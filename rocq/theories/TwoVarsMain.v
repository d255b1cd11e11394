(** Lemmas for C108: the residuals. *)
From Coq Require Import Reals String List Arith Lia Lra Bool.
From Verif Require Import Num Arr ArrFacts BatchFacts Fe Problem SpecAssembly AssemblyFacts ProblemFacts ResidualFacts Basis SpecBasis SpecFe FeFacts GeomFacts SpecBc BcFacts SpecSelect SelectFacts SpecWeak KernelFacts ElasticFacts SpecLinear
  DynamicsFacts Init SpecInit InitFacts Lagrangian LaserHeat Wave Elastic CoupledFacts TwoVars SpecTwoVars.
Import ListNotations.
Local Open Scope R_scope.
Local Notation sum := (sum_n (K := Rops)).

(** ** Residuals without faces *)
Lemma cell_residual {V} (p : problem Rops V) pts sol : wf_problem p -> (0 < p_num_cells p)%nat -> sol_ok p sol -> ivs_ok p -> boundary_inds_list p = [] ->
  (forall ci, length (ci_sol ci) = all_dofs (local_shapes p) -> length (kernel_cell p ci) = all_dofs (local_shapes p)) ->
  exists res, compute_residual sqrt p pts sol = Ok res /\ has_shapes (global_shapes p) res /\
  forall v n j, (v < length (fes p))%nat -> (n < length (points (fe_of p v)))%nat -> (j < vec (fe_of p v))%nat ->
    get2 (@zero Rops) (nth v res []) n j = sum (p_num_cells p) (fun c => sum (num_nodes (fe_of p v)) (fun a =>
      if (node_of p v c a =? n)%nat then nth (dof_number (local_shapes p) v a j) (kernel_cell p (cell_input p pts sol c)) (@zero Rops) else 0)).
Proof.
  intros WF NC SOL IV B KL.
  assert (KER : kernels_ok p (fun _ _ => [])) by (split; [exact KL|]; intros s Hs; rewrite B in Hs; cbn in Hs; lia).
  pose proof (compute_residual_ok sqrt p pts sol _ WF NC SOL IV KER) as E. pose proof (helper_shapes Rops_ring sqrt p pts sol _ WF NC SOL KER) as HS.
  eexists. split; [exact E|]. split; [exact HS|]. intros v n j Hv Hn Hj.
  pose proof (proj2 (helper_var Rops_ring sqrt p pts sol _ WF NC SOL KER v Hv) n j Hn Hj) as HV. etransitivity; [exact HV|]. rewrite B. cbn [length]. exact (Rplus_0_r _).
Qed.

(** ** The stress *)
Lemma tv_stress_ext {V} d G H k j : (k < d)%nat -> (j < d)%nat -> (forall k j, (k < d)%nat -> (j < d)%nat -> G k j = H k j) -> tv_stress (V := V) d G k j = tv_stress (V := V) d H k j.
Proof.
  intros Hk Hj E. unfold tv_stress, elastic_stress. assert (T : trace d (strain G) = trace d (strain H)).
  { unfold trace. apply Rsum_ext. intros m Hm. unfold strain. now rewrite E by auto. }
  rewrite T. unfold strain. now rewrite !E by auto.
Qed.

(** ** Elements on the same mesh *)
Section Same.
  Variables (s : string) (quad fquad : list (list Rops) * list Rops) (normals : nat -> nat -> Rops) (pts : list (list Rops)) (cls : list (list nat)) (v v' : nat) (b b' : option (list (location_fn Rops) * list nat * list (list Rops -> Rops))) (f f' : fe Rops).
  Hypothesis B : fe_init sqrt s quad fquad normals pts cls v 3 b = Ok f.
  Hypothesis B' : fe_init sqrt s quad fquad normals pts cls v' 3 b' = Ok f'.
  Lemma same_all : points f' = points f /\ cells f' = cells f /\ dim f' = dim f /\ num_quads f' = num_quads f /\ num_nodes f' = num_nodes f /\
    (forall P c q a j, get_shape_grads P f' c q a j = get_shape_grads P f c q a j) /\ (forall P c q, get_JxW P f' c q = get_JxW P f c q).
  Proof.
    destruct (built_inv _ _ _ _ _ _ _ _ _ _ _ B) as (info & fi & [[ns vs] ws] & HI & HFI & HD & Hf). destruct (built_inv _ _ _ _ _ _ _ _ _ _ _ B') as (info' & fi' & [[ns' vs'] ws'] & HI' & HFI' & HD' & Hf').
    rewrite HI in HI'. injection HI' as <-. rewrite Hf, Hf'. repeat split; reflexivity.
  Qed.
End Same.

(** ** The common entries *)
Section Entry.
  Context {V : Type}.
  Variables (f : fe Rops) (P u : list (list Rops)).
  Definition cell_grad (c q k j : nat) : Rops := sum (num_nodes f) (fun a => mul (get2 (@zero Rops) u (cell_node f c a) k) (get_shape_grads P f c q a j)).
  Definition entry (c a k : nat) : Rops := sum (num_quads f) (fun q => sum (dim f) (fun j => mul (tv_stress (V := V) (dim f) (cell_grad c q) k j) (mul (get_shape_grads P f c q a j) (get_JxW P f c q)))).
End Entry.

Section One.
  Context {V : Type}.
  Variables (p : problem Rops V) (f : fe Rops) (P u : list (list Rops)).
  Hypothesis FES : fes p = [f].
  Hypothesis MAPS : maps p = one_var_maps [f].
  Hypothesis WF : wf_problem p.
  Hypothesis NC : (0 < p_num_cells p)%nat.
  Hypothesis IV : ivs_ok p.
  Hypothesis BD : boundary_inds_list p = [].
  Hypothesis VEC : vec f = 3%nat.
  Hypothesis DIM : dim f = 3%nat.
  Hypothesis SOL : sol_ok p [u].
  Lemma one_fe : fe_of p 0 = f. Proof. unfold fe_of. now rewrite FES. Qed.
  Lemma one_shapes : local_shapes p = [(num_nodes f, vec f)]. Proof. unfold local_shapes. now rewrite FES. Qed.
  Lemma one_node c a : node_of p 0 c a = cell_node f c a. Proof. unfold node_of, cell_node. now rewrite one_fe. Qed.
  Lemma one_kernel ci : kernel_cell p ci = one_var_kernel (mkProblem [f] [] (mkMaps None None None None None) [] []) ci.
  Proof. unfold kernel_cell. now rewrite MAPS. Qed.
  Lemma one_len ci : length (kernel_cell p ci) = all_dofs (local_shapes p).
  Proof. rewrite one_kernel, one_shapes. unfold one_var_kernel. cbv zeta. cbn [fes nth]. rewrite flat_table_len. unfold all_dofs. cbn. lia. Qed.
  Lemma one_sol c a k : (c < p_num_cells p)%nat -> (a < num_nodes f)%nat -> (k < vec f)%nat -> get2 (@zero Rops) (nth 0 (unravel [(num_nodes f, vec f)] (cell_values p [u] c)) []) a k = get2 (@zero Rops) u (cell_node f c a) k.
  Proof.
    intros Hc Ha Hk. rewrite <- one_shapes. assert (VD : valid_dof (local_shapes p) 0 a k) by (rewrite one_shapes; repeat split; cbn; auto; lia).
    rewrite get2_unravel; auto.
    - rewrite cell_values_nth by auto. now rewrite one_node.
    - rewrite <- all_dofs_total. apply cell_values_length; auto.
  Qed.
  Lemma one_entry c a k : (c < p_num_cells p)%nat -> (a < num_nodes f)%nat -> (k < 3)%nat ->
    nth (dof_number (local_shapes p) 0 a k) (kernel_cell p (cell_input p [P] [u] c)) (@zero Rops) = entry (V := V) f P u c a k.
  Proof.
    intros Hc Ha Hk. rewrite one_kernel, one_shapes. unfold dof_number. cbn [dofs_before nth snd]. rewrite Nat.add_0_l. unfold one_var_kernel. cbv zeta. cbn [fes nth].
    rewrite (nth_flat_table (@zero Rops) (fun a k => sum (num_quads f) _)) by (try rewrite VEC; auto).
    unfold entry. apply Rsum_ext. intros q Hq. apply Rsum_ext. intros j Hj. cbn [ci_vgJxW cell_input ci_sol ci_grads].
    assert (GR : forall q a j, (a < num_nodes f)%nat -> p_shape_grads p [P] c q a j = get_shape_grads P f c q a j).
    { intros q0 a0 j0 Ha0. unfold p_shape_grads. rewrite FES. cbn [combine map fst snd cat_axis]. apply Nat.ltb_lt in Ha0. now rewrite Ha0. }
    assert (VG : p_v_grads_JxW p [P] c q a j = mul (get_shape_grads P f c q a j) (get_JxW P f c q)).
    { unfold p_v_grads_JxW. rewrite FES. cbn [combine map fst snd cat_axis]. apply Nat.ltb_lt in Ha. now rewrite Ha. }
    rewrite VG. f_equal. apply tv_stress_ext; [now rewrite DIM|exact Hj|]. intros k' j' Hk' Hj'. rewrite DIM in Hk'. unfold cell_grad. apply Rsum_ext. intros a' Ha'.
    change (dof_shapes {| fes := [f]; boundary_inds_list := []; maps := _; internal_vars := []; internal_vars_surfaces := [] |}) with [(num_nodes f, vec f)].
    rewrite one_sol by (try rewrite VEC; auto). now rewrite GR.
  Qed.
  Lemma one_residual : exists r, compute_residual sqrt p [P] [u] = Ok [r] /\ shaped (length (points f)) 3 r /\
    forall n k, (n < length (points f))%nat -> (k < 3)%nat ->
      get2 (@zero Rops) r n k = sum (p_num_cells p) (fun c => sum (num_nodes f) (fun a => if (cell_node f c a =? n)%nat then entry (V := V) f P u c a k else 0)).
  Proof.
    destruct (cell_residual p [P] [u] WF NC SOL IV BD (fun ci _ => one_len ci)) as (res & E & HS & EN). unfold global_shapes in HS. rewrite FES in HS. cbn [map] in HS.
    destruct res as [|r [|r' res]]; inversion HS as [|? ? ? ? H1 H2]; subst; [|inversion H2]. exists r. split; [exact E|]. split.
    - destruct H1 as [A1 A2]. cbn [fst snd] in A1, A2. rewrite Forall_forall in A2. split; [exact A1|]. intros row Hr. rewrite <- VEC. now apply A2.
    - intros n k Hn Hk. specialize (EN 0%nat n k). rewrite one_fe, FES in EN. cbn [nth length] in EN. rewrite EN by (try rewrite VEC; auto).
      apply Rsum_ext. intros c Hc. apply Rsum_ext. intros a Ha. rewrite one_node. destruct (_ =? _)%nat; [|reflexivity]. now apply one_entry.
  Qed.
End One.

Lemma get2_joined (x y : list (list Rops)) n a k : length x = n -> length y = n -> (forall row, In row x -> length row = 1%nat) -> (a < n)%nat ->
  get2 (@zero Rops) (map2 (@app Rops) x y) a k = match k with O => get2 (@zero Rops) x a 0 | S k' => get2 (@zero Rops) y a k' end.
Proof.
  intros LX LY RX Ha. unfold get2. rewrite (nth_map2 _ x y a [] []) by lia. specialize (RX (nth a x []) ltac:(apply nth_In; lia)).
  destruct (nth a x []) as [|z [|z' l]]; try discriminate. now destruct k.
Qed.
Section Two.
  Context {V : Type}.
  Variables (p : problem Rops V) (f f0 f1 : fe Rops) (P u x y : list (list Rops)).
  Hypothesis FES : fes p = [f0; f1].
  Hypothesis MAPS : maps p = two_vars_maps [f0; f1].
  Hypothesis WF : wf_problem p.
  Hypothesis NC : (0 < p_num_cells p)%nat.
  Hypothesis IV : ivs_ok p.
  Hypothesis BD : boundary_inds_list p = [].
  Hypothesis VEC0 : vec f0 = 1%nat.
  Hypothesis VEC1 : vec f1 = 2%nat.
  Hypothesis DIM : dim f = 3%nat.
  Hypothesis S0 : points f0 = points f /\ cells f0 = cells f /\ dim f0 = dim f /\ num_quads f0 = num_quads f /\ num_nodes f0 = num_nodes f /\
    (forall P c q a j, get_shape_grads P f0 c q a j = get_shape_grads P f c q a j) /\ (forall P c q, get_JxW P f0 c q = get_JxW P f c q).
  Hypothesis S1 : points f1 = points f /\ cells f1 = cells f /\ dim f1 = dim f /\ num_quads f1 = num_quads f /\ num_nodes f1 = num_nodes f /\
    (forall P c q a j, get_shape_grads P f1 c q a j = get_shape_grads P f c q a j) /\ (forall P c q, get_JxW P f1 c q = get_JxW P f c q).
  Hypothesis SOL : sol_ok p [x; y].
  Hypothesis SPLIT : split3 u x y.
  Hypothesis LU : length u = length (points f).
  Local Notation self := (mkProblem (V := V) [f0; f1] [] (mkMaps None None None None None) [] []).
  Lemma two_fe0 : fe_of p 0 = f0. Proof. unfold fe_of. now rewrite FES. Qed.
  Lemma two_fe1 : fe_of p 1 = f1. Proof. unfold fe_of. now rewrite FES. Qed.
  Lemma two_len : length (fes p) = 2%nat. Proof. now rewrite FES. Qed.
  Lemma two_shapes : local_shapes p = [(num_nodes f0, vec f0); (num_nodes f1, vec f1)]. Proof. unfold local_shapes. now rewrite FES. Qed.
  Lemma two_node0 c a : node_of p 0 c a = cell_node f c a. Proof. unfold node_of, cell_node. rewrite two_fe0. now destruct S0 as (_ & -> & _). Qed.
  Lemma two_node1 c a : node_of p 1 c a = cell_node f c a. Proof. unfold node_of, cell_node. rewrite two_fe1. now destruct S1 as (_ & -> & _). Qed.
  Lemma two_kernel ci : kernel_cell p ci = two_vars_kernel self ci.
  Proof. unfold kernel_cell. now rewrite MAPS. Qed.
  Lemma two_nodes : num_nodes f0 = num_nodes f /\ num_nodes f1 = num_nodes f. Proof. destruct S0 as (_ & _ & _ & _ & E & _), S1 as (_ & _ & _ & _ & E' & _). auto. Qed.
  Lemma two_len_kernel ci : length (kernel_cell p ci) = all_dofs (local_shapes p).
  Proof.
    rewrite two_kernel, two_shapes. unfold two_vars_kernel. cbv zeta. cbn [fes nth]. rewrite app_length, !flat_table_len. unfold all_dofs. cbn [length dofs_before]. rewrite VEC0, VEC1. destruct two_nodes as [-> ->]. cbn. lia.
  Qed.
  Lemma two_sol0 c a : (c < p_num_cells p)%nat -> (a < num_nodes f)%nat -> get2 (@zero Rops) (nth 0 (unravel [(num_nodes f0, vec f0); (num_nodes f1, vec f1)] (cell_values p [x; y] c)) []) a 0 = get2 (@zero Rops) x (cell_node f c a) 0.
  Proof.
    intros Hc Ha. rewrite <- two_shapes. assert (VD : valid_dof (local_shapes p) 0 a 0) by (rewrite two_shapes; destruct two_nodes as [-> ->]; rewrite VEC0; repeat split; cbn; auto; lia).
    rewrite get2_unravel; auto.
    - rewrite cell_values_nth by auto. now rewrite two_node0.
    - rewrite <- all_dofs_total. apply cell_values_length; auto.
  Qed.
  Lemma two_sol1 c a k : (c < p_num_cells p)%nat -> (a < num_nodes f)%nat -> (k < 2)%nat -> get2 (@zero Rops) (nth 1 (unravel [(num_nodes f0, vec f0); (num_nodes f1, vec f1)] (cell_values p [x; y] c)) []) a k = get2 (@zero Rops) y (cell_node f c a) k.
  Proof.
    intros Hc Ha Hk. rewrite <- two_shapes. assert (VD : valid_dof (local_shapes p) 1 a k) by (rewrite two_shapes; destruct two_nodes as [-> ->]; rewrite VEC1; repeat split; cbn; auto; lia).
    rewrite get2_unravel; auto.
    - rewrite cell_values_nth by auto. now rewrite two_node1.
    - rewrite <- all_dofs_total. apply cell_values_length; auto.
  Qed.
  Lemma two_node_lt c a : (c < p_num_cells p)%nat -> (a < num_nodes f)%nat -> (cell_node f c a < length u)%nat.
  Proof.
    intros Hc Ha. rewrite LU. pose proof (node_bound p WF 0 c a) as H. rewrite two_node0, two_len, two_fe0 in H. destruct S0 as (EP & _ & _ & _ & EN & _). rewrite EP, EN in H. apply H; auto; lia.
  Qed.
  Lemma two_joined c a k : (c < p_num_cells p)%nat -> (a < num_nodes f)%nat -> (k < 3)%nat ->
    get2 (@zero Rops) (map2 (@app Rops) (nth 0 (unravel (dof_shapes self) (cell_values p [x; y] c)) []) (nth 1 (unravel (dof_shapes self) (cell_values p [x; y] c)) [])) a k = get2 (@zero Rops) u (cell_node f c a) k.
  Proof.
    intros Hc Ha Hk. change (dof_shapes self) with [(num_nodes f0, vec f0); (num_nodes f1, vec f1)].
    assert (HS : has_shapes [(num_nodes f0, vec f0); (num_nodes f1, vec f1)] (unravel [(num_nodes f0, vec f0); (num_nodes f1, vec f1)] (cell_values p [x; y] c))).
    { apply unravel_shapes. rewrite <- two_shapes, <- all_dofs_total. apply cell_values_length; auto. }
    destruct (has_shapes_nth _ _ 0 HS ltac:(cbn; lia)) as [H1 H2]. destruct (has_shapes_nth _ _ 1 HS ltac:(cbn; lia)) as [H3 H4]. cbn [nth fst snd] in H1, H2, H3, H4.
    destruct SPLIT as (_ & _ & SP). destruct (SP _ (two_node_lt c a Hc Ha)) as (EX & EY). destruct two_nodes as [N0 N1]. rewrite Forall_forall in H2.
    rewrite (get2_joined _ _ (num_nodes f)).
    - destruct k as [|k].
      + rewrite two_sol0 by auto. unfold get2. now rewrite EX.
      + rewrite two_sol1 by (auto; lia). unfold get2. rewrite EY. destruct k as [|[|k]]; [reflexivity|reflexivity|lia].
    - exact (eq_trans H1 N0).
    - exact (eq_trans H3 N1).
    - intros row Hr. exact (eq_trans (H2 row Hr) VEC0).
    - exact Ha.
  Qed.
  Lemma two_val c a k : (c < p_num_cells p)%nat -> (a < num_nodes f)%nat -> (k < 3)%nat ->
    sum (num_quads f0) (fun q => sum (dim f0) (fun j => mul
      (tv_stress (V := V) (dim f0) (fun k j => sum (num_nodes f0) (fun a => mul (get2 (@zero Rops) (map2 (@app Rops) (nth 0 (unravel (dof_shapes self) (cell_values p [x; y] c)) []) (nth 1 (unravel (dof_shapes self) (cell_values p [x; y] c)) [])) a k)
          (nodes_from self 0 (p_shape_grads p [P; P] c) q a j))) k j)
      (nodes_from self 0 (p_v_grads_JxW p [P; P] c) q a j))) = entry (V := V) f P u c a k.
  Proof.
    intros Hc Ha Hk. destruct S0 as (_ & _ & ED & EQ & EN & EG & EJ). rewrite ED, EQ, EN. unfold entry. apply Rsum_ext. intros q Hq. apply Rsum_ext. intros j Hj. unfold nodes_from, num_nodes_cumsum. cbn [firstn map fold_right Nat.add].
    assert (GR : forall q a j, (a < num_nodes f)%nat -> p_shape_grads p [P; P] c q a j = get_shape_grads P f c q a j).
    { intros q0 a0 j0 Ha0. unfold p_shape_grads. rewrite FES. cbn [combine map fst snd cat_axis]. rewrite EN. apply Nat.ltb_lt in Ha0. now rewrite Ha0, EG. }
    assert (VG : p_v_grads_JxW p [P; P] c q a j = mul (get_shape_grads P f c q a j) (get_JxW P f c q)).
    { unfold p_v_grads_JxW. rewrite FES. cbn [combine map fst snd cat_axis]. rewrite EN. apply Nat.ltb_lt in Ha. now rewrite Ha, EG, EJ. }
    rewrite VG. f_equal. apply tv_stress_ext; [now rewrite DIM|exact Hj|]. intros k' j' Hk' Hj'. rewrite DIM in Hk'. unfold cell_grad. apply Rsum_ext. intros a' Ha'.
    rewrite two_joined by auto. now rewrite GR.
  Qed.
  Lemma two_entry0 c a : (c < p_num_cells p)%nat -> (a < num_nodes f)%nat ->
    nth (dof_number (local_shapes p) 0 a 0) (kernel_cell p (cell_input p [P; P] [x; y] c)) (@zero Rops) = entry (V := V) f P u c a 0.
  Proof.
    intros Hc Ha. destruct two_nodes as [N0 N1]. rewrite two_kernel, two_shapes. unfold dof_number. cbn [dofs_before nth snd]. rewrite VEC0, Nat.add_0_l. unfold two_vars_kernel. cbv zeta. cbn [fes nth].
    rewrite app_nth1 by (rewrite flat_table_len; lia). rewrite (nth_flat_table (@zero Rops) (fun a k => sum (num_quads f0) _)) by lia. cbn [ci_vgJxW cell_input ci_sol ci_grads]. apply (two_val c a 0); auto.
  Qed.
  Lemma two_entry1 c a k : (c < p_num_cells p)%nat -> (a < num_nodes f)%nat -> (k < 2)%nat ->
    nth (dof_number (local_shapes p) 1 a k) (kernel_cell p (cell_input p [P; P] [x; y] c)) (@zero Rops) = entry (V := V) f P u c a (S k).
  Proof.
    intros Hc Ha Hk. destruct two_nodes as [N0 N1]. rewrite two_kernel, two_shapes. unfold dof_number. cbn [dofs_before nth snd]. rewrite VEC0, VEC1. unfold two_vars_kernel. cbv zeta. cbn [fes nth]. rewrite VEC0, VEC1. cbn [Nat.add Nat.sub].
    rewrite app_nth2 by (rewrite flat_table_len; lia). rewrite flat_table_len. replace (num_nodes f0 * 1 + 0 + a * 2 + k - num_nodes f0 * 1)%nat with (a * 2 + k)%nat by lia.
    rewrite (nth_flat_table (@zero Rops) (fun a k => sum (num_quads f0) _)) by lia. cbn [ci_vgJxW cell_input ci_sol ci_grads]. apply (two_val c a (S k)); auto; lia.
  Qed.
  Lemma two_residual : exists r0 r1, compute_residual sqrt p [P; P] [x; y] = Ok [r0; r1] /\ shaped (length (points f)) 1 r0 /\ shaped (length (points f)) 2 r1 /\
    (forall n, (n < length (points f))%nat ->
      get2 (@zero Rops) r0 n 0 = sum (p_num_cells p) (fun c => sum (num_nodes f) (fun a => if (cell_node f c a =? n)%nat then entry (V := V) f P u c a 0 else 0))) /\
    (forall n k, (n < length (points f))%nat -> (k < 2)%nat ->
      get2 (@zero Rops) r1 n k = sum (p_num_cells p) (fun c => sum (num_nodes f) (fun a => if (cell_node f c a =? n)%nat then entry (V := V) f P u c a (S k) else 0))).
  Proof.
    destruct (cell_residual p [P; P] [x; y] WF NC SOL IV BD (fun ci _ => two_len_kernel ci)) as (res & E & HS & EN). unfold global_shapes in HS. rewrite FES in HS. cbn [map] in HS.
    destruct S0 as (EP0 & _ & _ & _ & N0 & _), S1 as (EP1 & _ & _ & _ & N1 & _).
    destruct res as [|r0 [|r1 [|r2 res]]]; inversion HS as [|? ? ? ? H1 H2]; subst; inversion H2 as [|? ? ? ? H3 H4]; subst; [|inversion H4]. exists r0, r1. split; [exact E|].
    destruct H1 as [A1 A2], H3 as [A3 A4]. cbn [fst snd] in A1, A2, A3, A4. rewrite Forall_forall in A2, A4. rewrite EP0 in A1. rewrite EP1 in A3. rewrite VEC0 in A2. rewrite VEC1 in A4.
    split; [split; auto|]. split; [split; auto|]. split.
    - intros n Hn. specialize (EN 0%nat n 0%nat). rewrite two_fe0, two_len, EP0, VEC0 in EN. cbn [nth] in EN. rewrite EN by (auto; lia). rewrite N0.
      apply Rsum_ext. intros c Hc. apply Rsum_ext. intros a Ha. rewrite two_node0. destruct (_ =? _)%nat; [|reflexivity]. now apply two_entry0.
    - intros n k Hn Hk. specialize (EN 1%nat n k). rewrite two_fe1, two_len, EP1, VEC1 in EN. cbn [nth] in EN. rewrite EN by (auto; lia). rewrite N1.
      apply Rsum_ext. intros c Hc. apply Rsum_ext. intros a Ha. rewrite two_node1. destruct (_ =? _)%nat; [|reflexivity]. now apply two_entry1.
  Qed.
End Two.
