(** Proofs for C99: rectangle meshes meet the hypotheses. *)
From Coq Require Import String Reals List Arith Lia Lra Bool.
From Verif Require Import Num Arr ArrFacts Fe Problem SpecAssembly ProblemFacts AssemblyFacts DerivFacts Basis SpecBasis BasisFacts FeFacts GeomFacts SpecFe SpecWeak KernelFacts SpecBc SpecEnergy Elastic ElasticFacts LinAlg SpecLinear SpecPosed
  PosedFacts FieldFacts Wave SpecCoupled CoupledFacts CoupledLinear StokesMain ThermoMech SpecThermoMech ThermoMechFacts ThermoMechMain Mesh MeshFe FractureUse Dendrite SpecDendrite DendriteFacts DendriteMain DendriteRun
  Examples_energy DendriteEx SpecDendriteEx DendriteExFacts DendriteExMain DendriteExRun.
Import ListNotations.
Local Open Scope R_scope.
Local Notation V := (nat -> nat -> Rops).
Local Notation zr := (@zero Rops).

(** quadrature points strictly inside the unit square *)
Definition inside_square (pts : list (list Rops)) : Prop := forall q i, (q < List.length pts)%nat -> (i < 2)%nat -> 0 < nth i (nth q pts []) 0 < 1.
Lemma quad4_positive info (x : list Rops) : get_elements "QUAD4" = Ok info -> (forall i, (i < 2)%nat -> 0 < nth i x 0 < 1) ->
  forall a, (a < 4)%nat -> 0 < shape_value (K := Rops) info x a.
Proof.
  intros E H. injection E as <-. pose proof (H 0%nat ltac:(lia)) as H0. pose proof (H 1%nat ltac:(lia)) as H1.
  destruct x as [|X [|Y x]]; [cbn in H0; lra|cbn in H1; lra|]. cbn in H0, H1.
  assert (P1 : 0 < (1 - X) * (1 - Y)) by (apply Rmult_lt_0_compat; lra). assert (P2 : 0 < X * (1 - Y)) by (apply Rmult_lt_0_compat; lra). assert (P3 : 0 < (1 - X) * Y) by (apply Rmult_lt_0_compat; lra). assert (P4 : 0 < X * Y) by (apply Rmult_lt_0_compat; lra).
  intros n Hn. do 4 (destruct n as [|n]; [unfold shape_value, pt; cbn; lra|]). lia.
Qed.
(** ** the kernel of the masses is linear *)
Section Linear.
  Variables (P : dn_params) (fp fT : fe Rops).
  Hypothesis VP : vec fp = 1%nat.
  Hypothesis VT : vec fT = 1%nat.
  Local Notation p := (pm_of P fp fT).
  Local Notation n := (all_dofs (local_shapes p)).
  Lemma ls_is : local_shapes p = [(num_nodes fp, 1%nat); (num_nodes fT, 1%nat)].
  Proof. unfold local_shapes. cbn [pm_of fes map]. now rewrite VP, VT. Qed.
  Lemma n_is : n = (num_nodes fp + num_nodes fT)%nat.
  Proof. rewrite ls_is. unfold all_dofs. cbn. lia. Qed.
  Lemma lin_entry v f a : (v = 0%nat /\ f = fp) \/ (v = 1%nat /\ f = fT) -> (a < num_nodes f)%nat -> lin_in n (fun x => get2 zr (nth v (unravel (local_shapes p) x) []) a 0).
  Proof.
    intros Hv Ha. apply (lin_ext n (fun x => nth (dof_number (local_shapes p) v a 0) x 0%R)); [|apply lin_nth]. intros x Lx. symmetry. apply (get2_unravel (@zero Rops)).
    - rewrite Lx. apply all_dofs_total.
    - rewrite ls_is. destruct Hv as [[-> ->]|[-> ->]]; repeat split; cbn; auto.
  Qed.
  Lemma lin_value v f q : (v = 0%nat /\ f = fp) \/ (v = 1%nat /\ f = fT) ->
    lin_in n (fun x => sum_n (K := Rops) (num_nodes f) (fun a => get2 zr (nth v (unravel (local_shapes p) x) []) a 0 * shape_vals f q a)).
  Proof.
    intros Hv. apply lin_sum. intros a Ha. apply (lin_ext n (fun x => shape_vals f q a * get2 zr (nth v (unravel (local_shapes p) x) []) a 0)); [intros; apply Rmult_comm|]. apply lin_scale. now apply (lin_entry v f a).
  Qed.
  Lemma mass_linear pts sol c k : (k < n)%nat -> lin_in n (fun x => nth k (cell_fun p pts sol c x) 0).
  Proof.
    intros Hk. unfold cell_fun, kernel_cell. cbn [pm_of maps sm_maps universal_kernel mass_map tensor_map option_map badd unscalar]. unfold sm_kernel. cbv zeta. cbn [fes nth with_sol ci_sol ci_JxW]. rewrite n_is in Hk. rewrite VP, VT.
    change (dof_shapes _) with (local_shapes p).
    destruct (Nat.lt_ge_cases k (num_nodes fp)) as [L|L].
    - set (J := ci_JxW (cell_input p pts sol c) 0%nat).
      apply (lin_ext n (fun x => sum_n (K := Rops) (num_quads fp) (fun q => (tau P / dt P * shape_vals fp q k * J q) * sum_n (K := Rops) (num_nodes fp) (fun a => get2 zr (nth 0 (unravel (local_shapes p) x) []) a 0 * shape_vals fp q a)))).
      + intros x Lx. symmetry. rewrite app_nth1 by (rewrite flat_table_len; lia). replace k with (k * 1 + 0)%nat at 1 by lia. etransitivity; [apply (nth_flat_table 0%R (fun a _ => sum_n (K := Rops) (num_quads fp) _)); lia|].
        apply Rsum_ext. intros q _. unfold Rdiv. req. ring.
      + apply lin_sum. intros q _. apply lin_scale. apply (lin_value 0 fp q). auto.
    - set (J := ci_JxW (cell_input p pts sol c) 1%nat).
      apply (lin_ext n (fun x => sum_n (K := Rops) (num_quads fT) (fun q => (/ dt P * shape_vals fT q (k - num_nodes fp) * J q) * sum_n (K := Rops) (num_nodes fT) (fun a => get2 zr (nth 1 (unravel (local_shapes p) x) []) a 0 * shape_vals fT q a)))).
      + intros x Lx. symmetry. rewrite app_nth2 by (rewrite flat_table_len; lia). rewrite flat_table_len. replace (k - num_nodes fp * 1)%nat with ((k - num_nodes fp) * 1 + 0)%nat by lia. etransitivity; [apply (nth_flat_table 0%R (fun a _ => sum_n (K := Rops) (num_quads fT) _)); lia|].
        apply Rsum_ext. intros q _. unfold Rdiv. req. ring.
      + apply lin_sum. intros q _. apply lin_scale. apply (lin_value 1 fT q). auto.
  Qed.
  Lemma mass_jvp pts kf : wf_problem p -> (0 < p_num_cells p)%nat -> right_jvp difference p pts kf.
  Proof.
    intros WF NC sol SO. split; [|intros s i Hs; cbn in Hs; lia]. intros c Hc. apply (linear_jvp n).
    - now apply cell_values_length.
    - intros y Ly. pose proof (proj1 (cp_kernels p fp fT _ (m_coupled P fp fT) NC)) as KO. exact (KO (with_sol (cell_input p pts sol c) y) Ly).
    - intros k Hk. now apply mass_linear.
  Qed.
End Linear.
(** ** rectangle meshes *)
Section Rect.
  Variables (P : dn_params) (Nx Ny : nat) (Lx Ly : R) (sqrtK : R -> R) (quad fquad : list (list Rops) * list Rops) (normals : nat -> nat -> Rops).
  Hypothesis HX : (0 < Nx)%nat. Hypothesis HY : (0 < Ny)%nat. Hypothesis LX : 0 < Lx. Hypothesis LY : 0 < Ly.
  Hypothesis FG : full_grid 2 (fst quad).
  Hypothesis IN : inside_square (fst quad).
  Hypothesis WP : forall q, (q < List.length (fst quad))%nat -> 0 < nth q (snd quad) 0.
  Let M := rectangle_mesh Nx Ny Lx Ly.
  Variable f : fe Rops.
  Hypothesis BUILT : fe_init (K := Rops) sqrtK "QUAD4" quad fquad normals (m_points M) (m_cells M) 1 2 None = Ok f.
  Local Notation p := (pm_of P f f).
  Lemma rect_shape q a : (q < num_quads f)%nat -> (a < num_nodes f)%nat -> 0 < shape_vals f q a.
  Proof.
    intros Hq Ha. rewrite (built_quads _ _ _ _ _ _ _ _ _ _ _ BUILT) in Hq. pose proof (built_nodes _ _ _ _ _ _ _ _ _ _ _ BUILT) as NN. cbn in NN. rewrite NN in Ha.
    destruct (built_inv _ _ _ _ _ _ _ _ _ _ _ BUILT) as (info & fi & [[ns vs] ws] & HI & HFI & HD & Ef).
    assert (E : shape_vals f q a = shape_value (K := Rops) info (nth q (fst quad) []) a) by (rewrite Ef; reflexivity). rewrite E. apply quad4_positive; [exact HI| |exact Ha]. intros i Hi. now apply IN.
  Qed.
  Theorem rect_explicit : vec f = 1%nat /\ dim f = 2%nat /\ wf_problem p /\ p_num_cells p = (Nx * Ny)%nat /\ points f = m_points M /\ constants_exact p f /\
    (forall n, (n < List.length (points f))%nat -> 0 < share p f n) /\ (forall kf, right_jvp difference p [points f; points f] kf).
  Proof.
    destruct (rect_dendrite P Nx Ny Lx Ly sqrtK quad fquad normals HX HY LX LY FG WP f BUILT) as (DP & WF & NC & PF & SM & BC & TS & CE & FR).
    pose proof (built_vec _ _ _ _ _ _ _ _ _ _ _ BUILT) as V1. pose proof (built_dim _ _ _ _ _ _ _ _ _ _ _ BUILT) as D2.
    assert (WF' : wf_problem p) by (constructor; [exact (wf_cells _ WF)|exact (wf_cell_len _ WF)|exact (wf_cell_node _ WF)|exact (wf_boundary _ WF)]).
    assert (NC' : p_num_cells p = (Nx * Ny)%nat) by exact NC. assert (NP : (0 < p_num_cells p)%nat) by (rewrite NC'; nia).
    assert (JP : forall c q, (c < p_num_cells p)%nat -> (q < num_quads f)%nat -> 0 < get_JxW (points f) f c q) by (intros c q Hc Hq; exact (proj2 (SM c q Hc Hq))).
    assert (NQ : (0 < num_quads f)%nat).
    { rewrite (built_quads _ _ _ _ _ _ _ _ _ _ _ BUILT). destruct FG as (a0 & b0 & _ & G). destruct (fst quad) eqn:E; [|cbn; lia]. exfalso. apply (G [a0; a0]); [reflexivity|]. intros i Hi. destruct i as [|[|i]]; cbn; auto; lia. }
    split; [exact V1|]. split; [exact D2|]. split; [exact WF'|]. split; [exact NC'|]. split; [exact PF|]. split; [exact CE|]. split; [|intros kf; now apply mass_jvp].
    pose proof (NB0 P f f WF' NP) as NB. intros n Hn. set (N := List.length (points f)) in *.
    assert (T : forall c q a, (c < p_num_cells p)%nat -> (q < num_quads f)%nat -> (a < num_nodes f)%nat -> cell_sol_at f (hat N n) c a 0 * shape_vals f q a = if (cell_node f c a =? n)%nat then shape_vals f q a else 0).
    { intros c q a Hc Hq Ha. rewrite (entry_at p f NB (hat N n) c a (hat_shaped N n) Hc Ha). rewrite hat_get by now apply NB. destruct (cell_node f c a =? n)%nat; [exact (Rmult_1_l _)|exact (Rmult_0_l _)]. }
    assert (GE : forall c q, (c < p_num_cells p)%nat -> (q < num_quads f)%nat -> 0 <= convert_from_dof_to_quad f (hat N n) c q 0).
    { intros c q Hc Hq. unfold convert_from_dof_to_quad. apply Rsum_nonneg. intros a Ha. refine (Rle_trans _ _ _ _ (Req_le _ _ (eq_sym (T c q a Hc Hq Ha)))). destruct (cell_node f c a =? n)%nat; [apply Rlt_le; now apply rect_shape|apply Rle_refl]. }
    pose proof (over_nonneg p f (points f) JP _ GE) as G0. destruct G0 as [G0|G0]; [exact G0|exfalso].
    pose proof Hn as Hn2. unfold N in Hn2. rewrite PF in Hn2. destruct (rect_covers Nx Ny Lx Ly n HX HY Hn2) as (cell & IC & INn).
    assert (IC' : In cell (cells f)) by (rewrite (built_cells _ _ _ _ _ _ _ _ _ _ _ BUILT); exact IC). pose proof (wf_cell_len _ WF' f cell (or_introl eq_refl) IC') as LC.
    apply In_nth with (d := []) in IC' as (c & Hc & Ec). apply In_nth with (d := 0%nat) in INn as (a & Ha & Ea). rewrite LC in Ha.
    assert (Hc' : (c < p_num_cells p)%nat) by exact Hc.
    pose proof (over_zero_all p f (points f) JP _ GE (eq_sym G0) c 0%nat Hc' NQ) as Z. unfold convert_from_dof_to_quad in Z.
    assert (ND : cell_node f c a = n) by (unfold cell_node; rewrite Ec; exact Ea).
    pose proof (Rsum_zero_all _ _ (fun b Hb => Rle_trans _ _ _ (match (cell_node f c b =? n)%nat as t return 0 <= (if t then shape_vals f 0 b else 0) with true => Rlt_le _ _ (rect_shape 0 b NQ Hb) | false => Rle_refl 0 end) (Req_le _ _ (eq_sym (T c 0%nat b Hc' NQ Hb)))) Z a Ha) as Z2.
    cbv beta in Z2. pose proof (T c 0%nat a Hc' NQ Ha) as T2. rewrite ND, Nat.eqb_refl in T2. pose proof (rect_shape 0 a NQ Ha) as S. rewrite <- T2 in S. refine (Rlt_irrefl 0 (Rlt_le_trans _ _ _ S (Req_le _ _ Z2))).
  Qed.
End Rect.
Lemma two_inside : inside_square (fst two_by_two).
Proof. intros q i Hq Hi. cbn in Hq. do 4 (destruct q as [|q]; [do 2 (destruct i as [|i]; [cbn; lra|]); lia|]). lia. Qed.
Lemma area_positive p f : (forall n, (n < List.length (points f))%nat -> 0 < share p f n) -> (0 < List.length (points f))%nat -> (forall c a, (c < p_num_cells p)%nat -> (a < num_nodes f)%nat -> (cell_node f c a < List.length (points f))%nat) ->
  0 < integral p f (constant (List.length (points f)) 1).
Proof.
  intros SH NZ NB. rewrite (integral_sum p f NB) by apply const_shaped.
  assert (GE : forall n, (n < List.length (points f))%nat -> 0 < share p f n * get2 zr (constant (List.length (points f)) 1) n 0) by (intros n Hn; rewrite const_get by exact Hn; specialize (SH n Hn); nra).
  assert (G : 0 <= sum_n (K := Rops) (List.length (points f)) (fun n => share p f n * get2 zr (constant (List.length (points f)) 1) n 0)) by (apply Rsum_nonneg; intros n Hn; apply Rlt_le; now apply GE).
  destruct G as [G|G]; [exact G|]. pose proof (Rsum_zero_all _ _ (fun n Hn => Rlt_le _ _ (GE n Hn)) (eq_sym G) 0%nat NZ) as Z. pose proof (GE 0%nat NZ). cbv beta in Z. exfalso. revert H. rewrite Z. apply Rlt_irrefl.
Qed.
