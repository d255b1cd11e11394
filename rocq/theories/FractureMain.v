(** The displacement problem and the phase-field problem, for C87. *)
From Coq Require Import Reals List Arith Lia Lra Bool String.
From Verif Require Import Num Arr ArrFacts Fe Problem SpecAssembly BatchFacts ProblemFacts Basis SpecBasis SpecFe FeFacts GeomFacts SolverBc SpecBc BcFacts SpecWeak KernelFacts
  SpecEnergy EnergyFacts DerivFacts Elastic ElasticFacts ElasticMain LinAlg Plasticity SpecPlasticity PlasticityFacts Eigen SpecEigen EigenFacts EigenMain EigenMore
  SpecLinear SpecSolve SpecPosed PosedFacts AffineFacts DiffusionFacts FieldFacts PosedMain SpecMonotone MonoMain MonoUse XNum Fracture SpecFracture FractureFacts FractureMore.
Import ListNotations.
Local Open Scope R_scope.
Local Notation sum n g := (sum_n (K := Rops) n g).
Local Ltac rr := cbv beta; cbn [add mul zero Rops]; req; try change (car Rops) with R; ring.

Lemma finite_low n (a : nat -> R) : (forall i, (i < n)%nat -> 0 < a i) -> exists k, 0 < k /\ k <= 1 /\ forall i, (i < n)%nat -> k <= a i.
Proof.
  induction n as [|n IH]; intros H; [exists 1; repeat split; [lra|lra|lia]|]. destruct IH as (k & K0 & K1 & KA); [auto|]. exists (Rmin k (a n)).
  split; [apply Rmin_glb_lt; auto|]. split; [apply Rle_trans with k; [apply Rmin_l|exact K1]|]. intros i Hi. destruct (Nat.eq_dec i n) as [->|N]; [apply Rmin_r|].
  apply Rle_trans with k; [apply Rmin_l|apply KA; lia].
Qed.
Lemma finite_high n (a : nat -> R) : exists M, 1 <= M /\ forall i, (i < n)%nat -> a i <= M.
Proof.
  induction n as [|n IH]; [exists 1; split; [lra|lia]|]. destruct IH as (M & M1 & MA). exists (Rmax M (a n)). split; [apply Rle_trans with M; [exact M1|apply Rmax_l]|].
  intros i Hi. destruct (Nat.eq_dec i n) as [->|N]; [apply Rmax_r|]. apply Rle_trans with M; [apply MA; lia|apply Rmax_l].
Qed.
Lemma finite_low2 m n (a : nat -> nat -> R) : (forall i j, (i < m)%nat -> (j < n)%nat -> 0 < a i j) -> exists k, 0 < k /\ k <= 1 /\ forall i j, (i < m)%nat -> (j < n)%nat -> k <= a i j.
Proof.
  intros H. destruct (finite_low (m * n) (fun z => a (z / n) (z mod n))%nat) as (k & K0 & K1 & KA).
  - intros z Hz. assert (n <> 0)%nat by lia. apply H; [apply Nat.div_lt_upper_bound; lia|now apply Nat.mod_upper_bound].
  - exists k. repeat split; auto. intros i j Hi Hj. specialize (KA (i * n + j)%nat ltac:(nia)).
    rewrite Nat.div_add_l, Nat.div_small, Nat.add_0_r in KA by lia. rewrite Nat.add_comm, Nat.mod_add, Nat.mod_small in KA by lia. exact KA.
Qed.
Lemma finite_high2 m n (a : nat -> nat -> R) : exists M, 1 <= M /\ forall i j, (i < m)%nat -> (j < n)%nat -> a i j <= M.
Proof.
  destruct (finite_high (m * n) (fun z => a (z / n) (z mod n))%nat) as (M & M1 & MA).
  exists M. split; auto. intros i j Hi Hj. specialize (MA (i * n + j)%nat ltac:(nia)).
  rewrite Nat.div_add_l, Nat.div_small, Nat.add_0_r in MA by lia. rewrite Nat.add_comm, Nat.mod_add, Nat.mod_small in MA by lia. exact MA.
Qed.
Lemma one_iv (p : problem Rops R) c q : List.length (internal_vars p) = 1%nat -> ivs_ok p -> (c < p_num_cells p)%nat -> iv_at p c q = [nth 0 (iv_at p c q) 0].
Proof.
  intros L1 (IV & _) Hc. unfold iv_at. destruct (internal_vars p) as [|v [|? ?]]; try discriminate. cbn. specialize (IV v (or_introl eq_refl)).
  destruct (nth_error v c) eqn:E; [reflexivity|]. apply nth_error_None in E. lia.
Qed.
Lemma over_no_faces {V} (p : problem Rops V) f P X : boundary_inds_list p = [] -> over_faces (K := Rops) sqrt p f P X = 0.
Proof. intros E. unfold over_faces. rewrite E. reflexivity. Qed.

(** ** The displacement *)
Section Displacement.
  Variables (s : solid) (eigh : tensor -> (nat -> R) * tensor) (p : problem Rops R) (f : fe Rops) (P : list (list Rops)).
  Hypothesis EO : eigh_ok (dim f) eigh.
  Hypothesis IS : is_problem_u (stress_fn_opt2 s eigh (dim f)) p f.
  Let STD : standard_problem p f := proj1 IS.
  Let VD : vec f = dim f := proj1 (proj2 IS).
  Let ME : maps p = fracture_u_maps (stress_fn_opt2 s eigh (dim f)) := proj1 (proj2 (proj2 IS)).
  Let L1 : List.length (internal_vars p) = 1%nat := proj1 (proj2 (proj2 (proj2 IS))).
  Let NB : boundary_inds_list p = [] := proj1 (proj2 (proj2 (proj2 (proj2 IS)))).
  Let WF : wf_problem p := proj1 (proj2 (proj2 (proj2 (proj2 (proj2 IS))))).
  Let IVS : ivs_ok p := proj1 (proj2 (proj2 (proj2 (proj2 (proj2 (proj2 IS)))))).
  Let NC : (0 < p_num_cells p)%nat := proj2 (proj2 (proj2 (proj2 (proj2 (proj2 (proj2 IS)))))).
  Let tm : tensor -> list R -> tensor := fun u_grad iv => match iv with [d] => stress_fn_opt2 s eigh (dim f) u_grad d | _ => fun _ _ => 0 end.
  Lemma u_maps_ok : maps_ok (vec f) (dim f) (maps p).
  Proof.
    rewrite ME. split; [|split]; [|discriminate|discriminate]. intros t E. injection E as <-. intros G G' iv H k j Hk Hj.
    destruct iv as [|x [|? ?]]; try reflexivity. rewrite VD in *. exact (opt2_same s (dim f) eigh EO x G G' H k j Hk Hj).
  Qed.
  Lemma u_dead : dead_tractions p.
  Proof. intros sms sm u u' x iv k E. rewrite ME in E. discriminate. Qed.
  Lemma u_source : dead_source (maps p).
  Proof. intros mm u u' x iv k E. rewrite ME in E. discriminate. Qed.
  Lemma u_grows k M : 0 <= f_lmbda s -> 0 <= f_mu s -> k <= 1 -> 1 <= M ->
    (forall c q, (c < p_num_cells p)%nat -> (q < num_quads f)%nat -> k <= g (damage_at p c q) <= M) ->
    forall c q, (c < p_num_cells p)%nat -> (q < num_quads f)%nat ->
      stress_grows (dim f) (fun G => tm G (iv_at p c q)) (2 * f_mu s * k) (sqrt (2 * (INR (dim f) * INR (dim f) * (f_lmbda s * f_lmbda s) + 4 * (f_mu s * f_mu s))) * M).
  Proof.
    intros L0 M0 K1 M1 KM c q Hc Hq. rewrite (one_iv p c q L1 IVS Hc). destruct (KM c q Hc Hq) as (KA & KB).
    exact (stress_growth s (dim f) eigh EO (damage_at p c q) k M L0 M0 KA K1 KB M1).
  Qed.
  Theorem u_one : 0 <= f_lmbda s -> 0 < f_mu s -> positive_weights p f P -> no_free_motion p f P ->
    (forall c q, (c < p_num_cells p)%nat -> (q < num_quads f)%nat -> damage_at p c q <> 1) -> one_solution p [P].
  Proof.
    intros L0 M0 PW NF ND.
    destruct (finite_low2 (p_num_cells p) (num_quads f) (fun c q => g (damage_at p c q))) as (k & K0 & K1 & KA).
    { intros c q Hc Hq. unfold g. assert (1 - damage_at p c q <> 0) by (specialize (ND c q Hc Hq); lra). now apply Rsqr_pos_lt. }
    destruct (finite_high2 (p_num_cells p) (num_quads f) (fun c q => g (damage_at p c q))) as (M & M1 & MA).
    apply (stress_one R p f P tm (2 * f_mu s * k) (sqrt (2 * (INR (dim f) * INR (dim f) * (f_lmbda s * f_lmbda s) + 4 * (f_mu s * f_mu s))) * M) WF NC STD IVS u_maps_ok VD); auto.
    - now rewrite ME.
    - exact u_source.
    - exact u_dead.
    - apply Rmult_lt_0_compat; lra.
    - apply u_grows; auto; lra.
  Qed.
  Definition u_density : densities R := mkDensities (fun G iv => match iv with [d] => damaged_energy s eigh (dim f) d (strain G) | _ => 0 end) (fun _ _ _ => 0) (fun _ _ _ _ => 0).
  Lemma energy_same d G H : same_on (dim f) G H -> damaged_energy s eigh (dim f) d (strain G) = damaged_energy s eigh (dim f) d (strain H).
  Proof.
    intros S. unfold damaged_energy. now rewrite (psi_plus_same s (dim f) eigh EO _ _ (strain_same (dim f) G H S)), (psi_minus_same s (dim f) eigh EO _ _ (strain_same (dim f) G H S)).
  Qed.
  Lemma u_total x : total_energy sqrt p f P u_density x = solid_energy s eigh p f P x.
  Proof.
    unfold total_energy, solid_energy. rewrite (over_no_faces p f P _ NB). rewrite Rplus_0_r. apply over_cells_ext. intros c q Hc Hq. cbn. rewrite (one_iv p c q L1 IVS Hc). cbn.
    unfold damage_at. rr.
  Qed.
  Lemma grad1_zero m u : gradient1 m (fun _ => 0) u (fun _ => 0).
  Proof.
    intros h. replace (dot1 (K := Rops) m (fun _ => 0) h) with 0; [apply derivable_pt_lim_const|]. unfold dot1. rewrite Rsum_zero; [reflexivity|]. intros; rr.
  Qed.
  Lemma u_derives z : derives_from p f P z u_density.
  Proof.
    split; [|split].
    - intros c q Hc Hq. unfold stress. rewrite ME. cbn [tensor_map fracture_u_maps]. rewrite (one_iv p c q L1 IVS Hc). rewrite VD.
      exact (stress_gradient s (dim f) eigh EO (sol_to_grad P f z c q) (damage_at p c q)).
    - intros c q Hc Hq. unfold source. rewrite ME. cbn [mass_map fracture_u_maps]. apply grad1_zero.
    - intros s0 e q Hs. rewrite NB in Hs. cbn in Hs. lia.
  Qed.
  Theorem u_minimum : 0 <= f_lmbda s -> 0 <= f_mu s -> positive_weights p f P ->
    forall x y, solves p [P] [x] -> sol_ok p [y] -> meets_bcs f y -> solid_energy s eigh p f P x <= solid_energy s eigh p f P y.
  Proof.
    intros L0 M0 PW x y SX SY MY.
    destruct (finite_high2 (p_num_cells p) (num_quads f) (fun c q => g (damage_at p c q))) as (M & M1 & MA).
    set (LL := sqrt (2 * (INR (dim f) * INR (dim f) * (f_lmbda s * f_lmbda s) + 4 * (f_mu s * f_mu s))) * M).
    pose proof (u_grows 0 M L0 M0 ltac:(lra) M1 (fun c q Hc Hq => conj (Rle_0_sqr _) (MA c q Hc Hq))) as SG. fold LL in SG.
    assert (TM : tensor_map (maps p) = Some tm) by now rewrite ME.
    pose proof (grows_stress p f P tm (2 * f_mu s * 0) LL TM u_source VD SG) as GR.
    assert (EI : forall c q, (c < p_num_cells p)%nat -> (q < num_quads f)%nat -> semi_inner (vec f) (dim f) (strain_product (dim f))) by (intros; rewrite VD; apply strain_inner).
    assert (DO : densities_ok (vec f) (dim f) u_density).
    { split; [|split; reflexivity]. intros G G' iv H. cbn. destruct iv as [|d [|? ?]]; try reflexivity. rewrite VD in H. now apply energy_same. }
    pose proof (grows_minimum p f P WF NC STD IVS u_maps_ok (fun c q Hc Hq => Rlt_le _ _ (PW c q Hc Hq)) (fun _ _ => strain_product (dim f)) _ LL EI GR u_dead u_density x y DO (fun z _ => u_derives z) SX SY MY) as MIN.
    rewrite !u_total in MIN. lra.
  Qed.
End Displacement.

(** ** The phase field *)
Lemma semi_schwarz m d e x y : semi_inner m d e -> e x y * e x y <= e x x * e y y.
Proof.
  intros (E1 & E2 & E3 & E4).
  assert (Q : forall t, 0 <= e x x + 2 * t * e x y + t * t * e y y).
  { intros t. pose proof (E3 (lcomb x t y)) as H. rewrite E1, (E2 x (lcomb x t y)), (E2 y (lcomb x t y)), !E1, (E2 y x) in H. lra. }
  pose proof (E3 y) as Y. destruct (Rle_lt_or_eq_dec 0 (e y y) Y) as [Y0|Y0].
  - pose proof (Q (- e x y / e y y)) as H. apply (Rmult_le_compat_r (e y y)) in H; [|lra].
    replace ((e x x + 2 * (- e x y / e y y) * e x y + - e x y / e y y * (- e x y / e y y) * e y y) * e y y) with (e x x * e y y - e x y * e x y) in H by (field; lra). lra.
  - rewrite <- Y0 in *. destruct (Req_dec (e x y) 0) as [Z|Z]; [rewrite Z; lra|]. pose proof (Q (- (e x x + 1) / (2 * e x y))) as H.
    replace (e x x + 2 * (- (e x x + 1) / (2 * e x y)) * e x y + - (e x x + 1) / (2 * e x y) * (- (e x x + 1) / (2 * e x y)) * 0) with (-1) in H by (field; exact Z). lra.
Qed.
Definition phase_product (kap alp : R) (d : nat) (x y : local_field) : R := kap * dot2 (K := Rops) 1 d (fst x) (fst y) + alp * (snd x 0%nat * snd y 0%nat).
Lemma phase_inner kap alp d : 0 <= kap -> 0 <= alp -> semi_inner 1 d (phase_product kap alp d).
Proof.
  intros K0 A0. split; [|split; [|split]].
  - intros x t y z. unfold phase_product. cbn [fst snd lcomb]. rewrite dot2_lin. rr.
  - intros x y. unfold phase_product. rewrite dot2_comm. rr.
  - intros x. unfold phase_product. apply Rplus_le_le_0_compat; apply Rmult_le_pos; auto; [apply dot2_nn|apply Rle_0_sqr].
  - intros x x' y (H1 & H2). unfold phase_product. rewrite (H2 0%nat) by lia. rewrite (dot2_ext 1 d (fst x) (fst x') (fst y) (fst y)); [reflexivity|]. intros i j Hi Hj. split; auto.
Qed.
Lemma dot1_one (a b : nat -> R) : dot1 (K := Rops) 1 a b = a 0%nat * b 0%nat.
Proof. unfold dot1. cbn. rr. Qed.

Section Phase.
  Variables (s : solid) (p : problem Rops R) (f : fe Rops) (P : list (list Rops)).
  Hypothesis IS : is_problem_d s p f.
  Hypothesis GC : 0 < f_Gc s.
  Hypothesis LL : 0 < f_l s.
  Let H c q := nth 0 (iv_at p c q) 0.
  Hypothesis HN : forall c q, (c < p_num_cells p)%nat -> (q < num_quads f)%nat -> 0 <= H c q.
  Hypothesis PW : positive_weights p f P.
  Let STD : standard_problem p f := proj1 IS.
  Let VD : vec f = 1%nat := proj1 (proj2 IS).
  Let ME : maps p = fracture_d_maps s := proj1 (proj2 (proj2 IS)).
  Let L1 : List.length (internal_vars p) = 1%nat := proj1 (proj2 (proj2 (proj2 IS))).
  Let NB : boundary_inds_list p = [] := proj1 (proj2 (proj2 (proj2 (proj2 IS)))).
  Let WF : wf_problem p := proj1 (proj2 (proj2 (proj2 (proj2 (proj2 IS))))).
  Let IVS : ivs_ok p := proj1 (proj2 (proj2 (proj2 (proj2 (proj2 (proj2 IS)))))).
  Let NC : (0 < p_num_cells p)%nat := proj2 (proj2 (proj2 (proj2 (proj2 (proj2 (proj2 IS)))))).
  Definition d_kappa (iv : list R) : R := f_Gc s * f_l s.
  Definition d_alpha (x : nat -> R) (iv : list R) : R := match iv with [h] => f_Gc s / f_l s + 2 * h | _ => 0 end.
  Definition d_beta (i : nat) (x : nat -> R) (iv : list R) : R := 0.
  Lemma d_maps_ok : maps_ok (vec f) (dim f) (maps p).
  Proof.
    rewrite ME, VD. split; [|split]; [| |discriminate].
    - intros t E. injection E as <-. intros G G' iv HG k j Hk Hj. now rewrite (HG k j Hk Hj).
    - intros t E. injection E as <-. intros u u' x x' iv HU HX k Hk. now rewrite (HU k Hk).
  Qed.
  Lemma d_diffusion : diffusion_maps d_kappa d_alpha d_beta (maps p).
  Proof.
    rewrite ME. split; [|split].
    - intros G iv k j. reflexivity.
    - intros u u' x iv k. unfold d_alpha. destruct iv as [|h [|? ?]]; ring.
    - discriminate.
  Qed.
  Lemma kap_pos : 0 < f_Gc s * f_l s.
  Proof. now apply Rmult_lt_0_compat. Qed.
  Lemma gl_pos : 0 < f_Gc s / f_l s.
  Proof. now apply Rdiv_lt_0_compat. Qed.
  Lemma alpha_val c q : (c < p_num_cells p)%nat -> alpha_at d_alpha p f P c q = f_Gc s / f_l s + 2 * H c q.
  Proof. intros Hc. unfold alpha_at, d_alpha. rewrite (one_iv p c q L1 IVS Hc). reflexivity. Qed.
  Lemma d_diffusive : diffusive d_kappa d_alpha d_beta p f P.
  Proof.
    split.
    - intros c q Hc Hq. rewrite (alpha_val c q Hc). pose proof (HN c q Hc Hq). pose proof kap_pos. pose proof gl_pos. unfold d_kappa. repeat split; [lra|lra|]. intros _. exact (PW c q Hc Hq).
    - intros i e q Hi. rewrite NB in Hi. cbn in Hi. lia.
  Qed.
  (** growth: the maps are the product itself *)
  Let e c q := phase_product (f_Gc s * f_l s) (f_Gc s / f_l s + 2 * H c q) (dim f).
  Lemma e_inner c q : (c < p_num_cells p)%nat -> (q < num_quads f)%nat -> semi_inner (vec f) (dim f) (e c q).
  Proof. intros Hc Hq. rewrite VD. pose proof (HN c q Hc Hq). pose proof kap_pos. pose proof gl_pos. apply phase_inner; lra. Qed.
  Lemma e_work c q x y z : (c < p_num_cells p)%nat -> lwork (vec f) (dim f) (lminus (flux_at p f P c q x) (flux_at p f P c q y)) z = e c q (lminus x y) z.
  Proof.
    intros Hc. rewrite VD. unfold lwork, e, phase_product. rewrite dot1_one. unfold flux_at, lminus, lcomb. rewrite ME. cbn [fst snd tensor_map mass_map fracture_d_maps]. rewrite (one_iv p c q L1 IVS Hc). fold (H c q).
    f_equal.
    - unfold dot2. rewrite <- Rsum_mul. apply Rsum_ext. intros i Hi. rewrite <- Rsum_mul. apply Rsum_ext. intros j Hj. rr.
    - cbv zeta. ring.
  Qed.
  Lemma d_grows : grows p f P e 1 1.
  Proof.
    intros c q Hc Hq x y. split; [rewrite (e_work c q _ _ _ Hc); lra|]. intros z b. unfold b. rewrite (e_work c q _ _ _ Hc).
    replace (1 * 1 * e c q (lminus x y) (lminus x y)) with (e c q (lminus x y) (lminus x y)) by ring. exact (semi_schwarz _ _ _ _ _ (e_inner c q Hc Hq)).
  Qed.
  Lemma d_dead : dead_tractions p.
  Proof. intros sms sm u u' x iv k E. rewrite ME in E. discriminate. Qed.
  Definition d_density : densities R := mkDensities (fun G iv => f_Gc s * (f_l s / 2 * dot2 (K := Rops) 1 (dim f) G G))
    (fun u x iv => match iv with [h] => f_Gc s * (u 0%nat * u 0%nat / (2 * f_l s)) + (1 - u 0%nat) * (1 - u 0%nat) * h | _ => 0 end) (fun _ _ _ _ => 0).
  Lemma d_total x : total_energy sqrt p f P d_density x = crack_energy s p f P x.
  Proof.
    unfold total_energy, crack_energy. rewrite (over_no_faces p f P _ NB). rewrite Rplus_0_r. apply over_cells_ext. intros c q Hc Hq. cbn [stored load d_density]. rewrite (one_iv p c q L1 IVS Hc).
    cbn [nth]. rr.
  Qed.
  Lemma d_derives z : derives_from p f P z d_density.
  Proof.
    split; [|split].
    - intros c q Hc Hq. unfold stress. rewrite ME. cbn [tensor_map fracture_d_maps]. rewrite VD. set (G := sol_to_grad P f z c q). intros X.
      apply (dlim_ext (fun t => f_Gc s * (f_l s / 2) * dot2 (K := Rops) 1 (dim f) G G + (f_Gc s * f_l s * dot2 (K := Rops) 1 (dim f) G X * t + f_Gc s * (f_l s / 2) * dot2 (K := Rops) 1 (dim f) X X * (t * t)))).
      + intros t. cbn [stored d_density]. rewrite dot2_lin, (dot2_comm _ _ G (fun k j => G k j + t * X k j)), (dot2_comm _ _ X (fun k j => G k j + t * X k j)), !dot2_lin, (dot2_comm _ _ X G). change (car Rops) with R. req. field.
      + replace (dot2 (K := Rops) 1 (dim f) (fun k j => f_Gc s * f_l s * G k j) X) with (f_Gc s * f_l s * dot2 (K := Rops) 1 (dim f) G X); [apply dlim_quad|].
        unfold dot2. rewrite <- Rsum_mul. apply Rsum_ext. intros i Hi. rewrite <- Rsum_mul. apply Rsum_ext. intros j Hj. rr.
    - intros c q Hc Hq. unfold source. rewrite ME. cbn [mass_map fracture_d_maps]. rewrite VD. rewrite (one_iv p c q L1 IVS Hc). fold (H c q). set (u := convert_from_dof_to_quad f z c q). intros h. rewrite dot1_one.
      apply (dlim_ext (fun t => f_Gc s * (u 0%nat * u 0%nat / (2 * f_l s)) + (1 - u 0%nat) * (1 - u 0%nat) * H c q
          + ((f_Gc s / f_l s * u 0%nat - 2 * (1 - u 0%nat) * H c q) * h 0%nat * t + (f_Gc s / (2 * f_l s) * (h 0%nat * h 0%nat) + H c q * (h 0%nat * h 0%nat)) * (t * t)))).
      + intros t. cbn [load d_density]. change (car Rops) with R. req. generalize (u 0%nat) (h 0%nat). intros a b. change R in a, b. field. lra.
      + apply dlim_quad.
    - intros s0 e0 q Hs. rewrite NB in Hs. cbn in Hs. lia.
  Qed.
  Lemma d_least x y : solves p [P] [x] -> sol_ok p [y] -> meets_bcs f y -> crack_energy s p f P x + 1 / 2 * size_of p f P e (along (K := Rops) y x (-1)) <= crack_energy s p f P y.
  Proof.
    intros SX SY MY.
    assert (DO : densities_ok (vec f) (dim f) d_density).
    { rewrite VD. split; [|split; [|reflexivity]].
      - intros G G' iv E. cbn [stored d_density]. rewrite (dot2_ext 1 (dim f) G G' G G'); [reflexivity|]. intros i j Hi Hj. split; now apply E.
      - intros u u' x0 iv E. cbn. destruct iv as [|h [|? ?]]; try reflexivity. now rewrite (E 0%nat) by lia. }
    pose proof (grows_minimum p f P WF NC STD IVS d_maps_ok (fun c q Hc Hq => Rlt_le _ _ (PW c q Hc Hq)) e 1 1 e_inner d_grows d_dead d_density x y DO (fun z _ => d_derives z) SX SY MY) as MIN.
    now rewrite !d_total in MIN.
  Qed.
  Theorem d_minimum x y : solves p [P] [x] -> sol_ok p [y] -> meets_bcs f y -> crack_energy s p f P x <= crack_energy s p f P y.
  Proof.
    intros SX SY MY. pose proof (d_least x y SX SY MY) as MIN.
    assert (0 <= size_of p f P e (along (K := Rops) y x (-1))).
    { unfold size_of, over_cells. apply Rsum_nonneg. intros c Hc. apply Rsum_nonneg. intros q Hq. destruct (e_inner c q Hc Hq) as (_ & _ & E3 & _). apply Rmult_le_pos; [apply E3|]. apply Rlt_le, PW; assumption. }
    lra.
  Qed.
  (** on meshes of first-order elements *)
  Section Built.
    Variables (el : string) (sqrtK : R -> R) (quad fquad : list (list Rops) * list Rops) (normals : nat -> nat -> Rops) (pts0 : list (list Rops)) (cls : list (list nat)) (v : nat)
      (dir : option (list (location_fn Rops) * list nat * list (list Rops -> Rops))).
    Hypothesis BUILT : fe_init (K := Rops) sqrtK el quad fquad normals pts0 cls v (element_dim el) dir = Ok f.
    Hypothesis MESH : mesh_ok f.
    Lemma d_cells : p_num_cells p = num_cells f.
    Proof. unfold p_num_cells, fe0. now rewrite (fes_f p f STD). Qed.
    Lemma d_shape x : sol_ok p [x] <-> shaped (List.length (points f)) 1 x.
    Proof. rewrite <- VD. apply mm_shape; assumption. Qed.
    Lemma d_no_free : sharp_rule el (fst quad) -> (forall n, (n < List.length (points f))%nat -> exists cell, In cell (cells f) /\ In n cell) -> no_free_field d_kappa d_alpha d_beta p f P.
    Proof.
      intros SH COV x SX HZ ZG ZV _ n k Hn Hk. destruct (COV n Hn) as (cell & IC & IN).
      apply (In_nth _ _ []) in IC as (c & Hc & <-). change (c < num_cells f)%nat in Hc. destruct (MESH c Hc) as (LC & _). apply (In_nth _ _ 0%nat) in IN as (a & Ha & <-). rewrite LC in Ha.
      assert (Hc' : (c < p_num_cells p)%nat) by now rewrite d_cells.
      assert (DET : forall q, (q < num_quads f)%nat -> det (dim f) (jacobian_dx_deta P f c q) <> 0).
      { intros q Hq Z. pose proof (PW c q Hc' Hq) as J. unfold get_JxW in J. rewrite Z in J. cbn in J. rewrite Rmult_0_l in J. lra. }
      assert (Z : forall q j, (q < num_quads f)%nat -> (j < dim f)%nat -> sol_to_grad P f x c q k j = 0).
      { intros q j Hq Hj. apply ZG; auto. unfold d_kappa. apply kap_pos. }
      pose proof (cell_constant el sqrtK quad fquad normals pts0 cls v dir f BUILT SH P x c k DET Z) as CC.
      assert (SV : shaped (List.length (points f)) v x).
      { apply d_shape in SX. rewrite <- VD in SX. now rewrite (built_vec _ _ _ _ _ _ _ _ _ _ _ BUILT) in SX. }
      rewrite <- (cell_entry v f MESH x c a k SV Hc Ha). rewrite (CC a Ha).
      assert (NQ : (0 < num_quads f)%nat).
      { rewrite (built_quads _ _ _ _ _ _ _ _ _ _ _ BUILT). destruct SH as [(-> & (a0 & b0 & _ & G))|[(-> & (a0 & b0 & _ & G))|(_ & G)]].
        - destruct (fst quad) eqn:E; [|cbn; lia]. exfalso. apply (G [a0; a0; a0]); [reflexivity|]. intros i Hi. destruct i as [|[|[|i]]]; cbn; auto; lia.
        - destruct (fst quad) eqn:E; [|cbn; lia]. exfalso. apply (G [a0; a0]); [reflexivity|]. intros i Hi. destruct i as [|[|i]]; cbn; auto; lia.
        - destruct (fst quad); [contradiction|cbn; lia]. }
      pose proof (ZV c 0%nat k Hc' NQ Hk) as V0. rewrite (alpha_val c 0%nat Hc') in V0. specialize (V0 ltac:(pose proof (HN c 0%nat Hc' NQ); pose proof gl_pos; lra)).
      assert (LAG : In el nine_names) by (destruct SH as [(-> & _)|[(-> & _)|([->| ->] & _)]]; cbn; tauto).
      unfold convert_from_dof_to_quad in V0.
      rewrite (Rsum_ext _ _ (fun a => cell_sol_at f x c 0%nat k * shape_vals f 0%nat a)) in V0.
      - rewrite Rsum_mul in V0. rewrite (vals_sum Rops_ring _ _ _ _ _ _ _ _ _ _ _ BUILT LAG 0%nat) in V0. cbn in V0. rewrite Rmult_1_r in V0. exact V0.
      - intros b Hb. now rewrite (CC b Hb).
    Qed.
    Hypothesis SH : sharp_rule el (fst quad).
    Hypothesis COV : forall n, (n < List.length (points f))%nat -> exists cell, In cell (cells f) /\ In n cell.
    Lemma d_seen : all_seen p f P e.
    Proof.
      intros x SX HZ Z. apply (d_no_free SH COV x SX HZ).
      - intros c q k j Hc Hq Hk Hj _. specialize (Z c q Hc Hq). unfold e, phase_product in Z. cbn [fst snd field_at] in Z. rewrite VD in Hk.
        pose proof kap_pos. pose proof gl_pos. pose proof (HN c q Hc Hq). pose proof (dot2_nn 1 (dim f) (sol_to_grad P f x c q)) as N1. pose proof (Rle_0_sqr (convert_from_dof_to_quad f x c q 0%nat)) as N2. unfold Rsqr in N2.
        apply (dot2_zero 1 (dim f)); auto. apply (Rmult_le_compat_l (f_Gc s / f_l s + 2 * H c q)) in N2; [|lra].
        destruct (Rle_lt_or_eq_dec _ _ N1) as [N3|N3]; [|now symmetry]. apply (Rmult_lt_compat_l (f_Gc s * f_l s)) in N3; [|assumption]. change (car Rops) with R in *. lra.
      - intros c q k Hc Hq Hk _. specialize (Z c q Hc Hq). unfold e, phase_product in Z. cbn [fst snd field_at] in Z. rewrite VD in Hk. assert (k = 0)%nat as -> by lia.
        pose proof kap_pos. pose proof gl_pos. pose proof (HN c q Hc Hq). pose proof (dot2_nn 1 (dim f) (sol_to_grad P f x c q)) as N1. apply (Rmult_le_compat_l (f_Gc s * f_l s)) in N1; [|lra].
        pose proof (Rle_0_sqr (convert_from_dof_to_quad f x c q 0%nat)) as N2. unfold Rsqr in N2. apply sq_zero.
        destruct (Rle_lt_or_eq_dec _ _ N2) as [N3|N3]; [|now symmetry]. apply (Rmult_lt_compat_l (f_Gc s / f_l s + 2 * H c q)) in N3; [|lra]. change (car Rops) with R in *. lra.
      - intros i e0 q k Hi. rewrite NB in Hi. cbn in Hi. lia.
    Qed.
    Theorem d_one : affine_residual p [P] /\ no_free_change p [P] /\ one_solution p [P].
    Proof.
      split; [exact (diffusion_affine p f P d_kappa d_alpha d_beta WF NC STD IVS d_maps_ok d_diffusion)|].
      split; [exact (diffusion_free p f P d_kappa d_alpha d_beta WF NC STD IVS d_maps_ok d_diffusion d_diffusive (d_no_free SH COV))|].
      exact (monotone_one R p f P e 1 1 WF NC STD IVS d_maps_ok PW e_inner Rlt_0_1 d_grows d_dead d_seen).
    Qed.
    Hypothesis NP : forall n k, (n < List.length (points f))%nat -> (k < vec f)%nat -> prescribed f n k = None.
    Local Notation N := (List.length (points f)).
    Lemma const_ok a : sol_ok p [fld N 1 (fun _ => a)].
    Proof. apply d_shape, fld_shaped. Qed.
    Lemma const_cell a c b : (c < p_num_cells p)%nat -> (b < num_nodes f)%nat -> cell_sol_at f (fld N 1 (fun _ => a)) c b 0%nat = a.
    Proof.
      intros Hc Hb. rewrite d_cells in Hc. rewrite (cell_entry 1 f MESH _ c b 0%nat (fld_shaped N 1 _) Hc Hb). destruct (MESH c Hc) as (LC & IN). rewrite fld_get; [reflexivity| |lia]. apply IN, nth_In. lia.
    Qed.
    Lemma el_lag : In el nine_names.
    Proof. destruct SH as [(-> & _)|[(-> & _)|([->| ->] & _)]]; cbn; tauto. Qed.
    Lemma const_value a c q : (c < p_num_cells p)%nat -> convert_from_dof_to_quad f (fld N 1 (fun _ => a)) c q 0%nat = a.
    Proof.
      intros Hc. unfold convert_from_dof_to_quad. rewrite (Rsum_ext _ _ (fun b => a * shape_vals f q b)).
      - rewrite Rsum_mul, (vals_sum Rops_ring _ _ _ _ _ _ _ _ _ _ _ BUILT el_lag q). cbn. req. ring.
      - intros b Hb. now rewrite (const_cell a c b Hc Hb).
    Qed.
    Hypothesis PL : List.length P = List.length (points f).
    Lemma const_grad a c q j : (c < p_num_cells p)%nat -> (j < dim f)%nat -> sol_to_grad P f (fld N 1 (fun _ => a)) c q 0%nat j = 0.
    Proof.
      intros Hc Hj. unfold sol_to_grad. rewrite (Rsum_ext _ _ (fun b => a * get_shape_grads P f c q b j)).
      - rewrite Rsum_mul. rewrite (phys_grads_sum Rops_field _ _ _ _ _ _ _ _ _ _ _ BUILT el_lag eq_refl P PL). + cbn. req. ring. + now rewrite (built_dim _ _ _ _ _ _ _ _ _ _ _ BUILT) in Hj.
      - intros b Hb. now rewrite (const_cell a c b Hc Hb).
    Qed.
    Theorem d_balance x : solves p [P] [x] ->
      over_cells (K := Rops) p f P (fun c q => f_Gc s / f_l s * convert_from_dof_to_quad f x c q 0%nat) = over_cells (K := Rops) p f P (fun c q => 2 * (1 - convert_from_dof_to_quad f x c q 0%nat) * H c q).
    Proof.
      intros SX. apply (std_solves p f P WF NC STD IVS d_maps_ok) in SX. destruct SX as (SX & _ & r & ER & Z).
      pose proof (any_work Rops_ring sqrt p f P x WF NC STD SX IVS d_maps_ok (fld N 1 (fun _ => 1)) r (const_ok 1) ER) as W.
      rewrite (work_zero N (vec f)) in W by (intros n k Hn Hk; right; apply Z; auto). rewrite (over_no_faces p f P _ NB) in W. cbn [add Rops] in W. rewrite Rplus_0_r in W.
      rewrite (over_cells_ext p f P _ (fun c q => f_Gc s / f_l s * convert_from_dof_to_quad f x c q 0%nat + (-1) * (2 * (1 - convert_from_dof_to_quad f x c q 0%nat) * H c q))) in W.
      - rewrite over_cells_plus in W. assert (E : over_cells (K := Rops) p f P (fun c q => -1 * (2 * (1 - convert_from_dof_to_quad f x c q 0%nat) * H c q)) = -1 * over_cells (K := Rops) p f P (fun c q => 2 * (1 - convert_from_dof_to_quad f x c q 0%nat) * H c q)).
        { unfold over_cells. rewrite <- Rsum_mul. apply Rsum_ext. intros c Hc. rewrite <- Rsum_mul. apply Rsum_ext. intros q Hq. rr. }
        rewrite E in W. lra.
      - intros c q Hc Hq. rewrite VD, dot1_one, (const_value 1 c q Hc).
        assert (E0 : dot2 (K := Rops) 1 (dim f) (stress p f P x c q) (sol_to_grad P f (fld N 1 (fun _ => 1)) c q) = 0).
        { unfold dot2. apply Rsum_zero. intros i Hi. assert (i = 0)%nat as -> by lia. apply Rsum_zero. intros j Hj. rewrite (const_grad 1 c q j Hc Hj). rr. }
        cbn [add Rops]. rewrite E0. unfold source. rewrite ME. cbn [mass_map fracture_d_maps]. rewrite (one_iv p c q L1 IVS Hc). fold (H c q). rr.
    Qed.
    Theorem d_intact x : solves p [P] [x] -> (forall c q, (c < p_num_cells p)%nat -> (q < num_quads f)%nat -> H c q = 0) ->
      forall n, (n < List.length (points f))%nat -> get2 (@zero Rops) x n 0%nat = 0.
    Proof.
      intros SX H0 n Hn. set (z := fld N 1 (fun _ => 0)). assert (SZ : sol_ok p [z]) by apply const_ok.
      assert (MZ : meets_bcs f z) by (intros i k b Hi Hk PB; rewrite (NP i k Hi Hk) in PB; discriminate).
      pose proof (d_least x z SX SZ MZ) as LE.
      assert (EZ : crack_energy s p f P z = 0).
      { unfold crack_energy, over_cells. apply Rsum_zero. intros c Hc. apply Rsum_zero. intros q Hq. unfold z. rewrite (const_value 0 c q Hc). fold (H c q). rewrite (H0 c q Hc Hq).
        assert (E0 : dot2 (K := Rops) 1 (dim f) (sol_to_grad P f (fld N 1 (fun _ => 0)) c q) (sol_to_grad P f (fld N 1 (fun _ => 0)) c q) = 0).
        { unfold dot2. apply Rsum_zero. intros i Hi. assert (i = 0)%nat as -> by lia. apply Rsum_zero. intros j Hj. rewrite (const_grad 0 c q j Hc Hj). rr. }
        rewrite E0. cbn [mul Rops]. req. unfold Rdiv. ring. }
      assert (EX : 0 <= crack_energy s p f P x).
      { unfold crack_energy, over_cells. apply Rsum_nonneg. intros c Hc. apply Rsum_nonneg. intros q Hq. apply Rmult_le_pos; [|apply Rlt_le, PW; assumption]. fold (H c q). rewrite (H0 c q Hc Hq).
        set (D := convert_from_dof_to_quad f x c q 0%nat). change (car Rops) with R in D. pose proof (dot2_nn 1 (dim f) (sol_to_grad P f x c q)) as N1. pose proof (Rle_0_sqr D) as N2. unfold Rsqr in N2.
        assert (0 <= D * D / (2 * f_l s)) by (apply Rmult_le_pos; [exact N2|]; apply Rlt_le, Rinv_0_lt_compat; lra).
        assert (0 <= f_l s / 2 * dot2 (K := Rops) 1 (dim f) (sol_to_grad P f x c q) (sol_to_grad P f x c q)) by (apply Rmult_le_pos; [lra|exact N1]).
        rewrite Rmult_0_r, Rplus_0_r. apply Rmult_le_pos; [lra|]. change (car Rops) with R in *. lra. }
      assert (SOX : sol_ok p [x]) by (apply (std_solves p f P WF NC STD IVS d_maps_ok) in SX; exact (proj1 SX)).
      set (w := along (K := Rops) z x (-1)) in *. assert (SW : sol_ok p [w]) by exact (along_ok p z SZ x (-1) SOX).
      assert (NN : forall c q, (c < p_num_cells p)%nat -> (q < num_quads f)%nat -> 0 <= e c q (field_at f P w c q) (field_at f P w c q) * get_JxW P f c q).
      { intros c q Hc Hq. destruct (e_inner c q Hc Hq) as (_ & _ & E3 & _). apply Rmult_le_pos; [apply E3|apply Rlt_le, PW; assumption]. }
      assert (SZ0 : size_of p f P e w = 0).
      { assert (0 <= size_of p f P e w); [|lra]. unfold size_of, over_cells. apply Rsum_nonneg. intros c Hc. apply Rsum_nonneg. intros q Hq. now apply NN. }
      assert (HZ : held_zero f w) by (intros i k b Hi Hk PB; rewrite (NP i k Hi Hk) in PB; discriminate).
      assert (W0 : get2 (@zero Rops) w n 0%nat = 0).
      { apply (d_seen w SW HZ); [|exact Hn|rewrite VD; lia]. intros c q Hc Hq.
        assert (E : e c q (field_at f P w c q) (field_at f P w c q) * get_JxW P f c q = 0).
        { unfold size_of, over_cells in SZ0. refine (Rsum_zero_all (num_quads f) (fun q => e c q (field_at f P w c q) (field_at f P w c q) * get_JxW P f c q) (fun q Hq => NN c q Hc Hq) _ q Hq).
          refine (Rsum_zero_all (p_num_cells p) (fun c => sum (num_quads f) (fun q => e c q (field_at f P w c q) (field_at f P w c q) * get_JxW P f c q)) _ SZ0 c Hc). intros c' Hc'. apply Rsum_nonneg. intros q' Hq'. now apply NN. }
        pose proof (PW c q Hc Hq). apply Rmult_integral in E. destruct E as [E|E]; [exact E|]. change (car Rops) with R in *. lra. }
      unfold w in W0. rewrite (nth_along p f z STD SZ x (-1) n 0%nat SOX Hn ltac:(rewrite VD; lia)) in W0. unfold z in W0. rewrite fld_get in W0 by (assumption || lia). cbn [add mul Rops] in W0. change (car Rops) with R in *. lra.
    Qed.
  End Built.
End Phase.
