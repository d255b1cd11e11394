(** C91, C92, C93: crystal plasticity. *)
From Coq Require Import Reals List Arith Lia Lra Bool.
From Coquelicot Require Derive.
From Verif Require Import Num Arr ArrFacts Fe SpecFe Problem SpecAssembly SpecWeak SpecEnergy SpecPatch PatchFacts Elastic ElasticFacts Plasticity SpecPlasticity PlasticityFacts Lagrangian SpecLagrangian LagrangianMain
  FinPlast SpecFinPlast FinPlastFacts FinPlastMain CrystalPlast SpecCrystal CrystalFacts CrystalSolve CrystalDeriv CrystalMain CrystalExact CrystalCase CrystalUse Properties_fe.
Import ListNotations.
Local Open Scope R_scope.

(** C91. The matrix of a quaternion turns a vector v to q v q*, also for quaternions that are not of unit size: then it also stretches, by the
    square of the size.  For a unit quaternion it is a rotation; -q gives the same matrix and a product of quaternions the product of matrices. *)
Theorem C91_quaternion : forall q : nat -> R,
  (forall v, qmul (qmul q (pure v)) (qconj q) 0%nat = 0 /\ forall i, (i < 3)%nat -> qmul (qmul q (pure v)) (qconj q) (S i) = at_vec (get_rot_mat q) v i) /\
  same_on 3 (times (get_rot_mat q) (transp (get_rot_mat q))) (fun i j => qsize2 q ^ 2 * ident i j) /\ vol (get_rot_mat q) = qsize2 q ^ 3 /\
  (qsize2 q = 1 -> rotation (get_rot_mat q)) /\ same_on 3 (get_rot_mat (fun k => - q k)) (get_rot_mat q) /\
  forall p, same_on 3 (get_rot_mat (qmul p q)) (times (get_rot_mat p) (get_rot_mat q)).
Proof.
  intros q. split; [intros v; split; [apply rot_sandwich0|apply rot_sandwich]|]. split; [exact (rot_orth q)|]. split; [exact (rot_det q)|]. split; [exact (rot_unit q)|]. split; [exact (rot_neg q)|]. intros p. exact (rot_mul p q).
Qed.
Print Assumptions C91_quaternion.

(** Turning a matrix by M gives M T M^T; turning a tensor of fourth order by M and applying it is applying the tensor in turned axes; turning twice
    is turning by the product; the symmetries of a tensor of fourth order are kept. *)
Theorem C91_turning : forall (M : tensor) (T : tensor4),
  (forall A, same_on 3 (rotate_tensor_rank_2 M A) (conj3 M A)) /\
  (forall E i j, contract (rotate_tensor_rank_4 M T) E i j = conj3 M (contract T (conj3 (transp M) E)) i j) /\
  (forall N i j k l, rotate_tensor_rank_4 N (rotate_tensor_rank_4 M T) i j k l = rotate_tensor_rank_4 (times N M) T i j k l) /\
  ((forall a b c d, (a < 3)%nat -> (b < 3)%nat -> T a b c d = T b a c d) -> forall i j k l, rotate_tensor_rank_4 M T i j k l = rotate_tensor_rank_4 M T j i k l) /\
  ((forall a b c d, (c < 3)%nat -> (d < 3)%nat -> T a b c d = T a b d c) -> forall i j k l, rotate_tensor_rank_4 M T i j k l = rotate_tensor_rank_4 M T i j l k) /\
  ((forall a b c d, (a < 3)%nat -> (b < 3)%nat -> (c < 3)%nat -> (d < 3)%nat -> T a b c d = T c d a b) -> forall i j k l, rotate_tensor_rank_4 M T i j k l = rotate_tensor_rank_4 M T k l i j).
Proof.
  intros M T. split; [exact (rot2_conj M)|]. split; [exact (rot4_contract M T)|]. split; [intros N; exact (rot4_compose N M T)|].
  split; [exact (rot4_minor1 M T)|]. split; [exact (rot4_minor2 M T)|exact (rot4_major M T)].
Qed.
Print Assumptions C91_turning.

(** The stiffness is that of Hooke's law for a cubic crystal; turned by M it is the law in the axes turned by M, whose stress is symmetric, whose
    energy is at least 75400/2 |E|^2 for every rotation, and which is the same in all axes a cube cannot tell apart. *)
Theorem C91_stiffness : forall (M E : tensor),
  same_on 3 (contract stiffness E) (cubic_law E) /\ same_on 3 (contract (rotate_tensor_rank_4 M stiffness) E) (turned_law M E) /\ symmetric 3 (turned_law M E) /\
  (rotation M -> symmetric 3 E -> 75400 / 2 * ddot 3 E E <= ddot 3 (turned_law M E) E) /\
  (axis_symmetry M -> forall i j k l, (i < 3)%nat -> (j < 3)%nat -> (k < 3)%nat -> (l < 3)%nat -> rotate_tensor_rank_4 M stiffness i j k l = stiffness i j k l).
Proof.
  intros M E. split; [exact (stiffness_law E)|]. split; [exact (turned_code M E)|]. split; [exact (turned_symmetric M E)|]. split; [exact (turned_pos M E)|exact (axis_stiffness M)].
Qed.
Print Assumptions C91_stiffness.

(** A quarter turn about z is the matrix of a unit quaternion and an axis symmetry. *)
Example C91_nonvacuous : let q : nat -> R := fun k => match k with 0%nat => sqrt 2 / 2 | 3%nat => sqrt 2 / 2 | _ => 0 end in qsize2 q = 1 /\ axis_symmetry (get_rot_mat q).
Proof.
  intros q. pose proof (sqrt_def 2 ltac:(lra)) as E. split; [unfold qsize2, q; cbn [pow]; lra|].
  exists (fun i => match i with 0%nat => 1%nat | 1%nat => 0%nat | _ => 2%nat end), (fun i => match i with 0%nat => -1 | _ => 1 end).
  split; [intros [|[|[|i]]] Hi; try lia; (split; [lia|]); ((left; reflexivity) || (right; reflexivity))|]. split.
  - intros [|[|[|i]]] [|[|[|j]]] Hi Hj E'; (reflexivity || discriminate || lia).
  - intros i j Hi Hj. revert i Hi. apply three_cases; revert j Hj; apply three_cases; unfold get_rot_mat, q; cbn [nth Nat.eqb]; req; lra.
Qed.
Print Assumptions C91_nonvacuous.

(** C92. The local solve at a point with displacement gradient G, inverse plastic deformation Fp, resistances g, slips sl and orientation M.  A stress
    it returns meets the crystal's law up to 1e-8, and letting it run longer gives the same stress. *)
Theorem C92_solved : forall tb dt LS fuel (G Fp : tensor) (g sl : nat -> R) (M S : tensor), solved_S tb dt LS fuel G Fp g sl M = Some S ->
  size3 (law_gap tb dt (fun i j => G i j + ident i j) Fp g M S) <= / 10 ^ 8 /\ forall k, solved_S tb dt LS (fuel + k) G Fp g sl M = Some S.
Proof. intros. split; [eapply solved_gap; exact H|]. intros k. now apply solved_more. Qed.
Print Assumptions C92_solved.

(** It goes through a sequence of stresses that starts at zero and stops at the first one that meets the law up to 1e-8, and only there.  Each step goes
    along a Newton direction d, if the linear solver is exact for the matrix of slopes, by the whole of d, or a half, a quarter, an eighth or a
    sixteenth: larger parts do not make the gap smaller, and the part taken does, unless it is the sixteenth. *)
Theorem C92_search : forall tb dt LS (G Fp : tensor) (g sl : nat -> R) (M : tensor), let F : tensor := fun i j => G i j + ident i j in
  let gap S := law_gap tb dt F Fp g M S in
  exists ys : nat -> tensor, ys 0%nat = (fun _ _ => 0) /\
  (forall m, exists k (d : tensor), (k <= 4)%nat /\ ys (Datatypes.S m) = (fun i j => ys m i j + / 2 ^ k * d i j) /\
    (exact_on LS (gap_matrix tb dt F Fp g M (ys m)) -> forall i j, (i < 3)%nat -> (j < 3)%nat ->
      sum_n (K := Rops) 3 (fun a => sum_n (K := Rops) 3 (fun b => gap_slope tb dt F Fp g M (ys m) i j a b * d a b)) = - gap (ys m) i j) /\
    (forall l, (l < k)%nat -> size3 (gap (ys m)) <= size3 (gap (fun i j => ys m i j + / 2 ^ l * d i j))) /\
    (k = 4%nat \/ size3 (gap (ys (Datatypes.S m))) < size3 (gap (ys m)))) /\
  forall fuel,
    (forall m, (m <= fuel)%nat -> (forall j, (j < m)%nat -> / 10 ^ 8 < size3 (gap (ys j))) -> size3 (gap (ys m)) <= / 10 ^ 8 -> solved_S tb dt LS fuel G Fp g sl M = Some (ys m)) /\
    ((forall m, (m <= fuel)%nat -> / 10 ^ 8 < size3 (gap (ys m))) -> solved_S tb dt LS fuel G Fp g sl M = None).
Proof.
  intros tb dt LS G Fp g sl M F gap. exists (trial tb dt G Fp g sl M LS). split; [reflexivity|]. split; [exact (trial_next tb dt G Fp g sl M LS)|].
  intros fuel. split; [exact (trial_found tb dt G Fp g sl M LS fuel)|exact (trial_running tb dt G Fp g sl M LS fuel)].
Qed.
Print Assumptions C92_search.

(** If the lattice is only turned, there is no stress: the solve returns at once, and nothing slips or hardens. *)
Theorem C92_unloaded : forall tb dt LS fuel (G Fp : tensor) (g sl : nat -> R) (M : tensor), let F : tensor := fun i j => G i j + ident i j in
  rotation (times F Fp) -> solved_S tb dt LS fuel G Fp g sl M = Some (fun _ _ => 0) /\
  (exists P, cp_stress tb dt LS fuel G Fp g sl M = Some P /\ (vol F <> 0 -> vol Fp <> 0 -> same_on 3 P (fun _ _ => 0))) /\
  exists Fp' g' sl', cp_update tb dt LS fuel G Fp g sl M = Some (Fp', g', sl', M) /\ same_on 3 Fp' Fp /\ (forall s, g' s = g s) /\ forall s, sl' s = sl s.
Proof.
  intros tb dt LS fuel G Fp g sl M F H. pose proof (unloaded tb dt LS fuel G Fp g sl M H) as E. split; [exact E|]. split.
  - unfold cp_stress. rewrite E. cbn [option_map]. eexists. split; [reflexivity|]. intros V W. now apply pk_zero.
  - unfold cp_update. rewrite E. cbn [option_map]. do 3 eexists. split; [reflexivity|]. split; [|split].
    + eapply s_trans; [apply Fp_new_spec|]. apply keep_Fp, flow_zero, s_refl.
    + intros s. rewrite hardening. rewrite (sum_n_ext (length tb) _ (fun _ => 0)).
      * rewrite Rsum_const. req; ring.
      * intros j _. rewrite (resolved_zero tb M no_stress j (s_refl _)), slip_zero, Rabs_R0. req; ring.
    + intros s. rewrite slip_total, (resolved_zero tb M no_stress s (s_refl _)), slip_zero. req; ring.
Qed.
Print Assumptions C92_unloaded.

(** If a crystal that has not flowed is stretched by c in all directions, a solver that is right for the unit matrix gives in one pass exactly the
    pressure (C11 + 2 C12)/2 (c^2 - 1), or zero if this is below 1e-8, and nothing slips. *)
Theorem C92_volume_change : forall tb dt LS fuel (c : R) (G Fp : tensor) (g sl : nat -> R) (M : tensor), let F : tensor := fun i j => G i j + ident i j in
  same_on 3 F (fun i j => c * ident i j) -> same_on 3 Fp ident -> rotation M -> in_plane tb -> (forall A, identity9 A -> exact_on LS A) -> (1 <= fuel)%nat ->
  exists S, solved_S tb dt LS fuel G Fp g sl M = Some S /\
    (same_on 3 S (fun i j => (168400 + 2 * 121400) / 2 * (c * c - 1) * ident i j) \/ (same_on 3 S (fun _ _ => 0) /\ Rabs ((168400 + 2 * 121400) / 2 * (c * c - 1)) <= / 10 ^ 8)) /\
    (forall s, (s < length tb)%nat -> slip_by dt (resolved tb M S s) (g s) = 0) /\ same_on 3 (times Fp (fun i j => ident i j - flow tb dt g M S i j)) Fp.
Proof.
  intros tb dt LS fuel c G Fp g sl M F HF HFp HM HT HL Hf. destruct fuel as [|fuel]; [lia|].
  destruct (pressure_solved tb dt LS c G Fp g sl M HF HFp HM HT fuel HL) as (S & E & D). exists S. split; [exact E|].
  replace ((168400 + 2 * 121400) / 2) with 205600 by lra. split; [exact D|].
  assert (Z : forall s, (s < length tb)%nat -> resolved tb M S s = 0).
  { intros s Hs. destruct D as [D|(D & _)]; [|now apply resolved_zero]. rewrite (resolved_ext tb M M S _ s (s_refl M) D). now apply pressure_slip. }
  split; [intros s Hs; rewrite (Z s Hs); apply slip_zero|]. apply keep_Fp. now apply slip_none.
Qed.
Print Assumptions C92_volume_change.

(** The custom derivative rule: along any curve of data with stresses S t that meet the law, the rule gives the velocity of S, if the slopes of the gap
    have a regular matrix and the linear solver is exact for it. *)
Theorem C92_tangent : forall tb dt LS (G Fp M S : R -> tensor) (g sl : R -> nat -> R) (G' Fp' M' S' : tensor) (g' sl' y : nat -> R) (eps : posreal),
  (forall i j, (i < 3)%nat -> (j < 3)%nat -> derivable_pt_lim (fun t => G t i j) 0 (G' i j) /\ derivable_pt_lim (fun t => Fp t i j) 0 (Fp' i j) /\
    derivable_pt_lim (fun t => M t i j) 0 (M' i j) /\ derivable_pt_lim (fun t => S t i j) 0 (S' i j)) ->
  (forall s, (s < length tb)%nat -> derivable_pt_lim (fun t => g t s) 0 (g' s) /\ derivable_pt_lim (fun t => sl t s) 0 (sl' s) /\ g 0 s <> 0) ->
  (forall t, Rabs t < eps -> same_on 3 (law_gap tb dt (fun i j => G t i j + ident i j) (Fp t) (g t) (M t) (S t)) (fun _ _ => 0)) ->
  let A := gap_matrix tb dt (fun i j => G 0 i j + ident i j) (Fp 0) (g 0) (M 0) (S 0) in regular9 A -> exact_on LS A -> same_on 3 (unflatten_fn y) (S 0) ->
  same_on 3 (unflatten_fn (f_jvp tb dt LS (ravel_params tb (G 0) (Fp 0) (g 0) (sl 0) (M 0)) (ravel_params tb G' Fp' g' sl' M') y)) S'.
Proof.
  intros tb dt LS G Fp M S g sl G' Fp' M' S' g' sl' y eps H1 H2 HZ A RG EX HY.
  exact (tangent_right tb dt LS G Fp M S g sl G' Fp' M' S' g' sl' (fun i j Hi Hj => proj1 (H1 i j Hi Hj)) (fun i j Hi Hj => proj1 (proj2 (H1 i j Hi Hj)))
    (fun i j Hi Hj => proj1 (proj2 (proj2 (H1 i j Hi Hj)))) (fun i j Hi Hj => proj2 (proj2 (proj2 (H1 i j Hi Hj)))) (fun s Hs => proj1 (H2 s Hs)) (fun s Hs => proj1 (proj2 (H2 s Hs)))
    y eps HY (fun s Hs => proj2 (proj2 (H2 s Hs))) HZ RG EX).
Qed.
Print Assumptions C92_tangent.

(** Growing in all directions from rest meets the hypotheses, and the rule gives the bulk stiffness. *)
Example C92_tangent_nonvacuous : forall dt,
  same_on 3 (unflatten_fn (f_jvp slip_systems_fcc dt (fun _ b => b) (ravel_params slip_systems_fcc (fun _ _ => 0) ident g0 (fun _ => 0) ident)
    (ravel_params slip_systems_fcc ident (fun _ _ => 0) (fun _ => 0) (fun _ => 0) (fun _ _ => 0)) (fun _ => 0))) (fun i j => (168400 + 2 * 121400) * ident i j).
Proof.
  intros dt. set (G := fun t i j => t * ident i j). set (S := fun t i j => 205600 * ((1 + t) * (1 + t) - 1) * ident i j).
  assert (E0 : G 0 = (fun _ _ => 0)). { unfold G. apply FunctionalExtensionality.functional_extensionality. intros i. apply FunctionalExtensionality.functional_extensionality. intros j. ring. }
  assert (RI : rotation ident) by exact ident_rotation.
  assert (FG : forall t, def_grad (G t) == (fun i j => (1 + t) * ident i j)) by (intros t i j _ _; unfold def_grad, G; change (eye3 i j) with (ident i j); req; ring).
  pose proof (C92_tangent slip_systems_fcc dt (fun _ b => b) G (fun _ => ident) (fun _ => ident) S (fun _ => g0) (fun _ _ => 0)
    ident (fun _ _ => 0) (fun _ _ => 0) (fun i j => (168400 + 2 * 121400) * ident i j) (fun _ => 0) (fun _ => 0) (fun _ => 0) (mkposreal 1 Rlt_0_1)) as H. rewrite E0 in H. cbv beta in H. apply H; clear H.
  - intros i j _ _. split; [|split; [apply derivable_pt_lim_const|split; [apply derivable_pt_lim_const|]]].
    + apply (dlim_ext _ (fun t => 0 + (ident i j * t + 0 * (t * t)))); [intros t; unfold G; req; ring|]. apply dlim_quad.
    + apply (dlim_ext _ (fun t => 0 + ((168400 + 2 * 121400) * ident i j * t + 205600 * ident i j * (t * t)))); [intros t; unfold S; req; field|]. apply dlim_quad.
  - intros s _. split; [apply derivable_pt_lim_const|]. split; [apply derivable_pt_lim_const|]. unfold g0. lra.
  - intros t _. exact (gap_pressure slip_systems_fcc dt (1 + t) (G t) ident g0 ident (FG t) (s_refl _) RI fcc_plane).
  - apply identity_regular. pose proof (jac_zero slip_systems_fcc dt (ravel_params slip_systems_fcc (fun _ _ => 0) ident g0 (fun _ => 0) ident)) as J. rewrite jac_matrix in J.
    assert (S0 : unflatten_fn (fun _ => 0) = S 0). { unfold S, unflatten_fn. apply FunctionalExtensionality.functional_extensionality. intros i. apply FunctionalExtensionality.functional_extensionality. intros j. req; ring. }
    rewrite S0 in J. exact J.
  - intros b k Hk. pose proof (jac_zero slip_systems_fcc dt (ravel_params slip_systems_fcc (fun _ _ => 0) ident g0 (fun _ => 0) ident)) as J. rewrite jac_matrix in J.
    assert (S0 : unflatten_fn (fun _ => 0) = S 0). { unfold S, unflatten_fn. apply FunctionalExtensionality.functional_extensionality. intros i. apply FunctionalExtensionality.functional_extensionality. intros j. req; ring. }
    rewrite S0 in J. now apply identity_apply.
  - intros i j _ _. unfold unflatten_fn, S. req; ring.
Qed.
Print Assumptions C92_tangent_nonvacuous.

(** A stretch along a crystal axis with slip: with an exact solver the local solve ends after one pass at a uniaxial stress, and eight systems slip. *)
Example C92_slips : forall LS fuel sl, (forall A, identity9 A -> exact_on LS A) -> (1 <= fuel)%nat -> exists S s, solved_S slip_systems_fcc (1 / 100) LS fuel mild_G ident g0 sl ident = Some S /\
  0 < s /\ same_on 3 S (fun i j => if (i =? 0)%nat then if (j =? 0)%nat then s else 0 else 0) /\
  forall k, (k < 12)%nat -> slip_by (1 / 100) (resolved slip_systems_fcc ident S k) (g0 k) = / 10 ^ 15 * direction slip_systems_fcc k 0%nat.
Proof.
  intros LS fuel sl HL Hf. destruct fuel as [|fuel]; [lia|]. destruct (mild_solved mild_G ident g0 sl ident LS (s_refl _) (s_refl _) (fun _ _ => eq_refl) (s_refl _) HL fuel) as (S & E & H).
  exists S, (s0 / 10). split; [exact E|]. split; [pose proof s0_bounds; lra|]. split.
  - eapply s_trans; [exact H|]. intros i j _ _. unfold mild, uniaxial. destruct (i =? 0)%nat; [destruct (j =? 0)%nat|]; req; field.
  - intros k Hk. exact (mild_slips g0 ident (fun _ _ => eq_refl) (s_refl _) S k H Hk).
Qed.
Print Assumptions C92_slips.

(** C93. The stress P of a point: with Fn the new inverse plastic deformation and Fe = F Fn the deformation of the lattice, det(Fn) P F^T = Fe S Fe^T,
    where S differs from its transpose by at most 2e-8. *)
Theorem C93_stress : forall tb dt LS fuel (G Fp : tensor) (g sl : nat -> R) (M P : tensor), let F : tensor := fun i j => G i j + ident i j in
  cp_stress tb dt LS fuel G Fp g sl M = Some P -> exists S, solved_S tb dt LS fuel G Fp g sl M = Some S /\
  (forall i j, (i < 3)%nat -> (j < 3)%nat -> Rabs (S i j - S j i) <= 2 * / 10 ^ 8) /\
  let Fn := times Fp (fun i j => ident i j - flow tb dt g M S i j) in
  (vol F <> 0 -> vol Fn <> 0 -> same_on 3 (fun i j => vol Fn * times P (transp F) i j) (conj3 (times F Fn) S)) /\
  exists Fp' g' sl', cp_update tb dt LS fuel G Fp g sl M = Some (Fp', g', sl', M) /\ same_on 3 Fp' Fn.
Proof.
  intros tb dt LS fuel G Fp g sl M P F H. unfold cp_stress in H. destruct (solved_S tb dt LS fuel G Fp g sl M) as [S|] eqn:E; [|discriminate]. cbn [option_map] in H. injection H as <-.
  exists S. split; [reflexivity|]. split.
  - intros i j Hi Hj. eapply Rle_trans; [apply (gap_symmetry tb dt G Fp g M S i j Hi Hj)|]. apply Rmult_le_compat_l; [lra|]. eapply solved_gap. exact E.
  - cbv zeta. split; [intros V W; exact (pk_form tb dt G Fp g sl M S V W)|]. unfold cp_update. rewrite E. do 3 eexists. split; [reflexivity|]. apply Fp_new_spec.
Qed.
Print Assumptions C93_stress.

(** Each slip goes the way of its shear stress, so the stress does work on the flow, unless no system carries shear stress.  If the systems lie in
    their planes, the flow has no trace, and if only one system carries shear stress, the plastic volume stays. *)
Theorem C93_flow : forall tb dt (G Fp : tensor) (g sl : nat -> R) (M S : tensor), let h := helper tb dt G Fp g sl M S in let slip s := slip_new h s - sl s in
  exists L : tensor, (forall i j, (i < 3)%nat -> (j < 3)%nat -> Fp_inv_new h i j = times Fp (fun i j => ident i j - L i j) i j) /\
  (0 <= dt -> forall s, 0 <= resolved tb M S s * slip s) /\
  ddot 3 S L = sum_n (K := Rops) (length tb) (fun s => resolved tb M S s * slip s) /\
  (0 <= dt -> 0 <= ddot 3 S L) /\
  (0 < dt -> (forall s, (s < length tb)%nat -> g s <> 0) -> (exists s, (s < length tb)%nat /\ resolved tb M S s <> 0) -> 0 < ddot 3 S L) /\
  (rotation M -> in_plane tb -> trace 3 L = 0) /\
  (rotation M -> in_plane tb -> forall s0, (s0 < length tb)%nat -> (forall s, (s < length tb)%nat -> s <> s0 -> resolved tb M S s = 0) ->
    vol (Fp_inv_new h) = vol Fp).
Proof.
  intros tb dt G Fp g sl M S h slip. assert (E : forall s, slip s = slip_by dt (resolved tb M S s) (g s)) by (intros s; unfold slip, h; rewrite slip_total; ring).
  assert (EL : sum_n (K := Rops) (length tb) (fun s => resolved tb M S s * slip s) = sum_n (K := Rops) (length tb) (fun s => resolved tb M S s * slip_by dt (resolved tb M S s) (g s))) by (apply Rsum_ext; intros s _; now rewrite E).
  exists (flow tb dt g M S). split; [intros i j Hi Hj; exact (Fp_new_spec tb dt G Fp g sl M S i j Hi Hj)|].
  split; [intros H s; rewrite E; now apply slip_sign|]. split; [rewrite EL; apply flow_power|]. split; [|split; [|split]].
  - intros H. rewrite flow_power. apply Rsum_nonneg. intros s _. now apply slip_sign.
  - intros H Hg (s & Hs & N). rewrite flow_power. apply (Rsum_pos _ _ s); [intros k _; apply slip_sign; lra|exact Hs|]. apply slip_pos; [exact H|now apply Hg|exact N].
  - apply flow_trace.
  - intros HM HT s0 H0 H. unfold h. rewrite <- (single_volume tb dt Fp g M S s0) by assumption. apply FinPlastFacts.vol_ext. exact (Fp_new_spec tb dt G Fp g sl M S).
Qed.
Print Assumptions C93_flow.

(** All systems harden by the same amount, which the slips of all systems give; as long as no resistance is above 109.8, none falls; the slips are
    added up. *)
Theorem C93_hardening : forall tb dt (G Fp : tensor) (g sl : nat -> R) (M S : tensor) s, let h := helper tb dt G Fp g sl M S in let slip j := slip_by dt (resolved tb M S j) (g j) in
  slip_resistance_new h s = g s + 5415 / 10 * sum_n (K := Rops) (length tb) (fun j => Rabs (slip j) * to_saturation (g j)) /\
  slip_new h s = sl s + slip s /\ ((forall j, (j < length tb)%nat -> g j <= 1098 / 10) -> g s <= slip_resistance_new h s).
Proof.
  intros tb dt G Fp g sl M S s h slip. split; [exact (hardening tb dt G Fp g sl M S s)|]. split; [exact (slip_total tb dt G Fp g sl M S s)|].
  intros H. unfold h. rewrite hardening. assert (N : 0 <= sum_n (K := Rops) (length tb) (fun j => Rabs (slip j) * to_saturation (g j))); [|unfold slip in N; lra].
  apply Rsum_nonneg. intros j Hj. apply Rmult_le_pos; [apply Rabs_pos|]. apply saturation_nonneg. now apply H.
Qed.
Print Assumptions C93_hardening.

(** Slip on several systems does not keep the plastic volume, and a resistance does not stay below 109.8 although hardening stops there: with the
    face-centred cubic systems and dt = 100, a uniaxial stress meets the law exactly, changes the volume and takes all resistances beyond 109.8. *)
Theorem C93_volume_refuted : ~ (forall dt (F M S : tensor) (g : nat -> R), 0 < dt -> 0 < vol F -> rotation M -> (forall s, 0 < g s) ->
  same_on 3 (law_gap slip_systems_fcc dt F ident g M S) (fun _ _ => 0) -> vol (times ident (fun i j => ident i j - flow slip_systems_fcc dt g M S i j)) = vol ident).
Proof.
  intros H. pose proof e_bounds as (B1 & B2). assert (RI : rotation ident) by exact ident_rotation.
  specialize (H 100 (case_F 100) ident uniaxial g0 ltac:(lra) (case_F_vol 100 ltac:(lra)) RI ltac:(intros; unfold g0; lra) (case_law 100 ltac:(lra) _ (s_refl _))).
  rewrite case_volume in H. change (vol ident) with (vol eye3) in H. rewrite vol_1 in H. set (e := 100 / 1000 * w6) in *. pose proof (Rmult_lt_0_compat e e B1 B1). pose proof (Rmult_lt_0_compat (e * e) e H0 B1). lra.
Qed.
Print Assumptions C93_volume_refuted.
Theorem C93_saturation_refuted : ~ (forall dt (G M S : tensor) (g sl : nat -> R), let F : tensor := fun i j => G i j + ident i j in 0 < dt -> 0 < vol F -> rotation M -> (forall s, 0 < g s <= 1098 / 10) ->
  same_on 3 (law_gap slip_systems_fcc dt F ident g M S) (fun _ _ => 0) -> forall s, slip_resistance_new (helper slip_systems_fcc dt G ident g sl M S) s <= 1098 / 10).
Proof.
  intros H. pose proof e_bounds as (B1 & B2). assert (RI : rotation ident) by exact ident_rotation.
  specialize (H 100 (case_G 100) ident uniaxial g0 (fun _ => 0) ltac:(lra)).
  assert (V : 0 < vol (fun i j => case_G 100 i j + ident i j)) by (change (0 < vol (def_grad (case_G 100))); rewrite (vol_ext _ _ (case_def 100)); exact (case_F_vol 100 ltac:(lra))).
  specialize (H V RI ltac:(intros; unfold g0; lra) (case_law 100 ltac:(lra) _ (case_def 100)) 0%nat). rewrite case_hardening in H. rewrite Rabs_pos_eq in H by lra. pose proof case_saturation. lra.
Qed.
Print Assumptions C93_saturation_refuted.

(** Turning the deformed body by Q leaves the local solve and the new state as they are, and turns P by Q. *)
Theorem C93_objective : forall tb dt LS fuel (G G' Fp Q : tensor) (g sl : nat -> R) (M : tensor), let F : tensor := fun i j => G i j + ident i j in let F' : tensor := fun i j => G' i j + ident i j in
  rotation Q -> same_on 3 F' (times Q F) ->
  solved_S tb dt LS fuel G' Fp g sl M = solved_S tb dt LS fuel G Fp g sl M /\ cp_update tb dt LS fuel G' Fp g sl M = cp_update tb dt LS fuel G Fp g sl M /\
  forall P, cp_stress tb dt LS fuel G Fp g sl M = Some P -> vol F <> 0 -> (forall S, solved_S tb dt LS fuel G Fp g sl M = Some S -> vol (times Fp (fun i j => ident i j - flow tb dt g M S i j)) <> 0) ->
  exists P', cp_stress tb dt LS fuel G' Fp g sl M = Some P' /\ same_on 3 P' (times Q P).
Proof.
  intros tb dt LS fuel G G' Fp Q g sl M F F' HQ HF.
  assert (E : solved_S tb dt LS fuel G' Fp g sl M = solved_S tb dt LS fuel G Fp g sl M) by (apply solved_same; intros S; exact (gap_turn tb dt Q F F' Fp g M S HQ HF)).
  split; [exact E|]. split; [unfold cp_update; rewrite E; reflexivity|]. intros P HP V W. unfold cp_stress in *. rewrite E. destruct (solved_S tb dt LS fuel G Fp g sl M) as [S|]; [|discriminate].
  cbn [option_map] in *. injection HP as <-. eexists. split; [reflexivity|]. apply (pk_turn tb dt Q G G' Fp g sl M S HQ HF V). now apply W.
Qed.
Print Assumptions C93_objective.

(** Turning the body before it is deformed, with the crystal and its state: F Q^T, Q Fp Q^T and Q M instead of F, Fp and M.  The law, the flow, the new state
    and the stress turn with it: the gap at Q S Q^T is that at S turned, and so of the same size. *)
Theorem C93_body_turned : forall tb dt (G G' Fp Fp' Q : tensor) (g sl : nat -> R) (M M' S S' : tensor), let F : tensor := fun i j => G i j + ident i j in let F' : tensor := fun i j => G' i j + ident i j in
  rotation Q -> same_on 3 (times F' Q) F -> same_on 3 Fp' (conj3 Q Fp) -> same_on 3 M' (times Q M) -> same_on 3 S' (conj3 Q S) ->
  same_on 3 (law_gap tb dt F' Fp' g M' S') (conj3 Q (law_gap tb dt F Fp g M S)) /\ size3 (law_gap tb dt F' Fp' g M' S') = size3 (law_gap tb dt F Fp g M S) /\
  same_on 3 (Fp_inv_new (helper tb dt G' Fp' g sl M' S')) (conj3 Q (Fp_inv_new (helper tb dt G Fp g sl M S))) /\
  (forall s, slip_resistance_new (helper tb dt G' Fp' g sl M' S') s = slip_resistance_new (helper tb dt G Fp g sl M S) s /\ slip_new (helper tb dt G' Fp' g sl M' S') s = slip_new (helper tb dt G Fp g sl M S) s) /\
  (vol F <> 0 -> vol (Fp_inv_new (helper tb dt G Fp g sl M S)) <> 0 -> same_on 3 (times (PK_of tb dt G' Fp' g sl M' S') Q) (PK_of tb dt G Fp g sl M S)).
Proof.
  intros tb dt G G' Fp Fp' Q g sl M M' S S' F F' HQ HF H0 H1 H2. pose proof (gap_body tb dt Q F F' Fp Fp' g M M' S S' HQ HF H0 H1 H2) as GB. split; [exact GB|].
  split; [rewrite (size_ext _ _ GB); now apply size_conj|]. split; [|split].
  - eapply s_trans; [apply Fp_new_spec|]. eapply s_trans; [exact (Fn_turn tb dt Q Fp Fp' g M M' S S' HQ H0 H1 H2)|]. apply conj_ext; [apply s_refl|apply s_sym, Fp_new_spec].
  - intros s. rewrite !hardening, !slip_total. rewrite (resolved_turn tb Q M M' S S' s HQ H1 H2). split; [|reflexivity]. do 2 f_equal. apply sum_n_ext. intros j _. now rewrite (resolved_turn tb Q M M' S S' j HQ H1 H2).
  - intros V W. rewrite (vol_ext _ _ (Fp_new_spec tb dt G Fp g sl M S)) in W. exact (pk_body tb dt Q G G' Fp Fp' g sl M M' S S' HQ HF H0 H1 H2 V W).
Qed.
Print Assumptions C93_body_turned.

(** Load histories, with any solver.  The state starts from no plastic deformation, resistances 60.8, no slip and the orientation of the grain's
    quaternion (the last one for indices beyond their number); a table whose length is not a multiple of three and a mesh of lower dimension are
    errors, and so is a list of grains that has not one entry for each cell.  In a history that ends, step i solves the problem with the state before it,
    starting from the solution before it.  At each point there is a stress S that meets the law with that state up to 1e-8; the state after the step is
    that of S: plastic deformation, resistances, slips; the orientation never changes, and all resistances of a point stay equal.  The
    problem's stress is that of S, and the stress reported for a cell is the mean of the Cauchy stresses of its points. *)
Theorem C93_history : forall tb dt LS (f : fe Rops) P fuel solve n (p : problem Rops cp_var) sol0 quat inds,
  ((length tb mod 3 <> 0)%nat -> cp_init tb f quat inds = Err IndexErr) /\ ((dim f < 3)%nat -> cp_init tb f quat inds = Err IndexErr) /\
  ((length tb mod 3 = 0)%nat -> (3 <= dim f)%nat -> exists iv0, cp_init tb f quat inds = Ok iv0) /\
  forall iv0, cp_init tb f quat inds = Ok iv0 -> maps p = cp_maps tb dt LS fuel ->
  (length inds <> num_cells f -> (0 < n)%nat -> (exists s, solve 0%nat (with_vars p iv0) sol0 = Ok s) -> cp_loop tb dt LS f P fuel solve n 0 p sol0 iv0 = Some (Err ValueErr)) /\
  (length inds = num_cells f ->
  (forall e, cp_loop tb dt LS f P fuel solve n 0 p sol0 iv0 = Some (Err e) -> exists i p' s, solve i p' s = Err e) /\
  (forall c q, (c < num_cells f)%nat -> kept_Fp iv0 c q = ident /\ (forall s, kept_g iv0 c q s = 608 / 10 /\ kept_slip iv0 c q s = 0)) /\
  forall h, cp_loop tb dt LS f P fuel solve n 0 p sol0 iv0 = Some (Ok h) -> length h = n /\
  forall i, (i < n)%nat -> let before := nth i (iv0 :: map cp_vars h) [] in let st := nth i h (no_cp tb dt LS fuel) in let after := cp_vars st in
    internal_vars (cp_problem st) = before /\ fes (cp_problem st) = fes p /\ maps (cp_problem st) = maps p /\ boundary_inds_list (cp_problem st) = boundary_inds_list p /\
    solve i (cp_problem st) (nth i (sol0 :: map cp_sol h) []) = Ok (cp_sol st) /\
    forall c, (c < num_cells f)%nat -> let F : nat -> tensor := fun q a b => sol_to_grad P f (cp_sol st) c q a b + ident a b in let PF q := times (stress (cp_problem st) f P (cp_sol st) c q) (transp (F q)) in
    (forall q, (q < num_quads f)%nat -> let M := get_rot_mat (nth (Nat.min (nth c inds 0%nat) (length quat - 1)) quat (fun _ => 0)) in
      kept_rot after c q = M /\ (forall s s', kept_g after c q s = kept_g after c q s') /\
      exists S, let g := kept_g before c q in let slip s := slip_by dt (resolved tb M S s) (g s) in
        size3 (law_gap tb dt (F q) (kept_Fp before c q) g M S) <= / 10 ^ 8 /\
        same_on 3 (kept_Fp after c q) (times (kept_Fp before c q) (fun a b => ident a b - flow tb dt g M S a b)) /\
        (forall s, kept_slip after c q s = kept_slip before c q s + slip s /\
          kept_g after c q s = g s + 5415 / 10 * sum_n (K := Rops) (length tb) (fun j => Rabs (slip j) * to_saturation (g j))) /\
        (vol (F q) <> 0 -> vol (kept_Fp after c q) <> 0 -> same_on 3 (fun a b => vol (kept_Fp after c q) * PF q a b) (conj3 (times (F q) (kept_Fp after c q)) S))) /\
    let J := sum_n (K := Rops) (num_quads f) (fun q => get_JxW P f c q) in
    (J <> 0 -> (forall q, (q < num_quads f)%nat -> vol (F q) <> 0) -> same_on 3 (fun a b => J * nth c (cp_sigma st) (fun _ _ => 0) a b) (fun a b => sum_n (K := Rops) (num_quads f) (fun q => get_JxW P f c q * (PF q a b / vol (F q)))))).
Proof.
  intros tb dt LS f P fuel solve n p sol0 quat inds. split; [|split; [|split]].
  { intros H. unfold cp_init, num_slip_sys. apply Nat.eqb_neq in H. now rewrite H. }
  { intros H. unfold cp_init. apply Nat.ltb_lt in H. rewrite H. now destruct (negb _). }
  { intros H H'. unfold cp_init, num_slip_sys. rewrite H. apply Nat.ltb_ge in H'. rewrite H'. now eexists. }
  intros iv0 IN MP. split.
  { intros NE Hn (s & ES). destruct n as [|n]; [lia|]. cbn. rewrite ES. unfold cp_init in IN. destruct (negb _); [discriminate|]. destruct (dim f <? 3)%nat; [discriminate|]. injection IN as <-.
    unfold compute_avg_stress, cp_unpack. rewrite !repeat_length, !map_length. apply Nat.eqb_neq in NE. rewrite NE, andb_false_r. reflexivity. }
  intros LI. destruct (cinit tb f quat inds iv0 IN LI) as (T & KI). split; [|split].
  { intros e E. destruct (cloop_cases tb dt LS f P fuel solve n 0 p sol0 iv0 T) as [C|[(h & C)|(e' & i & p' & s & C & D)]]; rewrite C in E; try discriminate. injection E as <-. now exists i, p', s. }
  { intros c q Hc. destruct (KI c q Hc) as (K1 & K2 & K3 & _). split; [exact K1|]. intros s. split; [apply K2|apply K3]. }
  intros h L. destruct (cloop_spec tb dt LS f P fuel solve n 0 p sol0 iv0 h T L) as (LN & H). split; [exact LN|]. intros i Hi before st after.
  destruct (H i Hi) as (T1 & T2 & (p0 & EP & E1 & E2 & E3) & ES & EG & EU). fold before st in T1, T2, EP, ES, EU, EG. cbn [Nat.add] in ES.
  split; [rewrite EP; reflexivity|]. split; [rewrite EP; exact E1|]. split; [rewrite EP; exact E2|]. split; [rewrite EP; exact E3|]. split; [exact ES|].
  intros c Hc F PF.
  destruct (update_cases tb dt LS f P fuel (cp_sol st) before T1) as [(EU' & _)|(ivs' & EU' & _ & K)]; rewrite EU' in EU; [discriminate|]. injection EU as EU. fold after in EU. subst ivs'.
  assert (KR : forall q m, (q < num_quads f)%nat -> (m <= n)%nat -> kept_rot (nth m (iv0 :: map cp_vars h) []) c q = orientation quat inds c /\ forall s s', kept_g (nth m (iv0 :: map cp_vars h) []) c q s = kept_g (nth m (iv0 :: map cp_vars h) []) c q s').
  { intros q m Hq Hm. apply (cloop_kept tb dt LS f P fuel solve n 0 p sol0 iv0 h c q (orientation quat inds c) T L Hc Hq); [apply (KI c q Hc)| |exact Hm]. intros s s'. destruct (KI c q Hc) as (_ & K2 & _). now rewrite !K2. }
  assert (PKE : forall q S, (q < num_quads f)%nat -> S_at tb dt LS f P fuel (cp_sol st) before c q = Some S -> stress (cp_problem st) f P (cp_sol st) c q = PK_at tb dt f P (cp_sol st) before c q S).
  { intros q S Hq HS. unfold stress. rewrite EP. change (maps (with_vars p0 before)) with (maps p0). rewrite E2, MP. cbn [tensor_map cp_maps]. rewrite (civ_kept f p0 before c q T1 Hc). cbn [cp_tensor_map].
    unfold cp_stress. unfold S_at in HS. change (solved_S tb dt LS fuel (sol_to_grad P f (cp_sol st) c q) (as_t (ckept before 0 c q)) (as_v (ckept before 1 c q)) (as_v (ckept before 2 c q)) (as_t (ckept before 3 c q)) = Some S) in HS. rewrite HS. reflexivity. }
  split.
  - intros q Hq M. destruct (K c q Hc Hq) as (S & ES1 & K1 & K2 & K3 & K4). destruct (KR q i Hq ltac:(lia)) as (R1 & R2). fold before in R1, R2.
    assert (AE : nth (Datatypes.S i) (iv0 :: map cp_vars h) [] = after) by (apply cloop_next; lia).
    destruct (KR q (Datatypes.S i) Hq ltac:(lia)) as (R3 & R4). rewrite AE in R3, R4. split; [exact R3|]. split; [exact R4|]. exists S. cbv zeta.
    pose proof ES1 as ES2. unfold S_at in ES2. rewrite R1 in ES2. change (orientation quat inds c) with M in ES2, R1. split; [exact (solved_gap _ _ _ _ _ _ _ _ _ _ ES2)|].
    unfold new_at in K1, K2, K3. rewrite R1 in K1, K2, K3. split; [rewrite K1; apply Fp_new_spec|]. split.
    + intros s. rewrite K2, K3, slip_total, hardening. split; reflexivity.
    + intros V W. assert (EF : kept_Fp after c q == times (kept_Fp before c q) (fun a b => ident a b - flow tb dt (kept_g before c q) M S a b)) by (rewrite K1; apply Fp_new_spec).
      rewrite (vol_ext _ _ EF) in W. intros a b Ha Hb. rewrite (vol_ext _ _ EF). unfold PF. rewrite (PKE q S Hq ES1). unfold PK_at. rewrite R1.
      etransitivity; [exact (pk_form tb dt _ _ _ _ M S V W a b Ha Hb)|]. apply conj_ext; [|apply s_refl|exact Ha|exact Hb]. unfold lattice. apply m_r. apply s_sym, EF.
  - intros J HJ HV a b Ha Hb.
    destruct (avg_cases tb dt LS f P fuel (cp_sol st) before T1) as [(EG' & _)|(sg & EG' & _ & KS)]; rewrite EG' in EG; [discriminate|]. injection EG as <-.
    pose (Tc := fun c q => match S_at tb dt LS f P fuel (cp_sol st) before c q with Some x => x | None => fun _ _ => 0 end).
    rewrite (KS Tc); [|intros c' q' Hc' Hq'; destruct (K c' q' Hc' Hq') as (S & ES1 & _); unfold Tc; rewrite ES1; reflexivity|exact Hc]. fold J.
    match goal with |- J * (?x / J) = _ => transitivity x; [req; field; exact HJ|] end. apply sum_n_ext. intros q Hq. destruct (K c q Hc Hq) as (S & ES1 & _). unfold PF. rewrite (PKE q S Hq ES1).
    assert (TS : Tc c q = S) by (unfold Tc; now rewrite ES1). rewrite TS. unfold P_to_sigma. change (det (K := Rops) 3 (def_grad (sol_to_grad P f (cp_sol st) c q))) with (vol (F q)). specialize (HV q Hq).
    unfold mul3, times. change ((def_grad (sol_to_grad P f (cp_sol st) c q))^T) with (transp (F q)). rewrite !sum3. req; field. exact HV.
Qed.
Print Assumptions C93_history.

(** Histories with slip exist: on any mesh of three-dimensional elements with nonzero Jacobians, all cells in the axes of the crystal and a
    solver that returns the stretch of C92_slips, the loop ends and leaves eight systems of every point with slip. *)
Example C93_history_nonvacuous : forall s (f : fe Rops) (p : problem Rops cp_var) LS, built_element s 3 f -> vec f = 3%nat -> dim f = 3%nat ->
  (forall c q, (c < num_cells f)%nat -> get_JxW (points f) f c q <> 0) -> (forall A, identity9 A -> exact_on LS A) ->
  let quat : list (nat -> R) := [fun k => if (k =? 0)%nat then 1 else 0] in let inds := repeat 0%nat (num_cells f) in
  exists iv0 h, cp_init slip_systems_fcc f quat inds = Ok iv0 /\ length inds = num_cells f /\
  cp_loop slip_systems_fcc (1 / 100) LS f (points f) 1 (fun _ _ _ => Ok (affine_values 3 3 mild_G (fun _ => 0) (points f))) 1 0 p [] iv0 = Some (Ok h) /\
  forall c q k, (c < num_cells f)%nat -> (q < num_quads f)%nat -> (k < 12)%nat -> kept_slip (cp_vars (nth 0 h (no_cp slip_systems_fcc (1 / 100) LS 1))) c q k = / 10 ^ 15 * direction slip_systems_fcc k 0%nat.
Proof.
  intros s f p LS LE V3 D3 HJ HL quat inds. set (sol := affine_values 3 3 mild_G (fun _ => 0) (points f)). set (slv := fun (_ : nat) (_ : problem Rops cp_var) (_ : list (list Rops)) => Ok sol).
  assert (LI : length inds = num_cells f) by apply repeat_length.
  assert (IN : exists iv0, cp_init slip_systems_fcc f quat inds = Ok iv0) by (unfold cp_init; rewrite D3; cbn; now eexists). destruct IN as (iv0 & IN). destruct (cinit slip_systems_fcc f quat inds iv0 IN LI) as (T & KI).
  assert (SA : samples (K := Rops) 3 (vec f) mild_G (fun _ => 0) (points f) sol) by (rewrite V3; apply affine_values_sol).
  assert (GG : forall c q, (c < num_cells f)%nat -> sol_to_grad (points f) f sol c q == mild_G).
  { intros c q Hc a b Ha Hb. apply (C05_affine_gradient_exact Rops Rops_field s 3 f LE (points f) eq_refl mild_G (fun _ => 0) sol SA c q a b Hc); [now rewrite V3|exact Hb|exact (HJ c q Hc)]. }
  assert (OR : forall c, (c < num_cells f)%nat -> orientation quat inds c == ident).
  { intros c Hc. unfold orientation, inds. rewrite nth_repeat. cbn [Nat.min nth quat]. intros i j Hi Hj. revert i Hi. apply three_cases; revert j Hj; apply three_cases; unfold get_rot_mat, ident; cbn [nth Nat.eqb]; req; ring. }
  assert (ST : forall c q, (c < num_cells f)%nat -> exists S, S_at slip_systems_fcc (1 / 100) LS f (points f) 1 sol iv0 c q = Some S /\ S == mild).
  { intros c q Hc. destruct (KI c q Hc) as (K1 & K2 & K3 & K4). unfold S_at. apply (mild_solved _ _ _ _ _ LS); [exact (GG c q Hc)|rewrite K1; apply s_refl|intros k _; rewrite K2; reflexivity|rewrite K4; exact (OR c Hc)|exact HL]. }
  destruct (avg_cases slip_systems_fcc (1 / 100) LS f (points f) 1 sol iv0 T) as [(_ & C)|(sg & EG & _)]; [exfalso; apply C; intros c q Hc _; destruct (ST c q Hc) as (S & E & _); now exists S|].
  destruct (update_cases slip_systems_fcc (1 / 100) LS f (points f) 1 sol iv0 T) as [(_ & C)|(ivs' & EU & _ & K)]; [exfalso; apply C; intros c q Hc _; destruct (ST c q Hc) as (S & E & _); now exists S|].
  exists iv0. eexists. split; [exact IN|]. split; [exact LI|]. split; [cbn; fold sol; rewrite EG, EU; reflexivity|].
  intros c q k Hc Hq Hk. cbn [nth cp_vars]. destruct (K c q Hc Hq) as (S & ES & _ & _ & K3 & _). rewrite K3. unfold new_at. rewrite slip_total. destruct (KI c q Hc) as (K1 & K2 & K3' & K4). rewrite K3'.
  destruct (ST c q Hc) as (S' & ES' & HS). rewrite ES in ES'. injection ES' as <-.
  rewrite Rplus_0_l. apply (mild_slips _ _); [intros j _; rewrite K2; reflexivity|rewrite K4; exact (OR c Hc)|exact HS|exact Hk].
Qed.
Print Assumptions C93_history_nonvacuous.
