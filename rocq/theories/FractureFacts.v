(** The split of the energy and the stress, for C86. *)
From Coq Require Import Reals List Arith Lia Lra Bool FunctionalExtensionality.
From Verif Require Import Num Arr Fe Problem ProblemFacts SpecAssembly SpecWeak SpecEnergy EnergyFacts DerivFacts Elastic ElasticFacts LinAlg Plasticity SpecPlasticity PlasticityFacts Eigen SpecEigen EigenFacts EigenMain EigenMore
  SpecLinear SpecPosed SpecMonotone XNum Fracture SpecFracture.
Import ListNotations.
Local Open Scope R_scope.
Local Notation sum n g := (sum_n (K := Rops) n g).
Local Ltac rr := cbv beta; cbn [add mul zero Rops]; req; try change (car Rops) with R; ring.

(** ** The brackets *)
Lemma plus_max x : safe_plus x = Rmax x 0.
Proof. unfold safe_plus, Rabs, Rmax. destruct (Rcase_abs x), (Rle_dec x 0); lra. Qed.
Lemma minus_min x : safe_minus x = Rmin x 0.
Proof. unfold safe_minus, Rabs, Rmin. destruct (Rcase_abs x), (Rle_dec x 0); lra. Qed.
Lemma plus_minus x : safe_plus x + safe_minus x = x.
Proof. unfold safe_plus, safe_minus. lra. Qed.
Lemma plus_times_minus x : safe_plus x * safe_minus x = 0.
Proof. unfold safe_plus, safe_minus, Rabs. destruct (Rcase_abs x); lra. Qed.
Lemma squares_sum x : safe_plus x * safe_plus x + safe_minus x * safe_minus x = x * x.
Proof. unfold safe_plus, safe_minus, Rabs. destruct (Rcase_abs x); lra. Qed.
Lemma plus_self x : safe_plus x * x = safe_plus x * safe_plus x.
Proof. unfold safe_plus, Rabs. destruct (Rcase_abs x); lra. Qed.
Lemma minus_self x : safe_minus x * x = safe_minus x * safe_minus x.
Proof. unfold safe_minus, Rabs. destruct (Rcase_abs x); lra. Qed.
Lemma plus_nn x : 0 <= safe_plus x.
Proof. unfold safe_plus, Rabs. destruct (Rcase_abs x); lra. Qed.
Lemma minus_np x : safe_minus x <= 0.
Proof. unfold safe_minus, Rabs. destruct (Rcase_abs x); lra. Qed.
Lemma quad_bound (f : R -> R) x y : (forall h, Rabs (f (x + h) - f x - y * h) <= h * h) -> derivable_pt_lim f x y.
Proof.
  intros H eps He. exists (mkposreal eps He). intros h Hh Hd. cbn in Hd. specialize (H h).
  replace ((f (x + h) - f x) / h - y) with ((f (x + h) - f x - y * h) / h) by (field; exact Hh).
  unfold Rdiv. rewrite Rabs_mult, Rabs_inv. assert (0 < Rabs h) by now apply Rabs_pos_lt.
  apply Rmult_lt_reg_r with (Rabs h); [assumption|]. rewrite Rmult_assoc, Rinv_l, Rmult_1_r by lra.
  apply Rle_lt_trans with (1 := H). replace (h * h) with (Rabs h * Rabs h) by (rewrite <- Rabs_mult; apply Rabs_pos_eq; apply Rle_0_sqr).
  apply Rmult_lt_compat_r; assumption.
Qed.
Lemma d_plus x : derivable_pt_lim (fun x => safe_plus x * safe_plus x) x (2 * safe_plus x).
Proof.
  apply quad_bound. intros h. apply Rabs_le. unfold safe_plus, Rabs.
  assert (0 <= h * h) by apply Rle_0_sqr. assert (0 <= x * x) by apply Rle_0_sqr. assert (0 <= (x + h) * (x + h)) by apply Rle_0_sqr.
  destruct (Rcase_abs x), (Rcase_abs (x + h)); split; nra.
Qed.
Lemma d_minus x : derivable_pt_lim (fun x => safe_minus x * safe_minus x) x (2 * safe_minus x).
Proof.
  apply quad_bound. intros h. apply Rabs_le. unfold safe_minus, Rabs.
  assert (0 <= h * h) by apply Rle_0_sqr. assert (0 <= x * x) by apply Rle_0_sqr. assert (0 <= (x + h) * (x + h)) by apply Rle_0_sqr.
  destruct (Rcase_abs x), (Rcase_abs (x + h)); split; nra.
Qed.
(** a weighted sum of the two brackets *)
Definition bent (gd x : R) : R := gd * safe_plus x + safe_minus x.
Lemma bent_grows gd k x y : k <= gd -> k <= 1 -> k * ((x - y) * (x - y)) <= (bent gd x - bent gd y) * (x - y).
Proof.
  intros A B. unfold bent, safe_plus, safe_minus, Rabs. assert (0 <= (x - y) * (x - y)) by apply Rle_0_sqr. assert (0 <= x * x) by apply Rle_0_sqr. assert (0 <= y * y) by apply Rle_0_sqr.
  destruct (Rcase_abs x), (Rcase_abs y).
  - replace ((gd * (/ 2 * (x + - x)) + / 2 * (x - - x) - (gd * (/ 2 * (y + - y)) + / 2 * (y - - y))) * (x - y)) with (1 * ((x - y) * (x - y))) by field. apply Rmult_le_compat_r; assumption.
  - replace ((gd * (/ 2 * (x + - x)) + / 2 * (x - - x) - (gd * (/ 2 * (y + y)) + / 2 * (y - y))) * (x - y)) with ((x - gd * y) * (x - y)) by field.
    assert (0 <= (1 - k) * (- x * (y - x))) by (apply Rmult_le_pos; [lra|apply Rmult_le_pos; lra]). assert (0 <= (gd - k) * (y * (y - x))) by (apply Rmult_le_pos; [lra|apply Rmult_le_pos; lra]). lra.
  - replace ((gd * (/ 2 * (x + x)) + / 2 * (x - x) - (gd * (/ 2 * (y + - y)) + / 2 * (y - - y))) * (x - y)) with ((gd * x - y) * (x - y)) by field.
    assert (0 <= (1 - k) * (- y * (x - y))) by (apply Rmult_le_pos; [lra|apply Rmult_le_pos; lra]). assert (0 <= (gd - k) * (x * (x - y))) by (apply Rmult_le_pos; [lra|apply Rmult_le_pos; lra]). lra.
  - replace ((gd * (/ 2 * (x + x)) + / 2 * (x - x) - (gd * (/ 2 * (y + y)) + / 2 * (y - y))) * (x - y)) with (gd * ((x - y) * (x - y))) by field. apply Rmult_le_compat_r; assumption.
Qed.
Lemma bent_lip gd M x y : 0 <= gd -> gd <= M -> 1 <= M -> Rabs (bent gd x - bent gd y) <= M * Rabs (x - y).
Proof.
  intros G A B.
  assert (W : forall x y, y <= x -> 0 <= bent gd x - bent gd y <= M * (x - y)).
  { intros a b AB. unfold bent, safe_plus, safe_minus, Rabs. destruct (Rcase_abs a), (Rcase_abs b).
    - split; [lra|]. assert (0 <= (M - 1) * (a - b)) by (apply Rmult_le_pos; lra). lra.
    - lra.
    - assert (0 <= gd * a) by (apply Rmult_le_pos; lra). split; [lra|]. assert (0 <= (M - gd) * a) by (apply Rmult_le_pos; lra). assert (0 <= (M - 1) * - b) by (apply Rmult_le_pos; lra). lra.
    - assert (0 <= gd * (a - b)) by (apply Rmult_le_pos; lra). assert (0 <= (M - gd) * (a - b)) by (apply Rmult_le_pos; lra). lra. }
  destruct (Rle_dec y x) as [L|L].
  - destruct (W x y L). rewrite !Rabs_pos_eq by lra. assumption.
  - destruct (W y x ltac:(lra)). rewrite (Rabs_minus_sym x y), (Rabs_minus_sym (bent gd x)). rewrite !Rabs_pos_eq by lra. assumption.
Qed.

Lemma trace_strain d G : trace d (strain G) = trace d G.
Proof. unfold trace. apply Rsum_ext. intros i Hi. unfold strain. change (car Rops) with R. req. field. Qed.
Lemma strain_twice G : strain (strain G) = strain G.
Proof. apply functional_extensionality. intros i. apply functional_extensionality. intros j. unfold strain. change (car Rops) with R. req. field. Qed.
Lemma strain_sym d G : symmetric d (strain G).
Proof. intros i j _ _. unfold strain. change (car Rops) with R. req. ring. Qed.

Section Split.
  Variables (s : solid) (d : nat) (eigh : tensor -> (nat -> R) * tensor) (EO : eigh_ok d eigh).
  Local Notation W x := (fst (eigh x)).
  Lemma eigen_sum_sq x : sum d (fun b => W x b * W x b) = ddot d (strain x) (strain x).
  Proof.
    rewrite <- (ddot_same d x _ _ (fun b => W x b) (fun b => W x b) (EO x)).
    apply ddot_cong; exact (id_value d eigh EO x).
  Qed.
  Lemma eigen_trace x : sum d (fun b => W x b) = trace d x.
  Proof.
    rewrite <- (F_trace d eigh EO (fun s => s) x). rewrite <- (trace_strain d x). unfold trace. apply Rsum_ext. intros i Hi. exact (id_value d eigh EO x i i Hi Hi).
  Qed.
  Lemma split_sum G : psi_plus s eigh d (strain G) + psi_minus s eigh d (strain G) = strain_energy_density (f_lmbda s) (f_mu s) d G.
  Proof.
    unfold psi_plus, psi_minus, strain_energy_density.
    pose proof (squares_sum (trace d (strain G))) as T.
    assert (E : sum d (fun b => safe_plus (W (strain G) b) * safe_plus (W (strain G) b)) + sum d (fun b => safe_minus (W (strain G) b) * safe_minus (W (strain G) b)) = ddot d (strain G) (strain G)).
    { assert (Q : ddot d (strain G) (strain G) = sum d (fun b => W (strain G) b * W (strain G) b)) by (rewrite eigen_sum_sq, strain_twice; reflexivity).
      rewrite Q, <- Rsum_plus. apply Rsum_ext. intros b Hb. rewrite <- (squares_sum (W (strain G) b)). reflexivity. }
    unfold ddot in E. change (car Rops) with R in *.
    set (a := sum d (fun b => safe_plus _ * safe_plus _)) in *. set (b := sum d (fun b => safe_minus _ * safe_minus _)) in *.
    set (tp := safe_plus (trace d (strain G))) in *. set (tm := safe_minus (trace d (strain G))) in *.
    transitivity (/ 2 * f_lmbda s * (tp * tp + tm * tm) + f_mu s * (a + b)); [change (car Rops) with R in *; field|]. rewrite T, E. reflexivity.
  Qed.
  Lemma psi_plus_nn x : 0 <= f_lmbda s -> 0 <= f_mu s -> 0 <= psi_plus s eigh d x.
  Proof.
    intros L M. unfold psi_plus. apply Rplus_le_le_0_compat; apply Rmult_le_pos; try lra; [apply Rle_0_sqr|]. apply Rsum_nonneg. intros b Hb. apply Rle_0_sqr.
  Qed.
  Lemma psi_minus_nn x : 0 <= f_lmbda s -> 0 <= f_mu s -> 0 <= psi_minus s eigh d x.
  Proof.
    intros L M. unfold psi_minus. apply Rplus_le_le_0_compat; apply Rmult_le_pos; try lra; [apply Rle_0_sqr|]. apply Rsum_nonneg. intros b Hb. apply Rle_0_sqr.
  Qed.
  (** a quadratic form at an eigenvector *)
  Lemma form_at x b : (b < d)%nat -> sum d (fun i => sum d (fun j => snd (eigh x) i b * strain x i j * snd (eigh x) j b)) = W x b.
  Proof.
    intros Hb. pose proof (EO x) as DX. pose proof DX as ((O1 & O2) & _).
    transitivity (ddot d (strain x) (spec d (snd (eigh x)) (fun a => if (b =? a)%nat then 1 else 0))).
    - unfold ddot. apply Rsum_ext. intros i Hi. apply Rsum_ext. intros j Hj. unfold spec.
      rewrite (Rsum_ext d _ (fun a => (if (b =? a)%nat then 1 else 0) * (snd (eigh x) i a * snd (eigh x) j a))).
      2:{ intros a Ha. unfold proj. rr. }
      rewrite (Rsum_delta d b (fun a => snd (eigh x) i a * snd (eigh x) j a) Hb). rr.
    - rewrite <- (ddot_cong d (eigen_f eigh d (fun t => t) x) (strain x) _ _ (id_value d eigh EO x) (fun _ _ _ _ => eq_refl)).
      etransitivity; [exact (ddot_same d x _ _ (fun a => W x a) _ DX)|].
      rewrite (Rsum_ext d _ (fun a => (if (b =? a)%nat then 1 else 0) * W x a)) by (intros; rr). exact (Rsum_delta d b (fun a => W x a) Hb).
  Qed.
  Lemma tensile_eigen x b : tensile d (strain x) -> (b < d)%nat -> 0 <= W x b.
  Proof. intros T Hb. rewrite <- (form_at x b Hb). exact (T (fun i => snd (eigh x) i b)). Qed.
  Lemma compressive_eigen x b : compressive d (strain x) -> (b < d)%nat -> W x b <= 0.
  Proof. intros T Hb. rewrite <- (form_at x b Hb). exact (T (fun i => snd (eigh x) i b)). Qed.
  Lemma plus_of_np x : x <= 0 -> safe_plus x = 0.
  Proof. intros H. unfold safe_plus. rewrite Rabs_left1; lra. Qed.
  Lemma minus_of_nn x : 0 <= x -> safe_minus x = 0.
  Proof. intros H. unfold safe_minus. rewrite Rabs_pos_eq; lra. Qed.
  Lemma Rsum_np n (a : nat -> R) : (forall i, (i < n)%nat -> a i <= 0) -> sum n a <= 0.
  Proof. intros H. rewrite <- (Rsum_zero n (fun _ => 0)) by auto. now apply Rsum_le. Qed.
  (** the stress with a damage *)
  Lemma opt2_unfold G dd i j : stress_fn_opt2 s eigh d G dd i j =
    f_lmbda s * bent (g dd) (trace d (strain G)) * (if (i =? j)%nat then 1 else 0) + eigen_f eigh d (fun x => 2 * f_mu s * bent (g dd) x) (strain G) i j.
  Proof. reflexivity. Qed.
  Lemma opt2_sym G dd : symmetric d (stress_fn_opt2 s eigh d G dd).
  Proof. intros i j Hi Hj. rewrite !opt2_unfold, (F_sym d eigh _ (strain G) i j Hi Hj), (Nat.eqb_sym i j). reflexivity. Qed.
  Lemma ddot_eye c x : ddot d (fun i j => c * (if (i =? j)%nat then 1 else 0)) x = c * trace d x.
  Proof.
    unfold ddot, trace. rewrite <- Rsum_mul. apply Rsum_ext. intros i Hi. rewrite (Rsum_ext d _ (fun j => (if (i =? j)%nat then 1 else 0) * (c * x i j))).
    - exact (Rsum_delta d i (fun j => c * x i j) Hi).
    - intros j Hj. rr.
  Qed.
  Lemma opt2_ddot G dd X : ddot d (stress_fn_opt2 s eigh d G dd) X =
    f_lmbda s * bent (g dd) (trace d (strain G)) * trace d X + ddot d (eigen_f eigh d (fun x => 2 * f_mu s * bent (g dd) x) (strain G)) X.
  Proof.
    rewrite <- (ddot_eye (f_lmbda s * bent (g dd) (trace d (strain G))) X). rewrite <- ddot_plus. reflexivity.
  Qed.
  (** the stress is the gradient of the energy *)
  Lemma line_strain G H t : strain (fun k j => G k j + t * H k j) = line (strain G) (strain H) t.
  Proof. apply functional_extensionality. intros i. apply functional_extensionality. intros j. unfold strain, line. change (car Rops) with R. req. ring. Qed.
  Lemma trace_line x v t : trace d (line x v t) = trace d x + t * trace d v.
  Proof. unfold trace, line. rewrite <- Rsum_mul, <- Rsum_plus. reflexivity. Qed.
  Lemma part_gradient (c1 c2 : R) (sq dsq : R -> R) (Dq : forall x, derivable_pt_lim sq x (dsq x)) x v :
    derivable_pt_lim (fun t => c1 * sq (trace d (line x v t)) + c2 * sum d (fun b => sq (W (line x v t) b))) 0
      (c1 * dsq (trace d x) * trace d v + ddot d (eigen_f eigh d (fun y => c2 * dsq y) x) v).
  Proof.
    apply (derivable_pt_lim_plus (fun t => c1 * sq (trace d (line x v t))) (fun t => c2 * sum d (fun b => sq (W (line x v t) b)))).
    - rewrite Rmult_assoc. apply (derivable_pt_lim_scal (fun t => sq (trace d (line x v t)))).
      apply (dlim_ext (fun t => sq (trace d x + t * trace d v))); [intros t; now rewrite trace_line|].
      assert (L : derivable_pt_lim (fun t => trace d x + t * trace d v) 0 (trace d v)).
      { apply quad_bound. intros h. replace (trace d x + (0 + h) * trace d v - (trace d x + 0 * trace d v) - trace d v * h) with 0 by ring. rewrite Rabs_R0. apply Rle_0_sqr. }
      replace (dsq (trace d x)) with (dsq (trace d x + 0 * trace d v)) by (f_equal; ring).
      exact (derivable_pt_lim_comp (fun t => trace d x + t * trace d v) sq 0 _ _ L (Dq _)).
    - rewrite (ddot_cong d _ (fun i j => c2 * eigen_f eigh d dsq x i j) v v); [|intros i j _ _; exact (F_scale d eigh c2 dsq x i j)|intros i j _ _; reflexivity].
      rewrite ddot_scale. apply (derivable_pt_lim_scal (fun t => sum d (fun b => sq (W (line x v t) b)))).
      exact (potential d eigh EO sq dsq x v (fun b _ => Dq _)).
  Qed.
  Lemma psi_plus_gradient x v : derivable_pt_lim (fun t => psi_plus s eigh d (line x v t)) 0
    (f_lmbda s * safe_plus (trace d x) * trace d v + ddot d (eigen_f eigh d (fun y => f_mu s * (2 * safe_plus y)) x) v).
  Proof.
    replace (f_lmbda s * safe_plus (trace d x) * trace d v) with (f_lmbda s / 2 * (2 * safe_plus (trace d x)) * trace d v) by field.
    exact (part_gradient (f_lmbda s / 2) (f_mu s) (fun y => safe_plus y * safe_plus y) (fun y => 2 * safe_plus y) d_plus x v).
  Qed.
  Lemma psi_minus_gradient x v : derivable_pt_lim (fun t => psi_minus s eigh d (line x v t)) 0
    (f_lmbda s * safe_minus (trace d x) * trace d v + ddot d (eigen_f eigh d (fun y => f_mu s * (2 * safe_minus y)) x) v).
  Proof.
    replace (f_lmbda s * safe_minus (trace d x) * trace d v) with (f_lmbda s / 2 * (2 * safe_minus (trace d x)) * trace d v) by field.
    exact (part_gradient (f_lmbda s / 2) (f_mu s) (fun y => safe_minus y * safe_minus y) (fun y => 2 * safe_minus y) d_minus x v).
  Qed.
  (** the derivatives add up to the stress at any x with strain x symmetric *)
  Lemma parts_stress dd x v : g dd * (f_lmbda s * safe_plus (trace d x) * trace d v + ddot d (eigen_f eigh d (fun y => f_mu s * (2 * safe_plus y)) x) v) +
      (f_lmbda s * safe_minus (trace d x) * trace d v + ddot d (eigen_f eigh d (fun y => f_mu s * (2 * safe_minus y)) x) v) =
    f_lmbda s * bent (g dd) (trace d x) * trace d v + ddot d (eigen_f eigh d (fun y => 2 * f_mu s * bent (g dd) y) x) v.
  Proof.
    rewrite (ddot_cong d (eigen_f eigh d (fun y => 2 * f_mu s * bent (g dd) y) x)
       (fun i j => g dd * eigen_f eigh d (fun y => f_mu s * (2 * safe_plus y)) x i j + eigen_f eigh d (fun y => f_mu s * (2 * safe_minus y)) x i j) v v).
    - rewrite ddot_plus, ddot_scale. unfold bent. change (car Rops) with R. ring.
    - intros i j _ _. rewrite <- (F_scale d eigh (g dd) (fun y => f_mu s * (2 * safe_plus y)) x i j), <- (F_plus d eigh).
      unfold eigen_f. apply Rsum_ext. intros b Hb. f_equal. unfold bent. ring.
    - intros i j _ _. reflexivity.
  Qed.
  Lemma stress_gradient G dd : gradient2 d d (fun G => damaged_energy s eigh d dd (strain G)) G (stress_fn_opt2 s eigh d G dd).
  Proof.
    intros H. unfold damaged_energy.
    apply (dlim_ext (fun t => g dd * psi_plus s eigh d (line (strain G) (strain H) t) + psi_minus s eigh d (line (strain G) (strain H) t))); [intros t; now rewrite (line_strain G H t)|].
    change (dot2 (K := Rops) d d (stress_fn_opt2 s eigh d G dd) H) with (ddot d (stress_fn_opt2 s eigh d G dd) H).
    rewrite <- (ddot_strain d _ H (opt2_sym G dd)), opt2_ddot, <- parts_stress.
    apply (derivable_pt_lim_plus (fun t => g dd * psi_plus s eigh d (line (strain G) (strain H) t)) (fun t => psi_minus s eigh d (line (strain G) (strain H) t))).
    - apply (derivable_pt_lim_scal (fun t => psi_plus s eigh d (line (strain G) (strain H) t))). apply psi_plus_gradient.
    - apply psi_minus_gradient.
  Qed.
End Split.
