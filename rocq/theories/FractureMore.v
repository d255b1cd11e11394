(** More on the split stress, for C86. *)
From Coq Require Import Reals List Arith Lia Lra Bool FunctionalExtensionality.
From Verif Require Import Num Arr Fe Problem ProblemFacts SpecAssembly SpecWeak SpecEnergy EnergyFacts DerivFacts Elastic ElasticFacts LinAlg Plasticity SpecPlasticity PlasticityFacts Eigen SpecEigen EigenFacts EigenMain EigenMore
  SpecLinear SpecPosed SpecMonotone MonoUse XNum Fracture SpecFracture FractureFacts.
Import ListNotations.
Local Open Scope R_scope.
Local Notation sum n g := (sum_n (K := Rops) n g).
Local Ltac rr := cbv beta; cbn [add mul zero Rops]; req; try change (car Rops) with R; ring.

(** gradients are determined *)
Lemma gradient_unique d psi x A B : gradient2 d d psi x A -> gradient2 d d psi x B -> same_on d A B.
Proof.
  intros HA HB i j Hi Hj. set (H := fun a b => (if (i =? a)%nat then 1 else 0) * (if (j =? b)%nat then 1 else 0)).
  assert (V : forall S, dot2 (K := Rops) d d S H = S i j).
  { intros S. unfold dot2, H. transitivity (sum d (fun a => (if (i =? a)%nat then 1 else 0) * S a j)); [|exact (Rsum_delta d i (fun a => S a j) Hi)].
    apply Rsum_ext. intros a Ha. transitivity ((if (i =? a)%nat then 1 else 0) * sum d (fun b => (if (j =? b)%nat then 1 else 0) * S a b)).
    - rewrite <- Rsum_mul. apply Rsum_ext. intros b Hb. rr.
    - f_equal. exact (Rsum_delta d j (fun b => S a b) Hj). }
  pose proof (uniqueness_limite _ _ _ _ (HA H) (HB H)) as U. now rewrite !V in U.
Qed.
Lemma strain_of_sym x : (forall i j, x i j = x j i) -> strain x = x.
Proof. intros S. apply functional_extensionality. intros i. apply functional_extensionality. intros j. unfold strain. rewrite (S j i). change (car Rops) with R. req. field. Qed.
Lemma trace_sq d x : trace d x * trace d x <= INR d * ddot d x x.
Proof.
  pose proof (ddot_eye d 1 x) as T. rewrite Rmult_1_l in T.
  pose proof (dot2_schwarz d d (fun i j => 1 * (if (i =? j)%nat then 1 else 0)) x) as S.
  change (dot2 (K := Rops) d d (fun i j => 1 * (if (i =? j)%nat then 1 else 0)) x) with (ddot d (fun i j => 1 * (if (i =? j)%nat then 1 else 0)) x) in S.
  change (dot2 (K := Rops) d d (fun i j => 1 * (if (i =? j)%nat then 1 else 0)) (fun i j => 1 * (if (i =? j)%nat then 1 else 0))) with
    (ddot d (fun i j => 1 * (if (i =? j)%nat then 1 else 0)) (fun i j => 1 * (if (i =? j)%nat then 1 else 0))) in S.
  rewrite T, (ddot_eye d 1) in S. replace (1 * trace d (fun i j => 1 * (if (i =? j)%nat then 1 else 0))) with (INR d) in S; [exact S|].
  unfold trace. rewrite (Rsum_ext d _ (fun _ => 1)) by (intros i Hi; rewrite Nat.eqb_refl; ring). rewrite Rsum_const. ring.
Qed.

Section Split.
  Variables (s : solid) (d : nat) (eigh : tensor -> (nat -> R) * tensor) (EO : eigh_ok d eigh).
  Local Notation W x := (fst (eigh x)).
  Local Notation opt2 := (stress_fn_opt2 s eigh d).
  Local Notation opt1 := (stress_fn_opt1 s eigh d).
  (** only the entries matter *)
  Lemma dec_same x y w Q : same_on d x y -> decomposes d x w Q -> decomposes d y w Q.
  Proof. intros S (O & D). split; [exact O|]. intros i j Hi Hj. rewrite (D i j Hi Hj). unfold strain. now rewrite (S i j Hi Hj), (S j i Hj Hi). Qed.
  Lemma F_same f x y : same_on d x y -> same_on d (eigen_f eigh d f x) (eigen_f eigh d f y).
  Proof. intros S i j Hi Hj. exact (same_value d y _ _ _ _ f (dec_same x y _ _ S (EO x)) (EO y) i j Hi Hj). Qed.
  Lemma F_any eigh' f x : eigh_ok d eigh' -> same_on d (eigen_f eigh d f x) (eigen_f eigh' d f x).
  Proof. intros EO' i j Hi Hj. exact (same_value d x _ _ _ _ f (EO x) (EO' x) i j Hi Hj). Qed.
  Lemma trace_same x y : same_on d x y -> trace d x = trace d y.
  Proof. intros S. unfold trace. apply Rsum_ext. intros i Hi. now apply S. Qed.
  Lemma strain_same x y : same_on d x y -> same_on d (strain x) (strain y).
  Proof. intros S i j Hi Hj. unfold strain. now rewrite (S i j Hi Hj), (S j i Hj Hi). Qed.
  Lemma opt2_same dd G H : same_on d G H -> same_on d (opt2 G dd) (opt2 H dd).
  Proof.
    intros S i j Hi Hj. rewrite !opt2_unfold. rewrite (F_same _ _ _ (strain_same G H S) i j Hi Hj). now rewrite (trace_same _ _ (strain_same G H S)).
  Qed.
  Lemma psi_plus_same x y : same_on d x y -> psi_plus s eigh d x = psi_plus s eigh d y.
  Proof.
    intros S. unfold psi_plus. rewrite (trace_same x y S). f_equal. f_equal.
    transitivity (trace d (eigen_f eigh d (fun t => safe_plus t * safe_plus t) x)); [symmetry; apply F_trace; exact EO|].
    rewrite (trace_same _ _ (F_same _ x y S)). apply (F_trace d eigh EO).
  Qed.
  Lemma psi_minus_same x y : same_on d x y -> psi_minus s eigh d x = psi_minus s eigh d y.
  Proof.
    intros S. unfold psi_minus. rewrite (trace_same x y S). f_equal. f_equal.
    transitivity (trace d (eigen_f eigh d (fun t => safe_minus t * safe_minus t) x)); [symmetry; apply F_trace; exact EO|].
    rewrite (trace_same _ _ (F_same _ x y S)). apply (F_trace d eigh EO).
  Qed.
  (** any eigenvalue routine *)
  Lemma any_eigh eigh' G dd : eigh_ok d eigh' ->
    psi_plus s eigh d G = psi_plus s eigh' d G /\ psi_minus s eigh d G = psi_minus s eigh' d G /\ same_on d (opt2 G dd) (stress_fn_opt2 s eigh' d G dd).
  Proof.
    intros EO'. split; [|split].
    - unfold psi_plus. f_equal. f_equal. transitivity (trace d (eigen_f eigh d (fun t => safe_plus t * safe_plus t) G)); [symmetry; apply F_trace; exact EO|].
      rewrite (trace_same _ _ (F_any eigh' _ G EO')). apply (F_trace d eigh' EO').
    - unfold psi_minus. f_equal. f_equal. transitivity (trace d (eigen_f eigh d (fun t => safe_minus t * safe_minus t) G)); [symmetry; apply F_trace; exact EO|].
      rewrite (trace_same _ _ (F_any eigh' _ G EO')). apply (F_trace d eigh' EO').
    - intros i j Hi Hj. rewrite !opt2_unfold. now rewrite (F_any eigh' _ (strain G) EO' i j Hi Hj).
  Qed.
  (** no damage *)
  Lemma undamaged V G iv : same_on d (opt2 G 0) (elastic_stress (V := V) (f_lmbda s) (f_mu s) d G iv).
  Proof.
    intros i j Hi Hj. rewrite opt2_unfold. unfold elastic_stress.
    assert (B : forall x, bent (g 0) x = x) by (intros x; unfold bent, g; rewrite <- (plus_minus x) at 3; ring).
    rewrite B. f_equal. transitivity (2 * f_mu s * eigen_f eigh d (fun x => x) (strain G) i j).
    - rewrite <- (F_scale d eigh). unfold eigen_f. apply Rsum_ext. intros b Hb. now rewrite B.
    - rewrite (id_value d eigh EO (strain G) i j Hi Hj), strain_twice. reflexivity.
  Qed.
  (** the work of the stress *)
  Lemma stress_work G dd : ddot d (opt2 G dd) (strain G) = 2 * damaged_energy s eigh d dd (strain G).
  Proof.
    rewrite opt2_ddot, (ddot_cong d _ _ (strain G) (eigen_f eigh d (fun t => t) (strain G)) (fun _ _ _ _ => eq_refl)).
    2:{ intros i j Hi Hj. rewrite (id_value d eigh EO (strain G) i j Hi Hj), strain_twice. reflexivity. }
    pose proof (ddot_same d (strain G) _ _ (fun b => 2 * f_mu s * bent (g dd) (W (strain G) b)) (fun b => W (strain G) b) (EO _)) as DS.
    change (ddot d (eigen_f eigh d (fun x => 2 * f_mu s * bent (g dd) x) (strain G)) (eigen_f eigh d (fun t => t) (strain G)) = sum d (fun a => 2 * f_mu s * bent (g dd) (W (strain G) a) * W (strain G) a)) in DS.
    rewrite DS. clear DS.
    unfold damaged_energy, psi_plus, psi_minus. change ((1 - dd) * (1 - dd)) with (g dd).
    rewrite (Rsum_ext d _ (fun b => 2 * f_mu s * (g dd * (safe_plus (W (strain G) b) * safe_plus (W (strain G) b)) + safe_minus (W (strain G) b) * safe_minus (W (strain G) b)))).
    2:{ intros b Hb. unfold bent. pose proof (plus_self (W (strain G) b)) as A. pose proof (minus_self (W (strain G) b)) as B. change (car Rops) with R in *. rewrite <- A, <- B. ring. }
    rewrite Rsum_mul, Rsum_plus, Rsum_mul. unfold bent. pose proof (plus_self (trace d (strain G))) as A. pose proof (minus_self (trace d (strain G))) as B.
    set (tp := safe_plus (trace d (strain G))) in *. set (tm := safe_minus (trace d (strain G))) in *.
    set (a := sum d (fun b => safe_plus _ * safe_plus _)). set (b := sum d (fun b => safe_minus _ * safe_minus _)). change (car Rops) with R in *.
    transitivity (f_lmbda s * (g dd * (tp * trace d (strain G)) + tm * trace d (strain G)) + 2 * f_mu s * (g dd * a + b)); [ring|]. rewrite A, B. field.
  Qed.
  Lemma compressive_psi G : compressive d (strain G) -> psi_plus s eigh d (strain G) = 0.
  Proof.
    intros C. assert (E : forall b, (b < d)%nat -> W (strain G) b <= 0) by (intros b Hb; apply (compressive_eigen d eigh EO); [rewrite strain_twice; exact C|exact Hb]).
    unfold psi_plus. rewrite (Rsum_zero d _) by (intros b Hb; rewrite (plus_of_np _ (E b Hb)); ring).
    rewrite plus_of_np; [ring|]. rewrite <- (eigen_trace d eigh EO). now apply Rsum_np.
  Qed.
  Lemma tensile_psi G : tensile d (strain G) -> psi_minus s eigh d (strain G) = 0.
  Proof.
    intros C. assert (E : forall b, (b < d)%nat -> 0 <= W (strain G) b) by (intros b Hb; apply (tensile_eigen d eigh EO); [rewrite strain_twice; exact C|exact Hb]).
    unfold psi_minus. rewrite (Rsum_zero d _) by (intros b Hb; rewrite (minus_of_nn _ (E b Hb)); ring).
    rewrite minus_of_nn; [ring|]. rewrite <- (eigen_trace d eigh EO). now apply Rsum_nonneg.
  Qed.
  Lemma compressive_stress G dd i j : compressive d (strain G) -> opt2 G dd i j = opt2 G 0 i j.
  Proof.
    intros C. assert (E : forall b, (b < d)%nat -> W (strain G) b <= 0) by (intros b Hb; apply (compressive_eigen d eigh EO); [rewrite strain_twice; exact C|exact Hb]).
    assert (B : forall dd x, x <= 0 -> bent (g dd) x = safe_minus x) by (intros e x Hx; unfold bent; rewrite (plus_of_np x Hx); ring).
    rewrite !opt2_unfold, !B by (rewrite <- (eigen_trace d eigh EO); now apply Rsum_np). f_equal.
    unfold eigen_f. apply Rsum_ext. intros b Hb. now rewrite !B by now apply E.
  Qed.
  Lemma tensile_stress G dd i j : tensile d (strain G) -> opt2 G dd i j = (1 - dd) * (1 - dd) * opt2 G 0 i j.
  Proof.
    intros C. assert (E : forall b, (b < d)%nat -> 0 <= W (strain G) b) by (intros b Hb; apply (tensile_eigen d eigh EO); [rewrite strain_twice; exact C|exact Hb]).
    assert (B : forall dd x, 0 <= x -> bent (g dd) x = g dd * safe_plus x) by (intros e x Hx; unfold bent; rewrite (minus_of_nn x Hx); ring).
    rewrite !opt2_unfold, !B by (rewrite <- (eigen_trace d eigh EO); now apply Rsum_nonneg). rewrite Rmult_plus_distr_l. f_equal.
    - unfold g. ring.
    - rewrite <- (F_scale d eigh). unfold eigen_f. apply Rsum_ext. intros b Hb. rewrite !B by now apply E. f_equal. unfold g. ring.
  Qed.
  (** isotropy *)
  Lemma trace_turned T x : orthonormal d T -> trace d (turned d T x) = trace d x.
  Proof.
    intros (O1 & O2). unfold trace. rewrite (Rsum_ext d _ (fun i => sum d (fun k => sum d (fun l => x k l * (T i k * T i l))))).
    2:{ intros i Hi. rewrite turned_in. apply Rsum_ext. intros k Hk. apply Rsum_ext. intros l Hl. rr. }
    rewrite Rsum_swap. apply Rsum_ext. intros k Hk. rewrite Rsum_swap.
    rewrite (Rsum_ext d _ (fun l => (if (k =? l)%nat then 1 else 0) * x k l)).
    - exact (Rsum_delta d k (fun l => x k l) Hk).
    - intros l Hl. rewrite Rsum_mul. rewrite Rmult_comm. f_equal. exact (O1 k l Hk Hl).
  Qed.
  Lemma turned_eye T i j : orthonormal d T -> (i < d)%nat -> (j < d)%nat -> turned d T (fun k l => if (k =? l)%nat then 1 else 0) i j = (if (i =? j)%nat then 1 else 0).
  Proof.
    intros (O1 & O2) Hi Hj. rewrite turned_in. transitivity (sum d (fun k => T i k * T j k)); [|exact (O2 i j Hi Hj)].
    apply Rsum_ext. intros k Hk. rewrite (Rsum_ext d _ (fun l => (if (k =? l)%nat then 1 else 0) * (T i k * T j l))) by (intros; rr). exact (Rsum_delta d k (fun l => T i k * T j l) Hk).
  Qed.
  Lemma turned_lin T c A B i j : turned d T (fun k l => c * A k l + B k l) i j = c * turned d T A i j + turned d T B i j.
  Proof.
    rewrite !turned_in, <- Rsum_mul, <- Rsum_plus. apply Rsum_ext. intros k Hk. rewrite <- Rsum_mul, <- Rsum_plus. apply Rsum_ext. intros l Hl. rr.
  Qed.
  Lemma strain_turned T G : same_on d (strain (turned d T G)) (turned d T (strain G)).
  Proof. intros i j Hi Hj. apply turned_strain. Qed.
  Lemma turned_stress T G dd : orthonormal d T -> same_on d (opt2 (turned d T G) dd) (turned d T (opt2 G dd)).
  Proof.
    intros HT i j Hi Hj. rewrite opt2_unfold. rewrite (F_same _ _ _ (strain_turned T G) i j Hi Hj), (isotropic d eigh _ T (strain G) i j EO HT Hi Hj).
    rewrite (trace_same _ _ (strain_turned T G)), (trace_turned T (strain G) HT).
    etransitivity; [|exact (eq_sym (turned_lin T (f_lmbda s * bent (g dd) (trace d (strain G))) (fun k l => if (k =? l)%nat then 1 else 0) (eigen_f eigh d (fun x => 2 * f_mu s * bent (g dd) x) (strain G)) i j))].
    pose proof (turned_eye T i j HT Hi Hj) as TE. apply f_equal2; [|reflexivity]. apply f_equal2; [reflexivity|]. exact (eq_sym TE).
  Qed.
  Lemma turned_psi T G : orthonormal d T -> psi_plus s eigh d (strain (turned d T G)) = psi_plus s eigh d (strain G) /\ psi_minus s eigh d (strain (turned d T G)) = psi_minus s eigh d (strain G).
  Proof.
    intros HT. rewrite (psi_plus_same _ _ (strain_turned T G)), (psi_minus_same _ _ (strain_turned T G)). unfold psi_plus, psi_minus.
    rewrite (trace_turned T (strain G) HT).
    assert (Q : forall f, sum d (fun b => f (W (turned d T (strain G)) b)) = sum d (fun b => f (W (strain G) b))).
    { intros f. rewrite <- !(F_trace d eigh EO f). rewrite <- (trace_turned T (eigen_f eigh d f (strain G)) HT). apply trace_same. intros i j Hi Hj. exact (isotropic d eigh f T (strain G) i j EO HT Hi Hj). }
    split; f_equal; f_equal; [exact (Q (fun t => safe_plus t * safe_plus t))|exact (Q (fun t => safe_minus t * safe_minus t))].
  Qed.
  (** growth *)
  Lemma stress_growth dd k M : 0 <= f_lmbda s -> 0 <= f_mu s -> k <= g dd -> k <= 1 -> g dd <= M -> 1 <= M ->
    stress_grows d (fun G => opt2 G dd) (2 * f_mu s * k) (sqrt (2 * (INR d * INR d * (f_lmbda s * f_lmbda s) + 4 * (f_mu s * f_mu s))) * M).
  Proof.
    intros L0 M0 K1 K2 G1 G2 A B D S.
    assert (G0 : 0 <= g dd) by (unfold g; apply Rle_0_sqr).
    assert (DE : same_on d D (fun i j => strain (strain A) i j - strain (strain B) i j)).
    { intros i j _ _. unfold D, sym2, minus2. rewrite !strain_twice. unfold strain. change (car Rops) with R. req. ring. }
    set (tA := trace d (strain A)). set (tB := trace d (strain B)).
    set (FS := fun i j => eigen_f eigh d (fun x => 2 * f_mu s * bent (g dd) x) (strain A) i j - eigen_f eigh d (fun x => 2 * f_mu s * bent (g dd) x) (strain B) i j).
    set (c := f_lmbda s * (bent (g dd) tA - bent (g dd) tB)).
    assert (SE : same_on d S (fun i j => c * (if (i =? j)%nat then 1 else 0) + FS i j)).
    { intros i j _ _. unfold S, minus2. rewrite !opt2_unfold. unfold c, FS, tA, tB. rr. }
    assert (TD : trace d D = tA - tB).
    { rewrite (trace_same _ _ DE). unfold trace, tA, tB, trace. rewrite !strain_twice. rewrite <- Rsum_minus. reflexivity. }
    split; [|split].
    - intros i j Hi Hj. unfold S, minus2. now rewrite (opt2_sym s d eigh A dd i j Hi Hj), (opt2_sym s d eigh B dd i j Hi Hj).
    - change (2 * f_mu s * k * ddot d D D <= ddot d S D). rewrite (ddot_cong d S _ D D SE (fun _ _ _ _ => eq_refl)), ddot_plus, ddot_eye, TD.
      assert (H1 : 0 <= c * (tA - tB)).
      { unfold c. rewrite Rmult_assoc. apply Rmult_le_pos; [exact L0|]. apply Rle_trans with (2 := bent_grows (g dd) 0 tA tB G0 ltac:(lra)). right. ring. }
      rewrite (ddot_cong d D _ D _ DE DE), (ddot_cong d FS FS D _ (fun _ _ _ _ => eq_refl) DE).
      assert (BG : forall u v, 2 * f_mu s * k * ((u - v) * (u - v)) <= (2 * f_mu s * bent (g dd) u - 2 * f_mu s * bent (g dd) v) * (u - v)).
      { intros u v. replace ((2 * f_mu s * bent (g dd) u - 2 * f_mu s * bent (g dd) v) * (u - v)) with (2 * f_mu s * ((bent (g dd) u - bent (g dd) v) * (u - v))) by ring.
        rewrite (Rmult_assoc (2 * f_mu s) k). apply Rmult_le_compat_l; [lra|]. exact (bent_grows (g dd) k u v K1 K2). }
      pose proof (growth d eigh EO (fun x => 2 * f_mu s * bent (g dd) x) (2 * f_mu s * k) (strain A) (strain B) BG) as H2.
      apply Rle_trans with (1 := H2). rewrite <- Rplus_0_l at 1. apply Rplus_le_compat; [exact H1|right; reflexivity].
    - change (ddot d S S <= sqrt (2 * (INR d * INR d * (f_lmbda s * f_lmbda s) + 4 * (f_mu s * f_mu s))) * M * (sqrt (2 * (INR d * INR d * (f_lmbda s * f_lmbda s) + 4 * (f_mu s * f_mu s))) * M) * ddot d D D).
      replace (sqrt (2 * (INR d * INR d * (f_lmbda s * f_lmbda s) + 4 * (f_mu s * f_mu s))) * M * (sqrt (2 * (INR d * INR d * (f_lmbda s * f_lmbda s) + 4 * (f_mu s * f_mu s))) * M))
        with (2 * (INR d * INR d * (f_lmbda s * f_lmbda s) + 4 * (f_mu s * f_mu s)) * (M * M)).
      2:{ set (r := sqrt _). replace (r * M * (r * M)) with (r * r * (M * M)) by ring. unfold r. rewrite sqrt_sqrt; [reflexivity|].
          assert (0 <= INR d * INR d) by apply Rle_0_sqr. assert (0 <= f_lmbda s * f_lmbda s) by apply Rle_0_sqr. assert (0 <= f_mu s * f_mu s) by apply Rle_0_sqr.
          assert (0 <= INR d * INR d * (f_lmbda s * f_lmbda s)) by now apply Rmult_le_pos. lra. }
      set (E := fun i j : nat => c * (if (i =? j)%nat then 1 else 0)).
      assert (SS : ddot d S S <= 2 * (ddot d E E + ddot d FS FS)).
      { rewrite (ddot_cong d S _ S _ SE SE). pose proof (ddot_nn d (fun i j => E i j - FS i j)) as N.
        rewrite ddot_minus, (ddot_comm d E), (ddot_comm d FS (fun i j => E i j - FS i j)), !ddot_minus in N.
        change (fun i j => c * (if (i =? j)%nat then 1 else 0) + FS i j) with (fun i j => E i j + FS i j).
        rewrite ddot_plus, (ddot_comm d E (fun i j => E i j + FS i j)), (ddot_comm d FS (fun i j => E i j + FS i j)), !ddot_plus. pose proof (ddot_comm d E FS) as C. lra. }
      assert (EE : ddot d E E <= INR d * INR d * (f_lmbda s * f_lmbda s) * (M * M) * ddot d D D).
      { unfold E at 1. rewrite ddot_eye. assert (TE : trace d E = c * INR d).
        { unfold trace, E. rewrite (Rsum_ext d _ (fun _ => c)) by (intros i Hi; rewrite Nat.eqb_refl; rr). rewrite Rsum_const. rr. }
        rewrite TE. pose proof (trace_sq d D) as TQ. rewrite TD in TQ.
        assert (CB : c * c <= f_lmbda s * f_lmbda s * (M * M) * ((tA - tB) * (tA - tB))).
        { unfold c. pose proof (bent_lip (g dd) M tA tB G0 G1 G2) as BL. set (a := bent (g dd) tA - bent (g dd) tB) in *.
          assert (Q : a * a <= M * M * ((tA - tB) * (tA - tB))).
          { rewrite <- (Rabs_pos_eq (a * a)) by apply Rle_0_sqr. rewrite Rabs_mult. rewrite <- (Rabs_pos_eq ((tA - tB) * (tA - tB))) by apply Rle_0_sqr. rewrite Rabs_mult.
            replace (M * M * (Rabs (tA - tB) * Rabs (tA - tB))) with (M * Rabs (tA - tB) * (M * Rabs (tA - tB))) by ring. apply Rmult_le_compat; auto using Rabs_pos. }
          replace (f_lmbda s * a * (f_lmbda s * a)) with (f_lmbda s * f_lmbda s * (a * a)) by ring. rewrite !Rmult_assoc. rewrite <- (Rmult_assoc (f_lmbda s)), <- (Rmult_assoc (f_lmbda s) (f_lmbda s)).
          rewrite <- (Rmult_assoc M M). apply Rmult_le_compat_l; [apply Rle_0_sqr|exact Q]. }
        assert (0 <= INR d) by apply pos_INR.
        replace (c * (c * INR d)) with (INR d * (c * c)) by ring.
        apply Rle_trans with (INR d * (f_lmbda s * f_lmbda s * (M * M) * ((tA - tB) * (tA - tB)))); [apply Rmult_le_compat_l; assumption|].
        replace (INR d * INR d * (f_lmbda s * f_lmbda s) * (M * M) * ddot d D D) with (INR d * (f_lmbda s * f_lmbda s * (M * M) * (INR d * ddot d D D))) by (change (car Rops) with R; ring).
        apply Rmult_le_compat_l; [assumption|]. apply Rmult_le_compat_l; [apply Rmult_le_pos; apply Rle_0_sqr|exact TQ]. }
      assert (FF : ddot d FS FS <= 4 * (f_mu s * f_mu s) * (M * M) * ddot d D D).
      { rewrite (ddot_cong d D _ D _ DE DE).
        assert (BL : forall u v, Rabs (2 * f_mu s * bent (g dd) u - 2 * f_mu s * bent (g dd) v) <= 2 * f_mu s * M * Rabs (u - v)).
        { intros u v. replace (2 * f_mu s * bent (g dd) u - 2 * f_mu s * bent (g dd) v) with (2 * f_mu s * (bent (g dd) u - bent (g dd) v)) by ring.
          rewrite Rabs_mult, (Rabs_pos_eq (2 * f_mu s)) by lra. rewrite (Rmult_assoc (2 * f_mu s) M). apply Rmult_le_compat_l; [lra|]. exact (bent_lip (g dd) M u v G0 G1 G2). }
        apply Rle_trans with (1 := lipschitz d eigh EO (fun x => 2 * f_mu s * bent (g dd) x) (2 * f_mu s * M) (strain A) (strain B) BL).
        right. ring. }
      change (car Rops) with R in *. lra.
  Qed.
  (** the first stress function *)
  Variable grad : (tensor -> R) -> tensor -> tensor.
  Hypothesis GO : grad_ok d eigh grad.
  Definition shifted (noise u_grad : tensor) : tensor := fun i j => strain u_grad i j + diagonal noise i j.
  Lemma shifted_sym noise G : strain (shifted noise G) = shifted noise G.
  Proof.
    apply strain_of_sym. intros i j. unfold shifted, diagonal. rewrite (Nat.eqb_sym j i). destruct (Nat.eqb_spec i j) as [->|N]; [reflexivity|].
    unfold strain. change (car Rops) with R. req. ring.
  Qed.
  Lemma opt1_is noise G dd : distinct d eigh (shifted noise G) -> same_on d (opt1 grad noise G dd) (opt2 (shifted noise G) dd).
  Proof.
    intros DI i j Hi Hj. unfold stress_fn_opt1. set (e := shifted noise G) in *.
    set (SP := fun i j => f_lmbda s * safe_plus (trace d e) * (if (i =? j)%nat then 1 else 0) + eigen_f eigh d (fun y => f_mu s * (2 * safe_plus y)) e i j).
    set (SM := fun i j => f_lmbda s * safe_minus (trace d e) * (if (i =? j)%nat then 1 else 0) + eigen_f eigh d (fun y => f_mu s * (2 * safe_minus y)) e i j).
    assert (HP : gradient2 d d (psi_plus s eigh d) e SP).
    { intros H. change (dot2 (K := Rops) d d SP H) with (ddot d SP H). unfold SP. rewrite ddot_plus, ddot_eye. exact (psi_plus_gradient s d eigh EO e H). }
    assert (HM : gradient2 d d (psi_minus s eigh d) e SM).
    { intros H. change (dot2 (K := Rops) d d SM H) with (ddot d SM H). unfold SM. rewrite ddot_plus, ddot_eye. exact (psi_minus_gradient s d eigh EO e H). }
    pose proof (gradient_unique d _ e _ _ (GO _ e SP DI HP) HP i j Hi Hj) as EP.
    pose proof (gradient_unique d _ e _ _ (GO _ e SM DI HM) HM i j Hi Hj) as EM.
    change (g dd * grad (psi_plus s eigh d) e i j + grad (psi_minus s eigh d) e i j = opt2 e dd i j).
    transitivity (g dd * SP i j + SM i j); [change (car Rops) with R in *; now rewrite EP, EM|]. rewrite opt2_unfold. assert (SE : strain e = e) by exact (shifted_sym noise G). rewrite SE. unfold SP, SM.
    replace (eigen_f eigh d (fun x => 2 * f_mu s * bent (g dd) x) e i j) with (g dd * eigen_f eigh d (fun y => f_mu s * (2 * safe_plus y)) e i j + eigen_f eigh d (fun y => f_mu s * (2 * safe_minus y)) e i j).
    - unfold bent. ring.
    - rewrite <- (F_scale d eigh (g dd)), <- (F_plus d eigh). unfold eigen_f. apply Rsum_ext. intros b Hb. f_equal. unfold bent. ring.
  Qed.
  Lemma opt1_close noise G dd M : 0 <= f_lmbda s -> 0 <= f_mu s -> g dd <= M -> 1 <= M -> distinct d eigh (shifted noise G) ->
    ddot d (minus (opt1 grad noise G dd) (opt2 G dd)) (minus (opt1 grad noise G dd) (opt2 G dd)) <=
    2 * (INR d * INR d * (f_lmbda s * f_lmbda s) + 4 * (f_mu s * f_mu s)) * (M * M) * sum d (fun i => noise i i * noise i i).
  Proof.
    intros L0 M0 G1 G2 DI.
    assert (G0 : 0 <= g dd) by (unfold g; apply Rle_0_sqr).
    destruct (stress_growth dd 0 M L0 M0 G0 ltac:(lra) G1 G2 (shifted noise G) G) as (_ & _ & H).
    assert (SE : same_on d (minus (opt1 grad noise G dd) (opt2 G dd)) (minus2 (opt2 (shifted noise G) dd) (opt2 G dd))).
    { intros i j Hi Hj. unfold minus, minus2. now rewrite (opt1_is noise G dd DI i j Hi Hj). }
    rewrite (ddot_cong d _ _ _ _ SE SE). apply Rle_trans with (1 := H). right.
    set (r := sqrt _). replace (r * M * (r * M)) with (r * r * (M * M)) by ring. unfold r. rewrite sqrt_sqrt.
    2:{ assert (0 <= INR d * INR d) by apply Rle_0_sqr. assert (0 <= f_lmbda s * f_lmbda s) by apply Rle_0_sqr. assert (0 <= f_mu s * f_mu s) by apply Rle_0_sqr.
          assert (0 <= INR d * INR d * (f_lmbda s * f_lmbda s)) by now apply Rmult_le_pos. lra. }
    f_equal. unfold dot2. apply Rsum_ext. intros i Hi.
    rewrite (Rsum_ext d _ (fun j => (if (i =? j)%nat then 1 else 0) * (noise i j * noise i j))); [exact (Rsum_delta d i (fun j => noise i j * noise i j) Hi)|].
    intros j Hj. assert (X : sym2 (minus2 (shifted noise G) G) i j = diagonal noise i j).
    { unfold sym2, minus2. replace (shifted noise G j i) with (shifted noise G i j).
      - unfold shifted, strain. change (car Rops) with R. req. field.
      - rewrite <- (shifted_sym noise G). unfold strain. change (car Rops) with R. req. field. }
    rewrite X. unfold diagonal. destruct (i =? j)%nat; rr.
  Qed.
End Split.
