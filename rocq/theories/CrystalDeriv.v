(** The derivative rule of the local solve, for C92. *)
From Coq Require Import Reals List Arith Lia Lra Bool FunctionalExtensionality.
From Coquelicot Require Derive.
From Verif Require Import Num Arr ArrFacts Fe FeFacts SpecFe Problem SpecAssembly SpecWeak SpecEnergy Elastic ElasticFacts Plasticity SpecPlasticity PlasticityFacts
  Lagrangian SpecLagrangian LagrangianFacts LagrangianMain FinPlast SpecFinPlast FinPlastFacts FinPlastMain CrystalPlast SpecCrystal CrystalFacts CrystalSolve.
Import ListNotations.
Local Open Scope R_scope.

(** ** |z|^10 sign z *)
Definition psi10 (z : R) : R := Rabs z * z ^ 9.
Lemma psi10_deriv z : derivable_pt_lim psi10 z (10 * Rabs z * z ^ 8).
Proof.
  destruct (Rtotal_order z 0) as [H|[H|H]].
  - replace (10 * Rabs z * z ^ 8) with ((-1) * z ^ 9 + Rabs z * (9 * z ^ 8)) by (rewrite Rabs_left by exact H; ring).
    apply (derivable_pt_lim_mult Rabs (fun z => z ^ 9)); [now apply Rabs_derive_2|]. replace (9 * z ^ 8) with (INR 9 * z ^ Init.Nat.pred 9) by (cbn [Nat.pred INR]; ring). apply derivable_pt_lim_pow.
  - subst z. rewrite Rabs_R0. replace (10 * 0 * 0 ^ 8) with 0 by ring. intros eps He.
    assert (D : 0 < Rmin 1 eps) by (apply Rmin_glb_lt; lra). exists (mkposreal _ D). intros h H0 Hh. cbn [pos] in Hh.
    unfold psi10. rewrite Rplus_0_l, Rabs_R0. replace ((Rabs h * h ^ 9 - 0 * 0 ^ 9) / h - 0) with (Rabs h * h ^ 8) by (field; exact H0).
    pose proof (Rmin_l 1 eps). pose proof (Rmin_r 1 eps). rewrite Rabs_mult, Rabs_Rabsolu, <- RPow_abs. set (a := Rabs h) in *. pose proof (Rabs_pos h) as A0. fold a in A0.
    assert (P : 0 <= a ^ 8 <= 1). { split; [now apply pow_le|]. rewrite <- (pow1 8). apply pow_incr. lra. }
    apply (Rle_lt_trans _ (a * 1)); [|lra]. apply Rmult_le_compat_l; lra.
  - replace (10 * Rabs z * z ^ 8) with (1 * z ^ 9 + Rabs z * (9 * z ^ 8)) by (rewrite Rabs_right by lra; ring).
    apply (derivable_pt_lim_mult Rabs (fun z => z ^ 9)); [now apply Rabs_derive_1|]. replace (9 * z ^ 8) with (INR 9 * z ^ Init.Nat.pred 9) by (cbn [Nat.pred INR]; ring). apply derivable_pt_lim_pow.
Qed.
Lemma slip_psi dt t g : slip_by dt t g = dt / 1000 * (psi10 t * (/ g) ^ 10).
Proof.
  unfold slip_by, psi10, Rdiv. destruct (Rle_dec 0 t) as [H|H].
  - rewrite Rabs_pos_eq by exact H. ring.
  - rewrite Rabs_left by lra. ring.
Qed.

(** ** functions of two vectors with a derivative along every curve, linear in its velocity *)
Section Dif.
  Variables (n m : nat) (x y : vect).
  Definition lin (a b v w : vect) : R := sum_n (K := Rops) n (fun k => a k * v k) + sum_n (K := Rops) m (fun k => b k * w k).
  Definition along (f : vect -> vect -> R) (a b : vect) : Prop := forall cx cy v w, cx 0 = x -> cy 0 = y ->
    (forall k, (k < n)%nat -> derivable_pt_lim (fun t => cx t k) 0 (v k)) -> (forall k, (k < m)%nat -> derivable_pt_lim (fun t => cy t k) 0 (w k)) ->
    derivable_pt_lim (fun t => f (cx t) (cy t)) 0 (lin a b v w).
  Definition dif (f : vect -> vect -> R) : Prop := exists a b, along f a b.
  Lemma lin_zero v w : lin (fun _ => 0) (fun _ => 0) v w = 0.
  Proof.
    unfold lin. assert (Z : forall k (u : vect), sum_n (K := Rops) k (fun j => 0 * u j) = 0).
    { intros k u. transitivity (sum_n (K := Rops) k (fun _ => 0)); [apply sum_n_ext; intros; req; ring|]. rewrite Rsum_const; req; ring. }
    rewrite !Z. ring.
  Qed.
  Lemma lin_comb c d a b a' b' v w : lin (fun k => c * a k + d * a' k) (fun k => c * b k + d * b' k) v w = c * lin a b v w + d * lin a' b' v w.
  Proof.
    unfold lin. assert (Z : forall k (p q u : vect), sum_n (K := Rops) k (fun j => (c * p j + d * q j) * u j) = c * sum_n (K := Rops) k (fun j => p j * u j) + d * sum_n (K := Rops) k (fun j => q j * u j)).
    { intros k p q u. rewrite <- !Rsum_mul, <- Rsum_plus. apply sum_n_ext. intros j _. req; ring. }
    rewrite !Z. ring.
  Qed.
  Lemma along_ext f a b a' b' : (forall v w, lin a b v w = lin a' b' v w) -> along f a b -> along f a' b'.
  Proof. intros E H cx cy v w C1 C2 D1 D2. rewrite <- E. now apply H. Qed.
  Lemma dif_const c : dif (fun _ _ => c).
  Proof. exists (fun _ => 0), (fun _ => 0). intros cx cy v w _ _ _ _. rewrite lin_zero. apply derivable_pt_lim_const. Qed.
  Definition basis (i : nat) : vect := fun k => if (k =? i)%nat then 1 else 0.
  Lemma sum_basis k i u : (i < k)%nat -> sum_n (K := Rops) k (fun j => basis i j * u j) = u i.
  Proof.
    intros H. transitivity (basis i i * u i); [|unfold basis; rewrite Nat.eqb_refl; req; ring].
    rewrite (sum_n_single Rops_ring k i (fun j => basis i j * u j) H); [reflexivity|]. intros j _ Hj. unfold basis. apply Nat.eqb_neq in Hj. rewrite Hj. cbn. ring.
  Qed.
  Lemma sum_zero k u : sum_n (K := Rops) k (fun j => 0 * u j) = 0.
  Proof. transitivity (sum_n (K := Rops) k (fun _ => 0)); [apply sum_n_ext; intros; req; ring|]. rewrite Rsum_const; req; ring. Qed.
  Lemma dif_x i : (i < n)%nat -> dif (fun x _ => x i).
  Proof.
    intros H. exists (basis i), (fun _ => 0). intros cx cy v w _ _ D _. unfold lin. rewrite (sum_basis n i v H), sum_zero, Rplus_0_r. now apply D.
  Qed.
  Lemma dif_y i : (i < m)%nat -> dif (fun _ y => y i).
  Proof.
    intros H. exists (fun _ => 0), (basis i). intros cx cy v w _ _ _ D. unfold lin. rewrite (sum_basis m i w H), sum_zero, Rplus_0_l. now apply D.
  Qed.
  Lemma dif_plus f g : dif f -> dif g -> dif (fun x y => f x y + g x y).
  Proof.
    intros (a & b & H) (a' & b' & H'). exists (fun k => 1 * a k + 1 * a' k), (fun k => 1 * b k + 1 * b' k). intros cx cy v w C1 C2 D1 D2. rewrite lin_comb, !Rmult_1_l.
    apply (derivable_pt_lim_plus (fun t => f (cx t) (cy t)) (fun t => g (cx t) (cy t))); [now apply H|now apply H'].
  Qed.
  Lemma dif_mult f g : dif f -> dif g -> dif (fun x y => f x y * g x y).
  Proof.
    intros (a & b & H) (a' & b' & H'). exists (fun k => g x y * a k + f x y * a' k), (fun k => g x y * b k + f x y * b' k). intros cx cy v w C1 C2 D1 D2. rewrite lin_comb.
    pose proof (derivable_pt_lim_mult (fun t => f (cx t) (cy t)) (fun t => g (cx t) (cy t)) 0 _ _ (H cx cy v w C1 C2 D1 D2) (H' cx cy v w C1 C2 D1 D2)) as P.
    cbv beta in P; rewrite C1, C2 in P. rewrite (Rmult_comm (g x y)). exact P.
  Qed.
  Lemma dif_comp phi l f : dif f -> derivable_pt_lim phi (f x y) l -> dif (fun x y => phi (f x y)).
  Proof.
    intros (a & b & H) D. exists (fun k => l * a k + 0 * a k), (fun k => l * b k + 0 * b k). intros cx cy v w C1 C2 D1 D2. rewrite lin_comb, Rmult_0_l, Rplus_0_r.
    apply (derivable_pt_lim_comp (fun t => f (cx t) (cy t)) phi); [now apply H|]. now rewrite C1, C2.
  Qed.
  Lemma dif_fun f g : (forall x y, f x y = g x y) -> dif g -> dif f.
  Proof.
    intros E (a & b & H). exists a, b. intros cx cy v w C1 C2 D1 D2. apply (dlim_ext _ (fun t => g (cx t) (cy t))); [intros; apply E|]. now apply H.
  Qed.
  Lemma dif_minus f g : dif f -> dif g -> dif (fun x y => f x y - g x y).
  Proof.
    intros H H'. apply (dif_fun _ (fun x y => f x y + (-1) * g x y)); [intros; ring|]. apply dif_plus; [exact H|]. apply dif_mult; [apply dif_const|exact H'].
  Qed.
  Lemma dif_sum k (f : nat -> vect -> vect -> R) : (forall i, (i < k)%nat -> dif (f i)) -> dif (fun x y => sum_n (K := Rops) k (fun i => f i x y)).
  Proof.
    induction k as [|k IH]; intros H; [exact (dif_const 0)|]. apply (dif_fun _ (fun x y => sum_n (K := Rops) k (fun i => f i x y) + f k x y)); [intros x' y'; exact (sum_n_S Rops_ring k (fun i => f i x' y'))|].
    apply dif_plus; [apply IH; intros i Hi; apply H; lia|apply H; lia].
  Qed.
  Lemma dif_inv f : dif f -> f x y <> 0 -> dif (fun x y => / f x y).
  Proof.
    intros H N. apply (dif_comp Rinv (- 1 / (f x y) ^ 2)); [exact H|].
    apply (dlim_ext _ (fun z => 1 / z)); [intros z; unfold Rdiv; ring|].
    replace (- 1 / f x y ^ 2) with ((0 * f x y - 1 * 1) / Rsqr (f x y)) by (unfold Rsqr; field; exact N).
    apply (derivable_pt_lim_div (fct_cte 1) id); [apply derivable_pt_lim_const|apply derivable_pt_lim_id|exact N].
  Qed.
  Lemma dif_pow f k : dif f -> dif (fun x y => f x y ^ k).
  Proof. intros H. induction k as [|k IH]; [exact (dif_const 1)|]. cbn [pow]. now apply dif_mult. Qed.
End Dif.

(** ** the residual has one *)
Section Residual.
  Variables (tb : list (list R)) (dt : R) (x y : vect).
  Hypothesis G0 : forall s, (s < length tb)%nat -> x_g x s <> 0.
  Let n := num_params tb.
  Notation D := (dif n 9 x y).
  Lemma d_rot i j : (i < 3)%nat -> (j < 3)%nat -> D (fun x _ => x_rot tb x i j).
  Proof. intros Hi Hj. apply (dif_x n 9 x y (18 + num_slip_sys tb + num_slip_sys tb + (3 * i + j))%nat). unfold n, num_params. lia. Qed.
  Lemma d_u i j : (i < 3)%nat -> (j < 3)%nat -> D (fun x _ => x_u_grad x i j).
  Proof. intros Hi Hj. apply (dif_x n 9 x y (3 * i + j)%nat). unfold n, num_params. lia. Qed.
  Lemma d_Fp i j : (i < 3)%nat -> (j < 3)%nat -> D (fun x _ => x_Fp_inv x i j).
  Proof. intros Hi Hj. apply (dif_x n 9 x y (9 + (3 * i + j))%nat). unfold n, num_params. lia. Qed.
  Lemma d_g s : (s < length tb)%nat -> D (fun x _ => x_g x s).
  Proof. intros Hs. apply (dif_x n 9 x y (18 + s)%nat). unfold n, num_params, num_slip_sys. lia. Qed.
  Lemma d_S i j : (i < 3)%nat -> (j < 3)%nat -> D (fun _ y => unflatten_fn y i j).
  Proof. intros Hi Hj. apply (dif_y n 9 x y (3 * i + j)%nat). lia. Qed.
  Lemma d_frame s i j : (i < 3)%nat -> (j < 3)%nat -> D (fun x _ => slip_frame tb (x_rot tb x) s i j).
  Proof.
    intros Hi Hj. unfold slip_frame, at_vec. apply dif_mult; apply (dif_sum n 9 x y 3 (fun k x _ => _)); intros k Hk; (apply dif_mult; [now apply d_rot|apply dif_const]).
  Qed.
  Lemma d_resolved s : D (fun x y => resolved tb (x_rot tb x) (unflatten_fn y) s).
  Proof.
    unfold resolved, ddot. apply (dif_sum n 9 x y 3 (fun i x y => _)). intros i Hi. apply (dif_sum n 9 x y 3 (fun j x y => _)). intros j Hj.
    apply dif_mult; [now apply d_S|now apply d_frame].
  Qed.
  Lemma d_slip s : (s < length tb)%nat -> D (fun x y => slip_by dt (resolved tb (x_rot tb x) (unflatten_fn y) s) (x_g x s)).
  Proof.
    intros Hs. apply (dif_fun n 9 x y _ (fun x y => dt / 1000 * (psi10 (resolved tb (x_rot tb x) (unflatten_fn y) s) * (/ x_g x s) ^ 10))); [intros; apply slip_psi|].
    apply dif_mult; [apply dif_const|]. apply dif_mult.
    - eapply (dif_comp n 9 x y psi10); [apply d_resolved|apply psi10_deriv].
    - apply dif_pow. apply dif_inv; [now apply d_g|now apply G0].
  Qed.
  Lemma d_flow i j : (i < 3)%nat -> (j < 3)%nat -> D (fun x y => flow tb dt (x_g x) (x_rot tb x) (unflatten_fn y) i j).
  Proof.
    intros Hi Hj. unfold flow. apply (dif_sum n 9 x y (length tb) (fun s x y => _)). intros s Hs. apply dif_mult; [now apply d_slip|now apply d_frame].
  Qed.
  Lemma d_mul (A B : vect -> vect -> tensor) : (forall i j, (i < 3)%nat -> (j < 3)%nat -> D (fun x y => A x y i j)) -> (forall i j, (i < 3)%nat -> (j < 3)%nat -> D (fun x y => B x y i j)) ->
    forall i j, (i < 3)%nat -> (j < 3)%nat -> D (fun x y => (A x y ** B x y) i j).
  Proof. intros HA HB i j Hi Hj. unfold mul3. apply (dif_sum n 9 x y 3 (fun k x y => _)). intros k Hk. apply dif_mult; [now apply HA|now apply HB]. Qed.
  Lemma d_lattice i j : (i < 3)%nat -> (j < 3)%nat -> D (fun x y => lattice tb dt (def_grad (x_u_grad x)) (x_Fp_inv x) (x_g x) (x_rot tb x) (unflatten_fn y) i j).
  Proof.
    unfold lattice. revert i j. apply (d_mul (fun x _ => def_grad (x_u_grad x))).
    - intros i j Hi Hj. unfold def_grad. apply dif_plus; [now apply d_u|apply dif_const].
    - apply (d_mul (fun x _ => x_Fp_inv x)); [exact d_Fp|]. intros i j Hi Hj. apply dif_minus; [apply dif_const|now apply d_flow].
  Qed.
  Lemma d_conj (A B : vect -> vect -> tensor) : (forall i j, (i < 3)%nat -> (j < 3)%nat -> D (fun x y => A x y i j)) -> (forall i j, (i < 3)%nat -> (j < 3)%nat -> D (fun x y => B x y i j)) ->
    forall i j, (i < 3)%nat -> (j < 3)%nat -> D (fun x y => conj3 (A x y) (B x y) i j).
  Proof.
    intros HA HB i j Hi Hj. unfold conj3. apply (dif_sum n 9 x y 3 (fun k x y => _)). intros k Hk. apply (dif_sum n 9 x y 3 (fun l x y => _)). intros l Hl.
    apply dif_mult; [apply dif_mult; [now apply HA|now apply HB]|now apply HA].
  Qed.
  Lemma d_gap i j : (i < 3)%nat -> (j < 3)%nat -> D (fun x y => law_gap tb dt (def_grad (x_u_grad x)) (x_Fp_inv x) (x_g x) (x_rot tb x) (unflatten_fn y) i j).
  Proof.
    intros Hi Hj. unfold law_gap. apply dif_minus; [now apply d_S|]. unfold turned_law.
    apply (d_conj (fun x _ => x_rot tb x) (fun x y => cubic_law (conj3 (transp (x_rot tb x)) (green (lattice tb dt (def_grad (x_u_grad x)) (x_Fp_inv x) (x_g x) (x_rot tb x) (unflatten_fn y)))))); auto; [exact d_rot|].
    assert (HE : forall a b, (a < 3)%nat -> (b < 3)%nat -> D (fun x y => conj3 (transp (x_rot tb x)) (green (lattice tb dt (def_grad (x_u_grad x)) (x_Fp_inv x) (x_g x) (x_rot tb x) (unflatten_fn y))) a b)).
    { apply (d_conj (fun x _ => transp (x_rot tb x)) (fun x y => green (lattice tb dt (def_grad (x_u_grad x)) (x_Fp_inv x) (x_g x) (x_rot tb x) (unflatten_fn y)))).
      - intros a b Ha Hb. unfold transp. now apply d_rot.
      - intros a b Ha Hb. unfold green, Rdiv. apply dif_mult; [|apply dif_const]. apply dif_minus; [|apply dif_const].
        apply (dif_sum n 9 x y 3 (fun k x y => _)). intros k Hk. apply dif_mult; now apply d_lattice. }
    intros a b Ha Hb. unfold cubic_law. destruct (a =? b)%nat.
    - apply dif_plus; (apply dif_mult; [apply dif_const|]); [now apply HE|]. unfold trace. apply (dif_sum n 9 x y 3 (fun k x y => _)). intros k Hk. now apply HE.
    - apply dif_mult; [apply dif_const|]. apply dif_plus; now apply HE.
  Qed.
  Lemma d_residual k : D (fun x y => implicit_residual tb dt x y k).
  Proof.
    apply (dif_fun n 9 x y _ (fun x y => ravel9 (law_gap tb dt (def_grad (x_u_grad x)) (x_Fp_inv x) (x_g x) (x_rot tb x) (unflatten_fn y)) k)); [intros; now rewrite residual_gap|].
    unfold ravel9. destruct (k <? 9)%nat eqn:E; [|apply dif_const]. apply Nat.ltb_lt in E. apply d_gap; [apply Nat.div_lt_upper_bound; lia|apply Nat.mod_upper_bound; lia].
  Qed.

  (** *** its Jacobians *)
  Lemma shift_deriv (F : R -> R) z l : derivable_pt_lim (fun t => F (z + t)) 0 l -> derivable_pt_lim F z l.
  Proof.
    intros H eps He. destruct (H eps He) as (dl & Hd). exists dl. intros h H0 Hh. specialize (Hd h H0 Hh). rewrite Rplus_0_l, Rplus_0_r in Hd. exact Hd.
  Qed.
  Lemma line_deriv (z : vect) j k : derivable_pt_lim (fun t => if (k =? j)%nat then z j + t else z k) 0 (basis j k).
  Proof.
    unfold basis. destruct (k =? j)%nat; [|apply derivable_pt_lim_const]. replace 1 with (0 + 1) by ring.
    apply (derivable_pt_lim_plus (fun _ => z j) (fun t => t)); [apply derivable_pt_lim_const|apply derivable_pt_lim_id].
  Qed.
  Lemma line_start (z : vect) j : (fun k => if (k =? j)%nat then z j + 0 else z k) = z.
  Proof. apply functional_extensionality. intros k. destruct (k =? j)%nat eqn:E; [apply Nat.eqb_eq in E; subst; apply Rplus_0_r|reflexivity]. Qed.
  Lemma sum_basis_r k i (u : vect) : (i < k)%nat -> sum_n (K := Rops) k (fun j => u j * basis i j) = u i.
  Proof. intros H. etransitivity; [|exact (sum_basis k i u H)]. apply sum_n_ext. intros j _. req; ring. Qed.
  Lemma sum_zero_r k (u : vect) : sum_n (K := Rops) k (fun j => u j * 0) = 0.
  Proof. etransitivity; [|exact (sum_zero k u)]. apply sum_n_ext. intros j _. req; ring. Qed.
  Lemma jac_entries k a b : along n 9 x y (fun x y => implicit_residual tb dt x y k) a b ->
    (forall j, (j < n)%nat -> jacfwd (fun x' => implicit_residual tb dt x' y) x k j = a j) /\ (forall j, (j < 9)%nat -> jacfwd (fun y' => implicit_residual tb dt x y') y k j = b j).
  Proof.
    intros H. split; intros j Hj; unfold jacfwd; apply Derive.is_derive_unique; apply Derive.is_derive_Reals; apply shift_deriv.
    - specialize (H (fun t k => if (k =? j)%nat then x j + t else x k) (fun _ => y) (basis j) (fun _ => 0) (line_start x j) eq_refl (fun k _ => line_deriv x j k) (fun _ _ => derivable_pt_lim_const _ _)).
      unfold lin in H. rewrite (sum_basis_r n j a Hj), sum_zero_r, Rplus_0_r in H. exact H.
    - specialize (H (fun _ => x) (fun t k => if (k =? j)%nat then y j + t else y k) (fun _ => 0) (basis j) eq_refl (line_start y j) (fun _ _ => derivable_pt_lim_const _ _) (fun k _ => line_deriv y j k)).
      unfold lin in H. rewrite (sum_basis_r 9 j b Hj), sum_zero_r, Rplus_0_l in H. exact H.
  Qed.
  Lemma dlim_unique (F : R -> R) z l l' : derivable_pt_lim F z l -> derivable_pt_lim F z l' -> l = l'.
  Proof. apply uniqueness_limite. Qed.
  (** a curve of solutions *)
  Lemma implicit_velocity cx cy v w : cx 0 = x -> cy 0 = y -> (forall k, (k < n)%nat -> derivable_pt_lim (fun t => cx t k) 0 (v k)) ->
    (forall k, (k < 9)%nat -> derivable_pt_lim (fun t => cy t k) 0 (w k)) -> forall eps : posreal, (forall t k, Rabs t < eps -> (k < 9)%nat -> implicit_residual tb dt (cx t) (cy t) k = 0) ->
    forall k, (k < 9)%nat -> sum_n (K := Rops) 9 (fun j => jacfwd (fun y' => implicit_residual tb dt x y') y k j * w j) =
      - sum_n (K := Rops) n (fun j => jacfwd (fun x' => implicit_residual tb dt x' y) x k j * v j).
  Proof.
    intros C1 C2 D1 D2 eps Z k Hk. destruct (d_residual k) as (a & b & H). destruct (jac_entries k a b H) as (JX & JY).
    assert (E : lin n 9 a b v w = 0).
    { apply (dlim_unique (fun t => implicit_residual tb dt (cx t) (cy t) k) 0); [now apply H|]. intros e He. exists eps. intros h H0 Hh.
      rewrite Rplus_0_l, (Z h k Hh Hk), (Z 0 k); [|rewrite Rabs_R0; apply cond_pos|exact Hk]. replace ((0 - 0) / h - 0) with 0 by (field; exact H0). now rewrite Rabs_R0. }
    unfold lin in E. rewrite (sum_n_ext n _ (fun j => a j * v j)) by (intros j Hj; rewrite (JX j Hj); reflexivity).
    rewrite (sum_n_ext 9 _ (fun j => b j * w j)) by (intros j Hj; rewrite (JY j Hj); reflexivity).
    change (car Rops) with R in *. lra.
  Qed.
End Residual.
