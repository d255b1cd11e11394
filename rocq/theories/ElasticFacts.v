(** Lemmas on the linear elastic stress for C73, C74. *)
From Coq Require Import Reals List Arith Lia Lra Bool.
From Verif Require Import Num Arr ArrFacts Fe Problem SpecAssembly BatchFacts ProblemFacts AssemblyFacts DerivFacts FeFacts SpecWeak KernelFacts SpecEnergy EnergyFacts Elastic.
Import ListNotations.

Ltac req := match goal with |- @eq _ ?a ?b => change (@eq R a b) end.
Lemma Rhalves (a : R) : a = (/ 2 * (a + a))%R.
Proof. field. Qed.

Lemma dlim_quad (a b c : R) : derivable_pt_lim (fun t => a + (b * t + c * (t * t)))%R 0 b.
Proof.
  assert (H : derivable_pt_lim (fun t => a + (b * t + c * (t * t)))%R 0 (0 + (b * 1 + c * (1 * 0 + 0 * 1)))%R).
  - apply (derivable_pt_lim_plus (fun _ => a) (fun t => b * t + c * (t * t))%R); [apply derivable_pt_lim_const|].
    apply (derivable_pt_lim_plus (fun t => b * t)%R (fun t => c * (t * t))%R).
    + apply (derivable_pt_lim_scal id). apply derivable_pt_lim_id.
    + apply (derivable_pt_lim_scal (fun t => t * t)%R). apply (derivable_pt_lim_mult id id); apply derivable_pt_lim_id.
  - replace (0 + (b * 1 + c * (1 * 0 + 0 * 1)))%R with b in H by ring. exact H.
Qed.

Section Elastic.
  Context {V : Type}.
  Variables (lam mu : R) (d : nat).
  Open Scope R_scope.
  Let KR : ring_laws Rops := Rops_ring.

  (** the bilinear form of the stress *)
  Definition ebil (G H : nat -> nat -> Rops) : R :=
    lam * (trace d (strain G) * trace d (strain H)) + 2 * mu * sum_n (K := Rops) d (fun i => sum_n (K := Rops) d (fun j => strain G i j * strain H i j)).

  Lemma Rsum_ext n (a b : nat -> R) : (forall i, (i < n)%nat -> a i = b i) -> sum_n (K := Rops) n a = sum_n (K := Rops) n b.
  Proof. exact (sum_n_ext (K := Rops) n a b). Qed.
  Lemma Rsum_plus n (a b : nat -> R) : sum_n (K := Rops) n (fun i => a i + b i) = sum_n (K := Rops) n a + sum_n (K := Rops) n b.
  Proof. exact (FeFacts.sum_n_add KR n a b). Qed.
  Lemma Rsum_mul n c (a : nat -> R) : sum_n (K := Rops) n (fun i => c * a i) = c * sum_n (K := Rops) n a.
  Proof. exact (FeFacts.sum_n_mul_l KR n c a). Qed.
  Lemma Rsum_swap n m (a : nat -> nat -> R) : sum_n (K := Rops) n (fun i => sum_n (K := Rops) m (fun j => a i j)) = sum_n (K := Rops) m (fun j => sum_n (K := Rops) n (fun i => a i j)).
  Proof. exact (FeFacts.sum_n_swap' KR n m a). Qed.
  Lemma Rsum_nonneg n (a : nat -> R) : (forall i, (i < n)%nat -> 0 <= a i) -> 0 <= sum_n (K := Rops) n a.
  Proof. apply sum_n_nonneg. Qed.
  Lemma Rsum_delta n i (a : nat -> R) : (i < n)%nat -> sum_n (K := Rops) n (fun j => (if (i =? j)%nat then 1 else 0) * a j) = a i.
  Proof.
    intros Hi. rewrite (sum_n_single KR n i); auto.
    - rewrite Nat.eqb_refl. cbn; req; ring.
    - intros j Hj Hne. apply Nat.eqb_neq in Hne. rewrite Nat.eqb_sym, Hne. cbn; req; ring.
  Qed.

  Lemma strain_half (G H : nat -> nat -> Rops) :
    sum_n (K := Rops) d (fun i => sum_n (K := Rops) d (fun j => strain G i j * H i j)) = sum_n (K := Rops) d (fun i => sum_n (K := Rops) d (fun j => strain G i j * strain H i j)).
  Proof.
    set (S := fun i j => strain G i j * H i j).
    assert (E : sum_n (K := Rops) d (fun i => sum_n (K := Rops) d (fun j => S i j)) = sum_n (K := Rops) d (fun i => sum_n (K := Rops) d (fun j => S j i))) by apply Rsum_swap.
    transitivity (/ 2 * (sum_n (K := Rops) d (fun i => sum_n (K := Rops) d (fun j => S i j)) + sum_n (K := Rops) d (fun i => sum_n (K := Rops) d (fun j => S j i)))).
    - rewrite <- E. exact (Rhalves _).
    - rewrite <- Rsum_plus, <- Rsum_mul. apply Rsum_ext. intros i Hi. rewrite <- Rsum_plus, <- Rsum_mul. apply Rsum_ext. intros j Hj.
      unfold S, strain. req; field.
  Qed.
  Lemma trace_strain (G : nat -> nat -> Rops) : trace d (strain G) = trace d G.
  Proof. unfold trace. apply Rsum_ext. intros m Hm. unfold strain. field. Qed.

  Lemma stress_dot (G H : nat -> nat -> Rops) (iv : list V) : dot2 (K := Rops) d d (elastic_stress lam mu d G iv) H = ebil G H.
  Proof.
    unfold dot2, ebil. rewrite (trace_strain H). unfold elastic_stress.
    transitivity (sum_n (K := Rops) d (fun i => lam * trace d (strain G) * H i i + 2 * mu * sum_n (K := Rops) d (fun j => strain G i j * H i j))).
    - apply Rsum_ext. intros i Hi.
      transitivity (sum_n (K := Rops) d (fun j => (if (i =? j)%nat then 1 else 0) * (lam * trace d (strain G) * H i j) + 2 * mu * (strain G i j * H i j))).
      + apply Rsum_ext. intros j Hj. cbn; req; ring.
      + rewrite Rsum_plus, Rsum_mul, Rsum_delta by auto. reflexivity.
    - rewrite Rsum_plus, !Rsum_mul, strain_half. unfold trace at 3. cbn; req; ring.
  Qed.
  Lemma ebil_sym G H : ebil G H = ebil H G.
  Proof.
    unfold ebil. f_equal; [req; ring|]. f_equal. apply Rsum_ext. intros i Hi. apply Rsum_ext. intros j Hj. req; ring.
  Qed.
  Lemma ebil_nonneg G : 0 <= lam -> 0 <= mu -> 0 <= ebil G G.
  Proof.
    intros HL HM. unfold ebil. apply Rplus_le_le_0_compat.
    - apply Rmult_le_pos; auto. apply Rle_0_sqr.
    - apply Rmult_le_pos; [lra|]. apply Rsum_nonneg. intros i Hi. apply Rsum_nonneg. intros j Hj. apply Rle_0_sqr.
  Qed.
  Lemma density_ebil G : strain_energy_density lam mu d G = / 2 * ebil G G.
  Proof. unfold strain_energy_density, ebil. req; field. Qed.

  Lemma trace_line (G H : nat -> nat -> Rops) t : trace d (strain (fun k j => G k j + t * H k j)) = trace d (strain G) + t * trace d (strain H).
  Proof.
    unfold trace. rewrite <- Rsum_mul, <- Rsum_plus. apply Rsum_ext. intros m Hm. unfold strain. req; field.
  Qed.
  Lemma ebil_line G H t : ebil (fun k j => G k j + t * H k j) (fun k j => G k j + t * H k j) = ebil G G + 2 * t * ebil G H + t * t * ebil H H.
  Proof.
    unfold ebil. rewrite !trace_line.
    replace (sum_n (K := Rops) d (fun i => sum_n (K := Rops) d (fun j => strain (fun k l => G k l + t * H k l) i j * strain (fun k l => G k l + t * H k l) i j)))
      with (sum_n (K := Rops) d (fun i => sum_n (K := Rops) d (fun j => strain G i j * strain G i j)) + 2 * t * sum_n (K := Rops) d (fun i => sum_n (K := Rops) d (fun j => strain G i j * strain H i j))
            + t * t * sum_n (K := Rops) d (fun i => sum_n (K := Rops) d (fun j => strain H i j * strain H i j))).
    - ring.
    - rewrite <- !Rsum_mul, <- !Rsum_plus. apply Rsum_ext. intros i Hi. rewrite <- !Rsum_mul, <- !Rsum_plus. apply Rsum_ext. intros j Hj.
      unfold strain. req; field.
  Qed.
  Lemma strain_ext (G G' : nat -> nat -> Rops) i j : (i < d)%nat -> (j < d)%nat -> (forall k l, (k < d)%nat -> (l < d)%nat -> G k l = G' k l) -> strain G i j = strain G' i j.
  Proof. intros Hi Hj H. unfold strain. now rewrite !H by auto. Qed.
  Lemma ebil_ext G G' H H' : (forall k l, (k < d)%nat -> (l < d)%nat -> G k l = G' k l) -> (forall k l, (k < d)%nat -> (l < d)%nat -> H k l = H' k l) ->
    ebil G H = ebil G' H'.
  Proof.
    intros EG EH. unfold ebil, trace. f_equal; [f_equal; f_equal|f_equal].
    - apply Rsum_ext. intros m Hm. now apply strain_ext.
    - apply Rsum_ext. intros m Hm. now apply strain_ext.
    - apply Rsum_ext. intros i Hi. apply Rsum_ext. intros j Hj. f_equal; now apply strain_ext.
  Qed.
  Lemma elastic_ok : tensor_map_ok (K := Rops) (V := V) d d (elastic_stress lam mu d).
  Proof.
    intros G G' iv E k j Hk Hj. unfold elastic_stress, trace. f_equal.
    - f_equal. f_equal. apply Rsum_ext. intros m Hm. now apply strain_ext.
    - f_equal. now apply strain_ext.
  Qed.

  (** the energy density and its gradient *)
  Lemma density_gradient (iv : list V) G : gradient2 d d (fun G => strain_energy_density lam mu d G) G (elastic_stress lam mu d G iv).
  Proof.
    intros H. rewrite stress_dot.
    apply (dlim_ext (fun t => / 2 * ebil G G + (ebil G H * t + / 2 * ebil H H * (t * t)))).
    { intros t. rewrite density_ebil, ebil_line. field. }
    apply dlim_quad.
  Qed.
End Elastic.
