(** Proofs for C99: the two problems of the explicit solver, the masses and one step. *)
From Coq Require Import String Reals List Arith Lia Lra Bool.
From Verif Require Import Num Arr ArrFacts Fe Problem SpecAssembly ProblemFacts AssemblyFacts ResidualFacts DerivFacts FeFacts SpecFe SpecWeak KernelFacts SolverBc SpecBc SpecEnergy Elastic ElasticFacts LinAlg SpecLinear SpecPosed
  Wave SpecCoupled CoupledFacts CoupledLinear StokesMain ThermoMech SpecThermoMech ThermoMechFacts ThermoMechMain Dendrite SpecDendrite DendriteFacts DendriteMain DendriteEx SpecDendriteEx.
Import ListNotations.
Local Open Scope R_scope.
Local Notation V := (nat -> nat -> Rops).
Local Notation zr := (@zero Rops).

Section Form.
  Variable P : dn_params.
  Definition j_th (s : point_state (K := Rops) (V := V)) : R := safe_arctan2 (grad0 s 0%nat 1%nat) (grad0 s 0%nat 0%nat).
  Definition j_chi (s : point_state (K := Rops) (V := V)) : R := nth 0 (ivs s) (fun _ _ => 0) 0%nat 0%nat.
  Definition mass_form : coupled_form (K := Rops) (V := V) :=
    mkForm (fun _ _ _ => zr) (fun s _ => tau P * val0 s 0%nat / dt P) (fun _ _ _ => zr) (fun s _ => val1 s 0%nat / dt P).
  Definition force_form : coupled_form (K := Rops) (V := V) :=
    mkForm (fun s => aniso_flux P (j_th s) (grad0 s))
      (fun s _ => reaction P (val0 s 0%nat) (val1 s 0%nat) + - a_noise P * val0 s 0%nat * (1 - val0 s 0%nat) * j_chi s)
      (fun s k j => grad1 s k j + K_lat P / tau P * aniso_flux P (j_th s) (grad0 s) k j) (fun s _ => K_lat P / tau P * reaction P (val0 s 0%nat) (val1 s 0%nat)).
  Lemma mass_ok : form_ok 1 2 1 2 mass_form.
  Proof.
    intros s t (H1 & H2 & H3 & H4 & H5). unfold mass_form. cbn [flux0 source0 flux1 source1]. repeat split; intros; [now rewrite H2 by lia|now rewrite H4 by lia].
  Qed.
  Lemma force_ok : form_ok 1 2 1 2 force_form.
  Proof.
    intros s t (H1 & H2 & H3 & H4 & H5). unfold force_form. cbn [flux0 source0 flux1 source1].
    assert (A : j_th s = j_th t) by (unfold j_th; now rewrite !H1 by lia). assert (B : j_chi s = j_chi t) by (unfold j_chi; now rewrite H5). repeat split; intros.
    - now apply aniso_ext.
    - rewrite H2, H4, B by lia. reflexivity.
    - rewrite H3 by auto. f_equal. f_equal. now apply aniso_ext.
    - rewrite H2, H4 by lia. reflexivity.
  Qed.
End Form.

(** what set the kernels see *)
Definition pm_of (P : dn_params) (fp fT : fe Rops) : problem Rops V := mkProblem [fp; fT] [] (sm_maps P [fp; fT]) [] [].
Definition pf_of (P : dn_params) (fp fT : fe Rops) (chi : list R) : problem Rops V := mkProblem [fp; fT] [] (sf_maps P [fp; fT]) [map (fun x _ _ _ => x) chi] [].

Lemma ex_alg1 (r n N J : R) : r * N * J + n * N * J = (r + n) * N * J.
Proof. ring. Qed.
Lemma ex_alg2 (k : R) (n m : nat) (g h v : nat -> nat -> R) (s : nat -> R) :
  sum_n (K := Rops) n (fun q => sum_n (K := Rops) m (fun j => g q j * v q j)) + k * (sum_n (K := Rops) n (fun q => sum_n (K := Rops) m (fun j => h q j * v q j)) + sum_n (K := Rops) n s)
  = sum_n (K := Rops) n (fun q => sum_n (K := Rops) m (fun j => (g q j + k * h q j) * v q j) + k * s q).
Proof.
  rewrite Rmult_plus_distr_l, <- !Rsum_mul, <- !Rsum_plus. apply Rsum_ext. intros q _. rewrite <- Rplus_assoc. f_equal.
  rewrite <- Rsum_mul, <- Rsum_plus. apply Rsum_ext. intros j _. ring.
Qed.
Lemma ex_alg3 (d x s : R) : d * (x * s) = x * (d * s).
Proof. ring. Qed.
Lemma ex_alg4 (J x h : R) : J * (x * h) = x * (h * J).
Proof. ring. Qed.
Lemma chi_entry (chi : list R) c n : List.length chi = n -> (c < n)%nat -> nth_error (map (fun (x : R) (_ _ _ : nat) => x) chi) c = Some (fun _ _ _ => nth c chi 0).
Proof. intros <- Hc. rewrite (map_nth_error _ c chi (d := nth c chi 0)); [reflexivity|]. now apply nth_error_nth'. Qed.

Section Problems.
  Variables (P : dn_params) (fp fT : fe Rops).
  Hypothesis VP : vec fp = 1%nat.
  Hypothesis VT : vec fT = 1%nat.
  Lemma m_coupled : coupled_problem (pm_of P fp fT) fp fT (mass_form P).
  Proof.
    unfold coupled_problem. repeat split; auto. eexists. split; [reflexivity|]. split.
    - intros ci. unfold sm_kernel. cbv zeta. rewrite app_length. cbn [fes nth]. now rewrite !flat_table_len.
    - intros ci c Hc IV. unfold sm_kernel, coupled_kernel. cbv zeta. cbn [fes nth dof_shapes map].
      refine (f_equal2 (@app _) _ _); apply flat_map_ext; intros a; apply map_ext_in; intros k Hk; apply Rsum_ext; intros q _; unfold mass_form; cbn [flux0 source0 flux1 source1]; unfold local_state; cbv zeta; cbn [val0 val1];
        cbn [add mul zero Rops]; req; rewrite Rsum_mul, Rmult_0_l, Rplus_0_l; reflexivity.
  Qed.
  Lemma f_coupled chi : coupled_problem (pf_of P fp fT chi) fp fT (force_form P).
  Proof.
    unfold coupled_problem. repeat split; auto. eexists. split; [reflexivity|]. split.
    - intros ci. unfold sf_kernel. cbv zeta. rewrite app_length. cbn [fes nth]. now rewrite !flat_table_len.
    - intros ci c Hc IV. unfold sf_kernel, coupled_kernel. cbv zeta. cbn [fes nth dof_shapes map].
      assert (IQ : forall q, internal2 (ci_iv ci) 0 q 0 0 = nth 0 (at_quad (ci_iv ci) q) (fun _ _ => 0) 0%nat 0%nat) by (intros q; unfold internal2, at_quad; destruct (ci_iv ci); reflexivity).
      refine (f_equal2 (@app _) _ _); apply flat_map_ext; intros a; apply map_ext_in; intros k Hk.
      + apply in_seq in Hk. rewrite VP in Hk. assert (k = 0)%nat as -> by lia.
        rewrite <- !Rsum_plus. apply Rsum_ext; intros q _; unfold force_form; cbn [flux0 source0]; unfold local_state; cbv zeta; unfold j_th, j_chi; cbn [grad0 val0 val1 ivs]. rewrite IQ.
        unfold nodes_from, num_nodes_cumsum. cbn [firstn map fold_right fes Nat.add]. cbn [add mul Rops]. req. rewrite Rplus_assoc. f_equal. exact (ex_alg1 _ _ _ _).
      + apply in_seq in Hk. rewrite VT in Hk. assert (k = 0)%nat as -> by lia.
        refine (eq_trans (ex_alg2 _ _ _ _ _ _ _) _). apply Rsum_ext; intros q _; unfold force_form; cbn [flux1 source1]; unfold local_state; cbv zeta; unfold j_th, j_chi; cbn [grad0 grad1 val0 val1 ivs].
        unfold nodes_from, num_nodes_cumsum. cbn [firstn map fold_right fes Nat.add]. rewrite Nat.add_0_r. cbn [add mul Rops]. req. f_equal. rewrite !Rmult_assoc. reflexivity.
  Qed.
End Problems.

(** ** Hat functions *)
Lemma nth_ms {A} (f : nat -> A) i d k : (i < k)%nat -> nth i (map f (seq 0 k)) d = f i.
Proof. intros H. rewrite (nth_indep _ d (f 0%nat)) by (rewrite map_length, seq_length; exact H). rewrite (map_nth f (seq 0 k) 0%nat i), seq_nth by exact H. reflexivity. Qed.
Lemma hat_shaped N n : shaped N 1 (hat N n).
Proof. split; [unfold hat; now rewrite map_length, seq_length|]. intros r Hr. apply in_map_iff in Hr as (i & <- & _). reflexivity. Qed.
Lemma hat_get N n i : (i < N)%nat -> get2 zr (hat N n) i 0 = if (i =? n)%nat then 1 else 0.
Proof. intros Hi. unfold get2, hat. rewrite (nth_ms _ i) by exact Hi. reflexivity. Qed.
Lemma work_hat N n r : (n < N)%nat -> work (K := Rops) N 1 (hat N n) r = get2 zr r n 0.
Proof.
  intros Hn. unfold work. transitivity (sum_n (K := Rops) N (fun i => (if (n =? i)%nat then 1 else 0) * get2 zr r i 0)).
  - apply Rsum_ext. intros i Hi. pose proof (hat_get N n i Hi) as HG. transitivity (get2 zr (hat N n) i 0 * get2 zr r i 0 + 0); [reflexivity|]. rewrite HG, (Nat.eqb_sym i n). exact (Rplus_0_r _).
  - exact (Rsum_delta N n (fun i => get2 zr r i 0) Hn).
Qed.
Section Hats.
  Variables (p : problem Rops V) (f : fe Rops).
  Local Notation N := (List.length (points f)).
  Hypothesis NB : forall c a, (c < p_num_cells p)%nat -> (a < num_nodes f)%nat -> (cell_node f c a < N)%nat.
  Lemma entry_at x c a : shaped N 1 x -> (c < p_num_cells p)%nat -> (a < num_nodes f)%nat -> cell_sol_at f x c a 0 = get2 zr x (cell_node f c a) 0.
  Proof. intros [L _] Hc Ha. unfold cell_sol_at, get2. rewrite gather_in; [reflexivity|]. rewrite L. now apply NB. Qed.
  Lemma field_hats x c q : shaped N 1 x -> (c < p_num_cells p)%nat ->
    convert_from_dof_to_quad f x c q 0 = sum_n (K := Rops) N (fun n => get2 zr x n 0 * convert_from_dof_to_quad f (hat N n) c q 0).
  Proof.
    intros SX Hc. unfold convert_from_dof_to_quad. transitivity (sum_n (K := Rops) N (fun n => sum_n (K := Rops) (num_nodes f) (fun a => get2 zr x n 0 * (cell_sol_at f (hat N n) c a 0 * shape_vals f q a)))).
    - rewrite Rsum_swap. apply Rsum_ext. intros a Ha. rewrite (entry_at x c a SX Hc Ha). cbn [mul Rops].
      pose proof (Rsum_delta N (cell_node f c a) (fun n => get2 zr x n 0 * shape_vals f q a) (NB c a Hc Ha)) as D. cbv beta in D. rewrite <- D. apply Rsum_ext. intros n Hn.
      rewrite (entry_at _ c a (hat_shaped N n) Hc Ha), hat_get by now apply NB. exact (ex_alg3 _ _ _).
    - apply Rsum_ext. intros n Hn. now rewrite Rsum_mul.
  Qed.
  Lemma integral_sum x : shaped N 1 x -> integral p f x = sum_n (K := Rops) N (fun n => share p f n * get2 zr x n 0).
  Proof.
    intros SX. unfold share, integral, over_cells. transitivity (sum_n (K := Rops) (p_num_cells p) (fun c => sum_n (K := Rops) (num_quads f) (fun q => sum_n (K := Rops) N (fun n => get2 zr x n 0 * (convert_from_dof_to_quad f (hat N n) c q 0 * get_JxW (points f) f c q))))).
    - apply Rsum_ext. intros c Hc. apply Rsum_ext. intros q Hq. rewrite (field_hats x c q SX Hc). cbn [mul Rops]. rewrite Rmult_comm, <- Rsum_mul. apply Rsum_ext. intros n _. exact (ex_alg4 _ _ _).
    - transitivity (sum_n (K := Rops) (p_num_cells p) (fun c => sum_n (K := Rops) N (fun n => sum_n (K := Rops) (num_quads f) (fun q => get2 zr x n 0 * (convert_from_dof_to_quad f (hat N n) c q 0 * get_JxW (points f) f c q))))).
      { apply Rsum_ext. intros c Hc. apply Rsum_swap. }
      rewrite Rsum_swap. apply Rsum_ext. intros n _. transitivity (get2 zr x n 0 * sum_n (K := Rops) (p_num_cells p) (fun c => sum_n (K := Rops) (num_quads f) (fun q => convert_from_dof_to_quad f (hat N n) c q 0 * get_JxW (points f) f c q))); [|apply Rmult_comm].
      rewrite <- Rsum_mul. apply Rsum_ext. intros c _. rewrite <- Rsum_mul. reflexivity.
  Qed.
End Hats.
