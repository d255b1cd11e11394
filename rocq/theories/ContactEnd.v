(** Lemmas for C103: the prescribed displacements, the passes, the first pass, and a problem to which the theorems apply. *)
From Coq Require Import String Reals List Arith Lia Lra Psatz Bool.
From Verif Require Import Num Arr ArrFacts Fe SpecFe FeFacts GeomFacts Problem SpecAssembly BatchFacts ProblemFacts AssemblyFacts DerivFacts Basis SpecBasis BasisFacts SpecSelect SelectFacts SpecWeak KernelFacts SpecEnergy EnergyFacts Init SpecInit InitFacts Mesh MeshMain MeshFe
  SpecPatch PatchFacts Elastic ElasticFacts Plasticity SpecEigen FractureLoop FractureUse Lagrangian LaserHeat HyperElastic SpecHyper HyperFacts HyperMain HyperUse HyperEnd Contact SpecContact ContactRot ContactMain ContactMore ContactRun.
Import ListNotations.
Local Open Scope R_scope.
Local Notation sum := (sum_n (K := Rops)).

Lemma value_at (pts : list (list Rops)) n m scale pt : (n < length pts)%nat -> nth n pts [] = pt -> (m < 2)%nat ->
  dirichlet_value pts bc_locs [0; 1; 1]%nat (bc_values scale) n m = if (1 =? m)%nat && rightmost_node pt then Some (- scale * hgt) else if left_side pt then Some 0 else None.
Proof.
  intros Hn E Hm. apply Nat.ltb_lt in Hn. unfold dirichlet_value. cbn [length seq bc_locs fold_left nth loc_holds bc_values]. rewrite Hn, E. cbn [andb]. unfold get_dirichlet_topright.
  destruct m as [|[|m]]; [| |lia]; cbn [Nat.eqb andb]; destruct (left_side pt); reflexivity.
Qed.
Section Prescribed.
  Variables (k : nat) (Hk : (0 < k)%nat) (Hk2 : (k <= 4000)%nat).
  Let M := contact_mesh k.
  Lemma node_at i j : (i <= 20 * k + 1)%nat -> (j <= 10 * k)%nat -> nth (i * (10 * k + 1) + j) (m_points M) [] = [INR i * (50 / INR k); INR j * (50 / INR k)].
  Proof.
    intros Hi Hj. unfold M, contact_mesh. rewrite rect_point by lia. unfold Rdiv. rewrite !Rmult_assoc. fold (Rdiv (len_x + 50 * / INR k) (INR (20 * k + 1))). fold (Rdiv hgt (INR (10 * k))). fold (Rdiv 50 (INR k)). now rewrite (side_x k Hk), (side_y k Hk).
  Qed.
  Lemma close_grid i m (y : R) : 0 <= y <= 1000 -> y = INR m * (50 / INR k) -> isclose (INR i * (50 / INR k)) y (/ 10 ^ 5) = (i =? m)%nat.
  Proof.
    intros Hy E. assert (Kp : 0 < INR k) by (apply lt_0_INR; exact Hk). assert (K2 : INR k <= 4000) by (apply le_INR in Hk2; replace (INR 4000) with 4000 in Hk2 by (rewrite INR_IZR_INZ; reflexivity); exact Hk2).
    assert (D : 125 / 10 ^ 4 <= 50 / INR k) by (apply (Rmult_le_reg_r (INR k)); [lra|]; replace (50 / INR k * INR k) with 50 by (field; lra); lra).
    destruct (Nat.eqb_spec i m) as [->|N].
    - apply isclose_true. rewrite E, Rminus_diag_eq by reflexivity. rewrite Rabs_R0. rewrite <- E, Rabs_pos_eq by lra. lra.
    - apply not_true_is_false. intros H. apply isclose_true in H. rewrite (Rabs_pos_eq y) in H by lra. rewrite E in H at 1. replace (INR i * (50 / INR k) - INR m * (50 / INR k)) with ((INR i - INR m) * (50 / INR k)) in H by ring.
      assert (1 <= Rabs (INR i - INR m)).
      { destruct (Nat.lt_ge_cases i m) as [L|L].
        - apply Nat.le_succ_l, le_INR in L. rewrite S_INR in L. rewrite Rabs_left by lra. lra.
        - assert (L' : (S m <= i)%nat) by lia. apply le_INR in L'. rewrite S_INR in L'. rewrite Rabs_pos_eq by lra. lra. }
      rewrite Rabs_mult, (Rabs_pos_eq (50 / INR k)) in H by lra. nra.
  Qed.
  Lemma close0 i : isclose (INR i * (50 / INR k)) 0 (/ 10 ^ 5) = (i =? 0)%nat.
  Proof. apply (close_grid i 0 0); [lra|cbn; ring]. Qed.
  Lemma grid_len n : INR (n * k) * (50 / INR k) = 50 * INR n.
  Proof. rewrite mult_INR. field. apply not_0_INR. lia. Qed.
  Lemma prescribed_form scale i j m : (i <= 20 * k + 1)%nat -> (j <= 10 * k)%nat -> (m < 2)%nat ->
    dirichlet_value (m_points M) bc_locs [0; 1; 1]%nat (bc_values scale) (i * (10 * k + 1) + j) m = prescribed k scale i j m.
  Proof.
    intros Hi Hj Hm.
    assert (L : (i * (10 * k + 1) + j < length (m_points M))%nat). { unfold M, contact_mesh. rewrite rect_points_len by lia. nia. }
    rewrite (value_at (m_points M) _ m scale _ L (node_at i j Hi Hj) Hm). unfold left_side, rightmost_node. cbn [nth]. rewrite close0.
    rewrite (close_grid i (20 * k) len_x) by (unfold len_x; try rewrite grid_len; cbn; lra). rewrite (close_grid j (10 * k) hgt) by (unfold hgt; try rewrite grid_len; cbn; lra).
    unfold prescribed, hgt. destruct (Nat.eqb_spec i 0) as [->|N0].
    - destruct (Nat.eqb_spec 0 (20 * k)) as [E|E]; [lia|]. cbn [andb]. now rewrite andb_false_r.
    - destruct (i =? 20 * k)%nat, (j =? 10 * k)%nat; (destruct m as [|[|m]]; [| |lia]); reflexivity.
  Qed.
End Prescribed.

(** ** The passes *)
Section Passes.
  Variables (eigh : tensor -> (nat -> R) * tensor) (noise : tensor) (solve : problem Rops cval -> list (list Rops) -> result (list (list Rops))) (P : list (list Rops)) (f : fe Rops) (thetas : list (nat -> cval)) (p0 : problem Rops cval).
  (** a state reached from the first *)
  Definition reached (s : contact_state) : Prop := exists f' x, ct_info s = (bc_locs, [0; 1; 1]%nat, bc_values x) /\ fes (ct_problem s) = [f'] /\ rebound f f' /\
    boundary_inds_list (ct_problem s) = boundary_inds_list p0 /\ maps (ct_problem s) = maps p0 /\ internal_vars_surfaces (ct_problem s) = internal_vars_surfaces p0.
  Local Notation pass_ok := (pass_of eigh noise solve P f thetas p0).
  Lemma bc_possible x : exists f', update_Dirichlet_boundary_conditions f (Some (bc_locs, [0; 1; 1]%nat, bc_values x)) = Ok f'.
  Proof.
    destruct (dirichlet_spec (K := Rops) (points f) bc_locs [0; 1; 1]%nat (bc_values x)) as (_ & _ & D). destruct (D eq_refl eq_refl eq_refl) as (ns & vs & ws & E & _).
    unfold update_Dirichlet_boundary_conditions. rewrite E. eexists. reflexivity.
  Qed.
  Lemma pass_eq scale s old : reached s -> exists s', reached s' /\ (forall u, solve (ct_problem s') old = Ok u -> contact_pass eigh noise solve P f thetas scale (s, old) = Ok (s', u) /\ pass_ok scale old s' u) /\
    (forall e, solve (ct_problem s') old = Err e -> contact_pass eigh noise solve P f thetas scale (s, old) = Err e).
  Proof.
    intros (f1 & x & I & F & RB & B1 & B2 & B3). destruct (bc_possible scale) as (f' & E).
    exists (mkContact (mkProblem [f'] (boundary_inds_list p0) (maps p0) [thetas; contact_post eigh noise P f old] (internal_vars_surfaces p0)) (bc_locs, [0; 1; 1]%nat, bc_values scale)).
    assert (EQ : contact_params s scale thetas (contact_post eigh noise P f old) = Ok (mkContact (mkProblem [f'] (boundary_inds_list p0) (maps p0) [thetas; contact_post eigh noise P f old] (internal_vars_surfaces p0)) (bc_locs, [0; 1; 1]%nat, bc_values scale))).
    { unfold contact_params. rewrite F, I, B1, B2, B3. change (bc_values x) with ([fun _ : list Rops => 0; fun _ => 0; get_dirichlet_topright x]). cbn [set_last]. change [fun _ : list Rops => 0; fun _ => 0; get_dirichlet_topright scale] with (bc_values scale). rewrite (update_again f f1 _ RB), E. reflexivity. }
    split; [|split].
    - exists f', scale. cbn. repeat split; auto. exact (update_rebound f _ f' E).
    - intros u S. split; [unfold contact_pass; cbn [fst snd]; rewrite EQ; cbn [bind ct_problem] in *; rewrite S; reflexivity|]. exists f'. auto.
    - intros e S. unfold contact_pass. cbn [fst snd]. rewrite EQ. cbn [bind ct_problem] in *. rewrite S. reflexivity.
  Qed.
  Lemma run_spec n todo : forall i s old r, reached s -> contact_run eigh noise solve P f thetas n todo i (s, old) = Ok r -> length r = todo /\
    forall l, (l < todo)%nat -> exists s' u, nth_error r l = Some (s', u) /\ pass_ok (scale_ds n (i + l)) (match l with O => old | S l' => snd (nth l' r (s, old)) end) s' u.
  Proof.
    induction todo as [|todo IH]; intros i s old r RS H; cbn [contact_run] in H.
    - injection H as <-. split; [reflexivity|]. intros l Hl. lia.
    - destruct (pass_eq (scale_ds n i) s old RS) as (s1 & RS1 & GOOD & BAD). destruct (solve (ct_problem s1) old) as [u1|e] eqn:SE.
      2:{ rewrite (BAD e eq_refl) in H. discriminate. }
      destruct (GOOD u1 eq_refl) as [E1 OK1]. rewrite E1 in H. cbn [bind] in H. destruct (contact_run _ _ _ _ _ _ n todo (S i) (s1, u1)) as [r1|] eqn:E2; [|discriminate]. injection H as <-.
      destruct (IH (S i) s1 u1 r1 RS1 E2) as [L NTH]. split; [exact (f_equal S L)|]. intros [|l] Hl.
      + exists s1, u1. rewrite Nat.add_0_r. auto.
      + destruct (NTH l ltac:(lia)) as (s' & u & EN & OKl). exists s', u. split; [exact EN|]. replace (i + S l)%nat with (S i + l)%nat by lia. destruct l as [|l]; [exact OKl|]. cbn [nth].
        rewrite (nth_indep r1 (s, old) (s1, u1)) by lia. exact OKl.
  Qed.
  Lemma run_total n todo : (forall p u, exists u', solve p u = Ok u') -> forall i s old, reached s -> exists r, contact_run eigh noise solve P f thetas n todo i (s, old) = Ok r.
  Proof.
    intros TOT. induction todo as [|todo IH]; intros i s old RS; cbn [contact_run]; [now eexists|]. destruct (pass_eq (scale_ds n i) s old RS) as (s1 & RS1 & GOOD & _). destruct (TOT (ct_problem s1) old) as (u1 & SE).
    destruct (GOOD u1 SE) as [E1 _]. rewrite E1. cbn [bind]. destruct (IH (S i) s1 u1 RS1) as (r & ->). now eexists.
  Qed.
  Lemma first_reached : fes p0 = [f] -> reached (mkContact p0 contact_bc).
  Proof. intros F. exists f, 0. cbn. repeat split; auto. apply rebound_refl. Qed.
End Passes.

(** ** The first pass *)
Lemma nth_rep {A} (a d : A) n i : (i < n)%nat -> nth i (repeat a n) d = a.
Proof. revert i. induction n as [|n IH]; intros i H; [lia|]. destruct i as [|i]; [reflexivity|]. cbn. apply IH. lia. Qed.
Lemma ones_samples (f : fe Rops) P d : length P = num_total_nodes f -> samples (K := Rops) d (vec f) (fun _ _ => 0) (fun _ => 1) P (repeat (repeat 1 (vec f)) (num_total_nodes f)).
Proof.
  intros PL. split; [now rewrite repeat_length|]. intros n k Hn Hk. rewrite PL in Hn. rewrite !nth_rep by assumption. unfold affine.
  rewrite (sum_n_zero_ext Rops_ring) by (intros m Hm; exact (Rmult_0_l _)). symmetry. exact (Rplus_0_l _).
Qed.
Section First.
  Variables (eigh : tensor -> (nat -> R) * tensor) (n : nat -> R) (P : list (list Rops)) (f : fe Rops) (el : string).
  Hypothesis EO : eigh_ok 3 eigh.
  Hypothesis BE : built_element el (dim f) f.
  Hypothesis DE : dim f = 2%nat.
  Hypothesis VE : vec f = 2%nat.
  Hypothesis PL : length P = num_total_nodes f.
  Hypothesis N0 : -1 < n 0%nat.
  Hypothesis N1 : -1 < n 1%nat.
  Let ones := repeat (repeat 1 (vec f)) (num_total_nodes f).
  Lemma ones_strained c q : (c < num_cells f)%nat -> get_JxW P f c q <> 0 -> same 2 (strained (diag_of n) P f ones c q) (fun i j => 0 + diag_of n i j + eye_of i j).
  Proof.
    intros Hc NZ i j Hi Hj. destruct BE as (LAG & DIM & MESH & sq & qd & fq & nm & p1 & cl & v & dr & B). unfold strained. change identity with eye_of. apply (f_equal2 Rplus); [|reflexivity]. apply (f_equal2 Rplus); [|reflexivity].
    apply (grad_affine Rops_field _ _ _ _ _ _ _ _ _ _ _ B LAG MESH DIM P PL (fun _ _ => 0) (fun _ => 1) ones c q i j); [exact (ones_samples f P (dim f) PL)|exact Hc|now rewrite VE|now rewrite DE|exact NZ].
  Qed.
  Lemma diag_facts (F : tensor) : same 2 F (fun i j => 0 + diag_of n i j + eye_of i j) -> 0 < det (K := Rops) 2 F /\ swing_cos F = 1 /\ swing_sin F = 0.
  Proof.
    intros H. pose proof (H 0 0 ltac:(lia) ltac:(lia))%nat as H0. pose proof (H 0 1 ltac:(lia) ltac:(lia))%nat as H1. pose proof (H 1 0 ltac:(lia) ltac:(lia))%nat as H2. pose proof (H 1 1 ltac:(lia) ltac:(lia))%nat as H3.
    unfold diag_of, eye_of in H0, H1, H2, H3. cbn [Nat.eqb] in *. rewrite det2_at. unfold swing_cos, swing_sin, swing. rewrite H0, H1, H2, H3.
    assert (E : sqrt ((0 + n 0%nat + 1 + (0 + n 1%nat + 1)) ^ 2 + (0 + 0 + 0 - (0 + 0 + 0)) ^ 2) = n 0%nat + n 1%nat + 2).
    { replace ((0 + n 0%nat + 1 + (0 + n 1%nat + 1)) ^ 2 + (0 + 0 + 0 - (0 + 0 + 0)) ^ 2) with ((n 0%nat + n 1%nat + 2) * (n 0%nat + n 1%nat + 2)) by ring. apply sqrt_square. lra. }
    rewrite E. split; [nra|]. split; field; lra.
  Qed.
  Lemma first_guess c : (c < num_cells f)%nat -> (0 < num_quads f)%nat -> (forall q, (q < num_quads f)%nat -> get_JxW P f c q <> 0) ->
    exists M, nth_error (contact_post eigh (diag_of n) P f ones) c = Some (fun _ => CTen M) /\ same 3 M identity.
  Proof.
    intros Hc Hq NZ. pose proof (fun q H => diag_facts _ (ones_strained c q Hc (NZ q H))) as D. destruct (post_form eigh (diag_of n) P f ones EO c Hc Hq (fun q H => proj1 (D q H))) as (M & E & S & _). exists M. split; [exact E|].
    intros i j Hi Hj. rewrite (S i j Hi Hj). assert (NQ : INR (num_quads f) <> 0) by (apply not_0_INR; lia). unfold average.
    rewrite (Rsum_ext _ (fun q => swing_cos (strained (diag_of n) P f ones c q)) (fun _ => 1)) by (intros q H; apply (D q H)). rewrite (Rsum_ext _ (fun q => swing_sin (strained (diag_of n) P f ones c q)) (fun _ => 0)) by (intros q H; apply (D q H)). rewrite !rsum_const.
    unfold identity. destruct i as [|[|[|i]]]; [| | |lia]; (destruct j as [|[|[|j]]]; [| | |lia]); cbn [spin Nat.eqb]; try reflexivity; req; field; exact NQ.
  Qed.
End First.
