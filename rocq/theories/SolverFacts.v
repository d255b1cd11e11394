(** Facts about the linear back-ends, Newton's start and end, the line search, and AMGX handles. *)
From Coq Require Import String List Arith Lia Bool Reals Lra Permutation.
From Verif Require Import Num Arr ArrFacts Fe Problem AgreeFacts SpecAssembly SolverBc SpecBc XNum PyDict Options OptionsFacts LinSolve Newton
  SpecNewton NewtonFacts ConfigFacts Amgx SpecSolver.
Import ListNotations.

(** ** Checked back-ends *)
Section Checked.
  Context {O : Type}.

  Lemma fold_plus_sum_n n (f : nat -> R) : fold_right Rplus 0%R (map f (seq 0 n)) = sum_n (K := Rops) n f.
  Proof. unfold sum_n, sum_over, sumK. reflexivity. Qed.

  (** the vector A x - b *)
  Lemma residual_vec (A : pmat) x b Ax d : mat_mul_vec A x = Ok Ax -> sub_vec Ax b = Ok d ->
    length x = m_cols A /\ length b = m_rows A /\ length d = m_rows A /\
    forall i, i < m_rows A ->
      nth i d zero = sub (sum_n (m_cols A) (fun j => mul (m_at A i j) (nth j x zero))) (nth i b zero).
  Proof.
    intros H1 H2. apply mat_mul_vec_ok in H1 as (L1 & L2 & H1). unfold sub_vec in H2.
    destruct (Nat.eqb_spec (length Ax) (length b)) as [E|]; [|discriminate]. injection H2 as <-.
    split; [exact L1|]. split; [congruence|]. unfold vsub. split; [rewrite length_map2; lia|].
    intros i Hi. rewrite (nth_map2 _ _ _ _ zero zero) by lia. now rewrite H1.
  Qed.

  Lemma norm_residual A x b Ax d e : mat_mul_vec A x = Ok Ax -> sub_vec Ax b = Ok d ->
    (xnorm d = Fin e <-> linear_residual A x b e).
  Proof.
    intros H1 H2. destruct (residual_vec A x b Ax d H1 H2) as (L1 & L2 & L3 & N). split.
    - intros H. apply xnorm_fin in H as (_ & F & ->). split; [exact L1|]. split; [exact L2|].
      exists (fun i => to_R (nth i d (Fin 0))). split.
      + intros i Hi. rewrite <- N by exact Hi. rewrite Forall_forall in F.
        assert (Fi : isfinite (nth i d (Fin 0)) = true) by (apply F, nth_In; lia).
        apply isfinite_ex in Fi as [r Hr]. change (nth i d (Fin 0) = Fin (to_R (nth i d (Fin 0)))). now rewrite Hr.
      + f_equal. rewrite <- fold_plus_sum_n. f_equal. rewrite map_map.
        transitivity (map (fun x => (to_R x * to_R x)%R) (map (fun i => nth i d (Fin 0)) (seq 0 (length d)))).
        * f_equal. symmetry. exact (map_seq_nth (Fin 0) d).
        * rewrite map_map, L3. reflexivity.
    - intros (_ & _ & c & Hc & ->).
      assert (E : d = map Fin (map c (seq 0 (m_rows A)))).
      { apply (nth_ext _ _ (Fin 0) (Fin 0)); [rewrite !map_length, seq_length; exact L3|]. intros i Hi0. assert (Hi : i < m_rows A) by (rewrite <- L3; exact Hi0).
        rewrite map_map, (nth_map_in _ _ _ 0) by (now rewrite seq_length). rewrite seq_nth by exact Hi.
        exact (eq_trans (N i Hi) (Hc i Hi)). }
      rewrite E, xnorm_Fin. f_equal. f_equal. rewrite map_map. apply fold_plus_sum_n.
  Qed.

  Lemma below_tenth e : xltb e one_tenth = true -> exists r, (e = Fin r \/ e = NInf) /\ (r < / 10)%R.
  Proof.
    destruct e; cbn; try discriminate; intros H.
    - apply Rltb_true in H. exists r. auto.
    - exists 0%R. split; [auto|lra].
  Qed.
  Lemma xnorm_not_ninf l : xnorm l <> NInf.
  Proof. unfold xnorm. destruct (sumK _) as [a| | |]; cbn; try discriminate. now destruct (Rlt_dec a 0). Qed.

  Lemma norm_test d : xltb (xnorm d) one_tenth = true -> exists r, xnorm d = Fin r /\ (r < / 10)%R.
  Proof.
    intros H. destruct (below_tenth _ H) as (r & [E|E] & L); [eauto|]. now apply xnorm_not_ninf in E.
  Qed.
  Lemma linear_residual_sizes A x b e : linear_residual A x b e ->
    exists Ax d, mat_mul_vec A x = Ok Ax /\ sub_vec Ax b = Ok d.
  Proof.
    intros (L1 & L2 & _). unfold mat_mul_vec. rewrite <- Nat.eqb_eq in L1. rewrite L1. eexists. eexists. split; [reflexivity|].
    unfold sub_vec. rewrite map_length, seq_length, L2, Nat.eqb_refl. reflexivity.
  Qed.
  Lemma sizes_residual (A : pmat) (x b : xvec) : length x = m_cols A -> length b = m_rows A ->
    exists Ax d, mat_mul_vec A x = Ok Ax /\ sub_vec Ax b = Ok d.
  Proof.
    intros L1 L2. unfold mat_mul_vec. rewrite <- Nat.eqb_eq in L1. rewrite L1. eexists. eexists. split; [reflexivity|].
    unfold sub_vec. rewrite map_length, seq_length, L2, Nat.eqb_refl. reflexivity.
  Qed.

  Variable B : backends O.
  Lemma jax_checked t A b x0 precond x : jax_solve B t A b x0 precond = Ok x ->
    b_bicgstab B t A b x0 (jax_pc A precond) = Ok x /\ exists e, linear_residual A x b e /\ (e < / 10)%R.
  Proof.
    unfold jax_solve. destruct (b_bicgstab B t A b x0 (jax_pc A precond)) as [y|]; [|discriminate]. cbn [bind].
    destruct (mat_mul_vec A y) as [Ax|] eqn:E1; [|discriminate]. cbn [bind].
    destruct (sub_vec Ax b) as [d|] eqn:E2; [|discriminate]. cbn [bind].
    destruct (xltb (xnorm d) one_tenth) eqn:E; [|discriminate]. intros H. injection H as <-.
    rewrite map_id. split; [reflexivity|]. apply norm_test in E as (r & Hr & L). exists r. split; [|exact L].
    now apply (norm_residual A y b Ax d r E1 E2).
  Qed.
  Lemma jax_raises t A b x0 precond x : b_bicgstab B t A b x0 (jax_pc A precond) = Ok x ->
    length x = m_cols A -> length b = m_rows A ->
    (forall e, linear_residual A x b e -> (/ 10 <= e)%R) -> jax_solve B t A b x0 precond = Err AssertionErr.
  Proof.
    intros H L1 L2 Hn. unfold jax_solve. rewrite H. cbn [bind]. destruct (sizes_residual A x b L1 L2) as (Ax & d & E1 & E2).
    rewrite E1. cbn [bind]. rewrite E2. cbn [bind]. destruct (xltb (xnorm d) one_tenth) eqn:E; [|reflexivity].
    apply norm_test in E as (r & Hr & L). apply (norm_residual A x b Ax d r E1 E2) in Hr. apply Hn in Hr. lra.
  Qed.
  Lemma jax_accepts t A b x0 precond x e : b_bicgstab B t A b x0 (jax_pc A precond) = Ok x ->
    linear_residual A x b e -> (e < / 10)%R -> jax_solve B t A b x0 precond = Ok x.
  Proof.
    intros H R L. unfold jax_solve. rewrite H. cbn [bind]. destruct (linear_residual_sizes A x b e R) as (Ax & d & E1 & E2).
    rewrite E1. cbn [bind]. rewrite E2. cbn [bind]. apply (norm_residual A x b Ax d e E1 E2) in R. rewrite R.
    cbn [xltb one_tenth]. apply Rltb_true in L. rewrite L. now rewrite map_id.
  Qed.

  Lemma petsc_checked t A b ksp pc x : petsc_solve B t A b ksp pc = Ok x ->
    exists e, linear_residual A x b e /\ (e < / 10)%R.
  Proof.
    unfold petsc_solve. cbv zeta. destruct (b_ksp B t ksp pc _ A b _) as [[u|] y]; [|discriminate]. cbn [bind].
    destruct (mat_mul_vec A y) as [Ax|] eqn:E1; [|discriminate]. cbn [bind].
    destruct (sub_vec Ax b) as [d|] eqn:E2; [|discriminate]. cbn [bind].
    destruct (xltb (xnorm d) one_tenth) eqn:E; [|discriminate]. intros H. injection H as <-.
    apply norm_test in E as (r & Hr & L). exists r. split; [|exact L].
    now apply (norm_residual A y b Ax d r E1 E2).
  Qed.
  Lemma petsc_raises t A b ksp pc x : 
    (forall m, b_ksp B t ksp pc m A b (zeros (length b)) = (Ok tt, x)) ->
    length x = m_cols A -> length b = m_rows A ->
    (forall e, linear_residual A x b e -> (/ 10 <= e)%R) -> petsc_solve B t A b ksp pc = Err AssertionErr.
  Proof.
    intros H L1 L2 Hn. unfold petsc_solve. cbv zeta. rewrite H. cbn [bind]. destruct (sizes_residual A x b L1 L2) as (Ax & d & E1 & E2).
    rewrite E1. cbn [bind]. rewrite E2. cbn [bind]. destruct (xltb (xnorm d) one_tenth) eqn:E; [|reflexivity].
    apply norm_test in E as (r & Hr & L). apply (norm_residual A x b Ax d r E1 E2) in Hr. apply Hn in Hr. lra.
  Qed.
  Lemma petsc_accepts t A b ksp pc x e : 
    (forall m, b_ksp B t ksp pc m A b (zeros (length b)) = (Ok tt, x)) ->
    linear_residual A x b e -> (e < / 10)%R -> petsc_solve B t A b ksp pc = Ok x.
  Proof.
    intros H R L. unfold petsc_solve. cbv zeta. rewrite H. cbn [bind]. destruct (linear_residual_sizes A x b e R) as (Ax & d & E1 & E2).
    rewrite E1. cbn [bind]. rewrite E2. cbn [bind]. apply (norm_residual A x b Ax d e E1 E2) in R. rewrite R.
    cbn [xltb one_tenth]. apply Rltb_true in L. now rewrite L.
  Qed.
End Checked.

(** ** Selection *)
Section Select.
  Context {O : Type}.
  Local Open Scope string_scope.
  Variable B : backends O.

  Lemma sharing lo sys : solves_sharing B (with_default lo) sys = solves_fresh B lo sys.
  Proof.
    induction sys as [|[[[t A] b] x0] sys IH]; [reflexivity|]. cbn [solves_sharing solves_fresh map].
    unfold linear_solver at 1, linear_dispatch. cbv zeta. rewrite with_default_idem. cbn [snd linear_solver].
    f_equal. fold (solves_fresh B lo sys). exact IH.
  Qed.
  Lemma sharing_fresh lo sys : solves_sharing B lo sys = solves_fresh B lo sys.
  Proof.
    destruct sys as [|[[[t A] b] x0] sys]; [reflexivity|]. cbn [solves_sharing solves_fresh map].
    unfold linear_solver at 1, linear_dispatch. cbv zeta. cbn [snd]. f_equal. apply sharing.
  Qed.
End Select.

Section Select2.
  Context {O : Type}.
  Local Open Scope string_scope.
  Lemma default_present (lo : dict O) k v : In k LINEAR_OPTION_KEYS -> lookup lo k = Some v -> with_default lo = lo.
  Proof. intros Hk Hl. eapply with_default_some; [exact Hk|congruence]. Qed.
  Lemma selection (B : backends O) t A b x0 (lo : dict O) :
    let run := snd (linear_solver B t A b x0 lo) in
    let absent k := lookup lo k = None in
    (forall s, lookup lo "jax_solver" = Some (VDict s) ->
       run = jax_solve B t A b x0 (get_default s "precond" (VBool true))) /\
    (forall s, absent "jax_solver" -> lookup lo "amgx_solver" = Some (VDict s) ->
       run = AMGX_solve B t A b x0 (get_default s "cfg_path" VNone)) /\
    (forall v, absent "jax_solver" -> absent "amgx_solver" -> lookup lo "spsolve_solver" = Some v ->
       run = scipy_spsolve B t A b) /\
    (forall s, absent "jax_solver" -> absent "amgx_solver" -> absent "spsolve_solver" ->
       lookup lo "petsc_solver" = Some (VDict s) ->
       run = petsc_solve B t A b (get_default s "ksp_type" (VStr "bcgsl")) (get_default s "pc_type" (VStr "ilu"))) /\
    (forall f, absent "jax_solver" -> absent "amgx_solver" -> absent "spsolve_solver" -> absent "petsc_solver" ->
       lookup lo "custom_solver" = Some f -> run = b_custom B t f A b x0 lo) /\
    (absent "jax_solver" -> absent "amgx_solver" -> absent "spsolve_solver" -> absent "petsc_solver" ->
       absent "custom_solver" -> run = jax_solve B t A b x0 (VBool true)).
  Proof.
    cbv zeta. unfold linear_solver, linear_dispatch. cbv zeta. cbn [snd]. unfold choose.
    repeat match goal with |- _ /\ _ => split end; intros;
      try match goal with H : lookup lo ?k = Some ?v |- _ => rewrite (default_present lo k v) by (assumption || (cbn; tauto)) end;
      try (repeat match goal with H : lookup lo ?k = _ |- context [lookup lo ?k] => rewrite H end; reflexivity).
    unfold sub_get. rewrite with_default_none; [|intros k [<-|[<-|[<-|[<-|[<-|[]]]]]]; assumption].
    rewrite !lookup_dset. reflexivity.
  Qed.
  Lemma dict_after (B : backends O) t A b x0 (lo : dict O) :
    let lo' := fst (linear_solver B t A b x0 lo) in
    (forall k, k <> "jax_solver" -> lookup lo' k = lookup lo k) /\
    ((exists k, In k LINEAR_OPTION_KEYS /\ lookup lo k <> None) -> lo' = lo) /\
    ((forall k, In k LINEAR_OPTION_KEYS -> lookup lo k = None) -> lookup lo' "jax_solver" = Some (VDict [])).
  Proof.
    cbv zeta. unfold linear_solver, linear_dispatch. cbv zeta. cbn [fst]. split; [|split].
    - intros k Hk. unfold with_default. destruct (existsb _ _); [reflexivity|]. rewrite lookup_dset.
      destruct (k =? "jax_solver")%string eqn:E; [apply String.eqb_eq in E; contradiction|reflexivity].
    - intros (k & Hk & Hl). eapply with_default_some; eassumption.
    - intros H. rewrite with_default_none by exact H. now rewrite lookup_dset.
  Qed.
  Lemma default_sticks (B : backends O) t A b x0 (lo : dict O) :
    (forall k, In k LINEAR_OPTION_KEYS -> lookup lo k = None) ->
    forall k v, In k LINEAR_OPTION_KEYS -> k <> "jax_solver" ->
    forall t' A' b' x0',
      snd (linear_solver B t' A' b' x0' (dset (fst (linear_solver B t A b x0 lo)) k v)) = jax_solve B t' A' b' x0' (VBool true).
  Proof.
    intros H k v Hk Hj t' A' b' x0'.
    destruct (dict_after B t A b x0 lo) as (_ & _ & D). specialize (D H).
    destruct (selection B t' A' b' x0' (dset (fst (linear_solver B t A b x0 lo)) k v)) as (S & _).
    apply (S []). rewrite lookup_dset. destruct ("jax_solver" =? k)%string eqn:E; [apply String.eqb_eq in E; congruence|exact D].
  Qed.
End Select2.

(** ** Line search *)
Section Line.
  Context {O V : Type}.
  Variable p : problem Xops V.
  Variable pts : list (list (list Xops)).

  Lemma res_norm_residual dofs inc alpha N : res_norm_fn p pts dofs inc alpha = Ok N ->
    length dofs = length inc /\
    exists r, newton_residual p pts None (vadd dofs (vscale (alpha : Xops) inc)) r /\ N = xnorm r.
  Proof.
    unfold res_norm_fn, add_vec. unfold vscale at 1. rewrite map_length.
    destruct (Nat.eqb_spec (length dofs) (length inc)) as [L|]; [|discriminate]. cbn [bind]. split; [exact L|].
    unfold bc_residual in H. destruct (unflatten p _) as [sol|] eqn:E; [|discriminate]. cbn [bind] in H.
    apply unflatten_ok in E as [Lu ->]. destruct (compute_residual _ _ _ _) as [res|] eqn:E; [|discriminate].
    cbn [bind] in H. injection H as <-. eexists. split; [|reflexivity]. unfold newton_residual. cbn [full_dofs].
    eauto 10.
  Qed.

  Lemma xgtb_le x y z : isnan x = false -> isnan y = false -> xleb y z = true -> xgtb x y = false -> xleb x z = true.
  Proof.
    destruct x as [a| | |], y as [b| | |], z as [c| | |]; cbn; try discriminate; auto; unfold xleb, xgtb; cbn [xltb xeqb orb];
      try discriminate; auto.
    intros _ _ H1 H2. apply Rltb_false in H2. apply orb_true_iff. apply orb_true_iff in H1.
    rewrite Rltb_true, Reqb_true in *. lra.
  Qed.
  Lemma chain (N : nat -> xr) m : (forall i, i <= m -> isnan (N i) = false) ->
    (forall i, i < m -> xgtb (N (S i)) (N i) = false) -> forall i, i <= m -> xleb (N m) (N i) = true.
  Proof.
    intros F G. assert (Q : forall k i, i + k <= m -> xleb (N (i + k)) (N i) = true).
    { induction k as [|k IH]; intros i H.
      - rewrite Nat.add_0_r. specialize (F i). destruct (N i) as [r| | |]; cbn; try reflexivity.
        + unfold xleb. cbn. apply orb_true_iff. right. now apply Reqb_true.
        + specialize (F ltac:(lia)). discriminate.
      - rewrite Nat.add_succ_r. apply (xgtb_le _ (N (i + k))); try (apply F; lia).
        + apply IH. lia.
        + apply G. lia. }
    intros i Hi. specialize (Q (m - i) i). replace (i + (m - i)) with m in Q by lia. apply Q. lia.
  Qed.

  Lemma line_search_spec dofs inc d : line_search p pts dofs inc = Ok d ->
    exists m N, m <= 3 /\ d = vadd dofs (vscale (Fin (/ 2 ^ m) : Xops) inc) /\
      (forall i, i <= m -> exists r, newton_residual p pts None (vadd dofs (vscale (Fin (/ 2 ^ i) : Xops) inc)) r /\ N i = xnorm r) /\
      ((forall i, i <= m -> isnan (N i) = false) -> forall i, i <= m -> xleb (N m) (N i) = true) /\
      (m < 3 -> exists r, newton_residual p pts None (vadd dofs (vscale (Fin (/ 2 ^ S m) : Xops) inc)) r /\
                  xgtb (xnorm r) (N m) = true).
  Proof.
    unfold line_search. intros H.
    destruct (res_norm_fn p pts dofs inc (Fin 1)) as [r1|] eqn:E1; [|discriminate]. cbn [bind] in H.
    destruct (halve (res_norm_fn p pts dofs inc) 3 (Fin 1) r1) as [a|] eqn:Eh; [|discriminate]. cbn [bind] in H.
    assert (E0 : Fin 1 = Fin (/ 2 ^ 0)) by (f_equal; cbn; lra). rewrite E0 in E1, Eh.
    destruct (halve_spec (res_norm_fn p pts dofs inc) 3 0 r1 a E1 Eh) as (m & N & Hm & -> & H1 & H2 & H3).
    exists m, N. split; [lia|]. split.
    - unfold add_vec in H. destruct (_ =? _) in H; [|discriminate]. now injection H.
    - split; [|split].
      + intros i Hi. specialize (H1 i ltac:(lia)). apply res_norm_residual in H1 as (_ & r & Hr & ->). eauto.
      + intros F. apply chain; [exact F|]. intros i Hi. apply H2. lia.
      + intros Hlt. destruct (H3 ltac:(lia)) as (h & Hh & G). apply res_norm_residual in Hh as (_ & r & Hr & ->). eauto.
  Qed.
End Line.

(** ** Newton: start and end *)
Section NewtonEnds.
  Context {O V : Type}.
  Variable ravel_obj : O -> list Xops.
  Variable B : backends O.
  Variable jvp : (list Xops -> list Xops) -> list Xops -> list Xops -> list Xops.
  Variable p : problem Xops V.
  Variable pts : list (list (list Xops)).
  Variable P_mat : option pmat.

  Lemma list_ext_nth (l l' : list Xops) n (f : nat -> Xops) : length l = n -> length l' = n ->
    (forall i, i < n -> nth i l zero = f i) -> (forall i, i < n -> nth i l' zero = f i) -> l = l'.
  Proof.
    intros L1 L2 H1 H2. apply (nth_ext _ _ zero zero); [congruence|]. intros i Hi. rewrite H1, H2 by lia. reflexivity.
  Qed.
  Lemma full_dofs_fun d u u' : full_dofs P_mat d u -> full_dofs P_mat d u' -> u = u'.
  Proof.
    unfold full_dofs. destruct P_mat as [P|]; [|congruence]. intros (_ & L & H) (_ & L' & H').
    eapply list_ext_nth; [exact L|exact L'|exact H|exact H'].
  Qed.
  Lemma newton_residual_fun d r r' : newton_residual p pts P_mat d r -> newton_residual p pts P_mat d r' -> r = r'.
  Proof.
    intros (u & res & Hu & _ & Hres & H) (u' & res' & Hu' & _ & Hres' & H').
    rewrite (full_dofs_fun d u' u Hu' Hu) in *. rewrite Hres in Hres'. injection Hres' as <-. cbv zeta in H, H'.
    destruct P_mat as [P|]; [|congruence]. destruct H as (_ & L & H), H' as (_ & L' & H').
    eapply list_ext_nth; [exact L|exact L'|exact H|exact H'].
  Qed.
  Lemma mat_mul_vec_total (A : pmat) x : length x = m_cols A -> exists y, mat_mul_vec A x = Ok y.
  Proof. intros L. unfold mat_mul_vec. rewrite L, Nat.eqb_refl. eauto. Qed.
  Lemma helper_total d r : newton_residual p pts P_mat d r -> exists A, newton_update_helper jvp p pts P_mat d = Ok (r, A).
  Proof.
    intros H. pose proof H as H0. destruct H0 as (u & res & Hu & Lu & Hres & Hr).
    destruct (newton_update_helper jvp p pts P_mat d) as [[r' A]|e] eqn:E.
    - apply helper_ok in E. exists A. now rewrite (newton_residual_fun d r r' H E).
    - exfalso. revert E. unfold newton_update_helper.
      assert (Ed : match P_mat with Some P => mat_mul_vec P d | None => Ok d end = Ok u).
      { destruct P_mat as [P|] eqn:EP; [|now rewrite Hu]. destruct Hu as (L1 & L2 & Hn).
        destruct (mat_mul_vec_total P d L1) as [y Hy]. rewrite Hy. f_equal. apply mat_mul_vec_ok in Hy as (_ & L3 & Hy).
        eapply list_ext_nth; [exact L3|exact L2|exact Hy|exact Hn]. }
      rewrite Ed. cbn [bind]. unfold unflatten. rewrite Lu, Nat.eqb_refl. cbn [bind].
      pose proof (newton_agrees jvp xsqrt p pts (unravel (sol_shapes p) u)) as AG. rewrite Hres in AG. unfold rmap in AG.
      destruct (newton_update jvp xsqrt p pts _) as [[rl W]|]; [|discriminate]. cbn [fst] in AG. injection AG as ->.
      cbn [bind fst snd]. destruct P_mat as [P|]; [|discriminate]. cbv zeta in Hr. destruct Hr as (L1 & _ & _).
      destruct (mat_mul_vec_total (mat_T P) (apply_bc_vec (ravel rl) u p one)) as [y Hy]; [exact L1|]. rewrite Hy. discriminate.
  Qed.
  Lemma starts_from_ok cfg d : starts_from ravel_obj p P_mat cfg d -> initial_dofs ravel_obj p P_mat cfg = Ok d.
  Proof.
    unfold starts_from, initial_dofs. destruct (lookup cfg _).
    - intros (o & -> & ->). reflexivity.
    - intros ->. unfold zeros. now destruct P_mat.
  Qed.
  Lemma option_value_num (cfg : dict O) k dflt x : option_value cfg k dflt x -> num_option cfg k (Fin dflt) = Ok (Fin x).
  Proof. unfold option_value, num_option. destruct (lookup cfg k); [intros [->|(z & -> & ->)]|intros ->]; reflexivity. Qed.

  (** a start that already meets the tolerance *)
  Lemma start_good fuel cfg d0 u0 r0v t rt r0 :
    option_value cfg "tol" (/ 10 ^ 6) t -> option_value cfg "rel_tol" (/ 10 ^ 8) rt ->
    starts_from ravel_obj p P_mat cfg d0 -> newton_residual p pts P_mat d0 r0v ->
    xnorm r0v = Fin r0 -> (r0 <= t \/ 1 <= rt \/ r0 = 0)%R ->
    full_dofs P_mat d0 u0 -> Forall (fun x => isfinite x = true) d0 ->
    solve_newton ravel_obj B jvp p pts P_mat fuel cfg = Done (Ok (mkOut (unravel (sol_shapes p) u0) 0 cfg)).
  Proof.
    intros Ht Hrt Hs Hr Hr0 Hc Hu Hf. unfold solve_newton. rewrite (starts_from_ok cfg d0 Hs).
    destruct (helper_total d0 r0v Hr) as [A0 Eh]. rewrite Eh.
    rewrite (option_value_num _ _ _ _ Hrt), (option_value_num _ _ _ _ Ht).
    assert (K0 : keeps_going (Fin rt) (Fin t) (xnorm r0v) (xnorm r0v) = false).
    { rewrite Hr0. unfold keeps_going, xgtb. cbn [xdiv]. destruct (Req_EM_T r0 0) as [E|N].
      - subst. unfold inf_sign. destruct (Rlt_dec 0 0); [lra|]. reflexivity.
      - cbn [xltb]. destruct Hc as [Hc|[Hc|Hc]]; [| |contradiction].
        + apply andb_false_iff. right. now apply Rltb_false.
        + apply andb_false_iff. left. apply Rltb_false. unfold Rdiv. rewrite Rinv_r by exact N. exact Hc. }
    assert (E : newton_finish p P_mat (mkState d0 r0v A0 0 cfg) = Ok (mkOut (unravel (sol_shapes p) u0) 0 cfg)).
    { unfold newton_finish. cbn [st_res st_dofs st_iters st_cfg]. rewrite Hr0. cbn [isfinite negb].
      assert (Fb : forallb isfinite d0 = true) by (apply forallb_forall; rewrite Forall_forall in Hf; exact Hf).
      rewrite Fb. cbn [negb]. destruct Hr as (u & res & Hu' & Lu & _). rewrite (full_dofs_fun d0 u0 u Hu Hu').
      assert (Ed : match P_mat with Some P => mat_mul_vec P d0 | None => Ok d0 end = Ok u).
      { destruct P_mat as [P|] eqn:EP; [|now rewrite Hu']. destruct Hu' as (L1 & L2 & Hn).
        destruct (mat_mul_vec_total P d0 L1) as [y Hy]. rewrite Hy. f_equal. apply mat_mul_vec_ok in Hy as (_ & L3 & Hy).
        eapply list_ext_nth; [exact L3|exact L2|exact Hy|exact Hn]. }
      rewrite Ed. cbn [bind]. unfold unflatten. rewrite Lu, Nat.eqb_refl. reflexivity. }
    destruct fuel; cbn [newton_loop st_res]; rewrite K0; now rewrite E.
  Qed.
  (** a start whose residual is not finite *)
  Lemma start_bad fuel cfg d0 r0v t rt :
    option_value cfg "tol" (/ 10 ^ 6) t -> option_value cfg "rel_tol" (/ 10 ^ 8) rt ->
    starts_from ravel_obj p P_mat cfg d0 -> newton_residual p pts P_mat d0 r0v -> isfinite (xnorm r0v) = false ->
    solve_newton ravel_obj B jvp p pts P_mat fuel cfg = Done (Err AssertionErr).
  Proof.
    intros Ht Hrt Hs Hr F. destruct (helper_total d0 r0v Hr) as [A0 Eh].
    eapply newton_start_bad; [exact (starts_from_ok cfg d0 Hs)|exact Eh|exact (option_value_num _ _ _ _ Hrt)|exact (option_value_num _ _ _ _ Ht)|exact F].
  Qed.
  (** a NaN residual at any iterate ends the loop and raises *)
  Lemma nan_raises fuel rel tol res0 st : isnan (xnorm (st_res st)) = true ->
    newton_loop B jvp p pts P_mat fuel rel tol res0 st = Done (Ok st) /\ newton_finish p P_mat st = Err AssertionErr.
  Proof.
    intros H. destruct (xnorm (st_res st)) eqn:E; try discriminate. split.
    - destruct fuel; cbn [newton_loop]; rewrite E; unfold keeps_going, xgtb; cbn [xdiv];
        destruct res0; cbn [xdiv]; destruct rel; reflexivity.
    - unfold newton_finish. now rewrite E.
  Qed.
End NewtonEnds.

Lemma bc_to_tolerance {O V : Type} ravel_obj (B : backends O) jvp (p : problem Xops V) pts kf :
  wf_problem p -> 0 < p_num_cells p -> ivs_ok p -> kernels_ok p kf -> bcs_ok p ->
  forall fuel cfg out t rt,
  option_value cfg "tol" (/ 10 ^ 6) t -> option_value cfg "rel_tol" (/ 10 ^ 8) rt ->
  solve_newton ravel_obj B jvp p pts None fuel cfg = Done (Ok out) ->
  exists d0 r0v r0 r, starts_from ravel_obj p None cfg d0 /\ newton_residual p pts None d0 r0v /\ xnorm r0v = Fin r0 /\
    (r <= Rmax t (rt * r0))%R /\
    forall v n j b, valid_dof (global_shapes p) v n j -> prescribed (fe_of p v) n j = Some b ->
      exists u c, get2 (Fin 0) (nth v (out_sol out) []) n j = Fin u /\ b = Fin c /\ (Rabs (u - c) <= r)%R.
Proof.
  intros WF NC IVS KER BC fuel cfg out t rt Ht Hrt H.
  destruct (newton_contract ravel_obj B jvp p pts None fuel cfg out t rt Ht Hrt H)
    as (d0 & r0v & r0 & d & rv & r & u & H1 & H2 & H3 & H4 & H5 & H6 & H7 & H8 & H9 & H10).
  exists d0, r0v, r0, r. repeat (split; [assumption|]). split.
  - destruct H10 as [L|L]; [pose proof (Rmax_l t (rt * r0))|pose proof (Rmax_r t (rt * r0))]; lra.
  - intros v n j b Hv Hb. rewrite H8. cbn [full_dofs] in H6. subst u.
    eapply bc_within; eassumption.
Qed.

(** ** AMGX handles *)
Section AmgxFacts.
  Variable api : amgx_step -> result unit.
  Lemma host_released destroy : (forall h, destroy h = Ok tt) ->
    let '(ev, r) := AMGX_solve_host api destroy in
    ev = (map Created (creations ev) ++ map Destroyed (destructions ev))%list /\
    destructions ev = rev (creations ev) /\ NoDup (creations ev) /\
    (r = Ok tt <-> forall s, In s amgx_body -> api s = Ok tt) /\
    (forall e, r = Err e -> exists s, In s amgx_body /\ api s = Err e).
  Proof.
    intros D. unfold AMGX_solve_host, amgx_body. cbn [run_body].
    repeat match goal with
    | |- context [match api ?s with Ok _ => _ | Err _ => _ end] =>
        let E := fresh "E" in destruct (api s) as [[]|] eqn:E;
        [|cbn; rewrite ?D; cbn; split; [reflexivity|split; [reflexivity|split;
            [repeat constructor; cbn; intuition discriminate|split; [split; [discriminate|intros H; rewrite H in E by (cbn; tauto); discriminate]
            |intros e' Ee; injection Ee as <-; eexists; split; [|exact E]; cbn; tauto]]]]]
    end.
    cbn. rewrite ?D. cbn. split; [reflexivity|split; [reflexivity|split;
            [repeat constructor; cbn; intuition discriminate|split; [|discriminate]]]].
    split; [|reflexivity]. intros _ s H. repeat (destruct H as [<-|H]; [assumption|]). destruct H.
  Qed.
  Lemma fin_first destroy live hs : forall l1 h l2 e, filter (fun h => existsb (handle_eqb h) live) hs = (l1 ++ h :: l2)%list ->
    (forall h', In h' l1 -> destroy h' = Ok tt) -> destroy h = Err e -> run_finally destroy live hs = (map Destroyed l1, Err e).
  Proof.
    induction hs as [|a hs IH]; intros l1 h l2 e F O D; cbn [filter run_finally] in *; [destruct l1; discriminate|].
    destruct (existsb (handle_eqb a) live); [|now apply (IH l1 h l2)]. destruct l1 as [|b l1]; cbn [app] in F; injection F as -> F.
    - now rewrite D.
    - rewrite (O b (or_introl eq_refl)), (IH l1 h l2 e F (fun h' H => O h' (or_intror H)) D). reflexivity.
  Qed.
  Lemma fin_events destroy live hs : exists l, fst (run_finally destroy live hs) = map Destroyed l.
  Proof.
    induction hs as [|a hs [l IH]]; cbn [run_finally]; [now exists []|]. destruct (existsb (handle_eqb a) live); [|now exists l].
    destruct (destroy a); [|now exists []]. destruct (run_finally destroy live hs). cbn [fst] in *. exists (a :: l). cbn. now rewrite IH.
  Qed.
  Lemma dest_only l : creations ([] ++ map Destroyed l) = [] /\ destructions ([] ++ map Destroyed l) = l.
  Proof.
    induction l as [|a l [I1 I2]]; [split; reflexivity|]. split; [exact I1|]. change (destructions ([] ++ map Destroyed (a :: l))) with (a :: destructions ([] ++ map Destroyed l)). now rewrite I2.
  Qed.
  Lemma body_live steps : forall live ev r, run_body api steps = (live, ev, r) -> forall l, creations (ev ++ map Destroyed l) = live /\ destructions (ev ++ map Destroyed l) = l.
  Proof.
    induction steps as [|s steps IH]; intros live ev r E l; cbn [run_body] in E.
    - injection E as <- <- <-. apply dest_only.
    - destruct (api s); [|injection E as <- <- <-; apply dest_only].
      destruct (run_body api steps) as [[live' ev'] r'] eqn:B. destruct (IH live' ev' r' eq_refl l) as [C D].
      destruct s; injection E as <- <- <-; (split; [|exact D]); try exact C. change (h :: creations (ev' ++ map Destroyed l) = h :: live'). now rewrite C.
  Qed.
  Lemma body_order live ev r : run_body api amgx_body = (live, ev, r) -> filter (fun h => existsb (handle_eqb h) live) amgx_finally = rev live.
  Proof.
    unfold amgx_body. cbn [run_body]. repeat match goal with |- context [match api ?s with Ok _ => _ | Err _ => _ end] => destruct (api s) as [[]|]; [|intros E; injection E as <- <- <-; reflexivity] end.
    intros E; injection E as <- <- <-; reflexivity.
  Qed.
  Lemma host_errors destroy : let '(ev, r) := AMGX_solve_host api destroy in
    forall l1 h l2 e, rev (creations ev) = (l1 ++ h :: l2)%list -> (forall h', In h' l1 -> destroy h' = Ok tt) -> destroy h = Err e -> r = Err e /\ destructions ev = l1.
  Proof.
    unfold AMGX_solve_host. destruct (run_body api amgx_body) as [[live ev] r] eqn:B. destruct (run_finally destroy live amgx_finally) as [ev' r'] eqn:F.
    intros l1 h l2 e R O D. destruct (fin_events destroy live amgx_finally) as [l L]. rewrite F in L. cbn [fst] in L. subst ev'.
    destruct (body_live _ _ _ _ B l) as [C C']. rewrite C, <- (body_order _ _ _ B) in R. pose proof (fin_first destroy live amgx_finally l1 h l2 e R O D) as X. rewrite F in X.
    injection X as X ->. split; [reflexivity|]. rewrite C'. clear -X. revert l1 X. induction l as [|a l IH]; intros [|b l1] X; try discriminate; [reflexivity|]. injection X as -> X. f_equal. now apply IH.
  Qed.
End AmgxFacts.
