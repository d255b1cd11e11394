(** Proofs for C78: the wave kernel is the weak form; energy of the implicit scheme. *)
From Coq Require Import Reals List Arith Lia Lra Bool.
From Verif Require Import Num Arr ArrFacts Fe Problem SpecAssembly SpecBc ProblemFacts FeFacts AgreeFacts SpecWeak KernelFacts SpecEnergy EnergyFacts ElasticFacts
  UniversalFacts Wave SpecWave.
Import ListNotations.

Lemma map2_app {A B C} (g : A -> B -> C) l1 l2 m1 m2 : length l1 = length m1 -> map2 g (l1 ++ l2) (m1 ++ m2) = map2 g l1 m1 ++ map2 g l2 m2.
Proof. revert m1. induction l1 as [|x l1 IH]; intros [|y m1] L; try discriminate; [reflexivity|]. cbn. f_equal. apply IH. now injection L. Qed.
Lemma map2_map_same {A B C D} (g : B -> C -> D) (F : A -> B) (G : A -> C) l : map2 g (map F l) (map G l) = map (fun x => g (F x) (G x)) l.
Proof. induction l as [|x l IH]; [reflexivity|]. cbn. f_equal. exact IH. Qed.
Lemma map2_table {A B C} (g : A -> B -> C) (F : nat -> nat -> A) (G : nat -> nat -> B) l m :
  map2 g (flat_map (fun a => map (F a) m) l) (flat_map (fun a => map (G a) m) l) = flat_map (fun a => map (fun k => g (F a k) (G a k)) m) l.
Proof.
  induction l as [|a l IH]; [reflexivity|]. cbn [flat_map]. rewrite map2_app by now rewrite !map_length. rewrite map2_map_same. now rewrite IH.
Qed.

Section Weak.
  Context {K : ops} (KR : ring_laws K).
  Open Scope num_scope.
  Let Kth : ring_theory (@zero K) one add mul sub opp eq := KR.
  Add Ring KringWv : Kth.
  Variables (c dt : K).
  Definition wave_tm (G : nat -> nat -> K) (iv : list (nat -> K)) (k j : nat) : K := c * c * (dt * dt) * G k j.
  Definition wave_mm (u x : nat -> K) (iv : list (nat -> K)) (k : nat) : K := u k - ((1 + 1) * nth 1 iv (fun _ => 0) k - nth 0 iv (fun _ => 0) k).
  Definition std_maps : user_maps K (nat -> K) := mkMaps (Some wave_tm) (Some wave_mm) None None None.
  Definition as_std (p : problem K (nat -> K)) : problem K (nat -> K) :=
    mkProblem (fes p) (boundary_inds_list p) std_maps (internal_vars p) (internal_vars_surfaces p).

  Lemma sum_n_sub n (a b : nat -> K) : sum_n n (fun i => a i - b i) = sum_n n a - sum_n n b.
  Proof.
    transitivity (sum_n n a + (- (1)) * sum_n n b); [|ring]. rewrite <- (sum_n_mul_l KR), <- (FeFacts.sum_n_add KR). apply sum_n_ext. intros; ring.
  Qed.
  Lemma at_quad_internal (ivs : list (nat -> nat -> K)) n q k : nth n (at_quad ivs q) (fun _ => 0) k = internal ivs n q k.
  Proof.
    unfold at_quad, internal. destruct (Nat.lt_ge_cases n (length ivs)) as [H|H].
    - rewrite (nth_map_in _ _ _ (fun _ _ => 0)) by auto. reflexivity.
    - rewrite !nth_overflow by (try rewrite map_length; auto). reflexivity.
  Qed.
  Lemma wave_cell (f : fe K) (ivs : list (list (nat -> nat -> K))) ci :
    kernel_cell (mkProblem [f] [] (wave_maps c dt [f]) ivs []) ci = kernel_cell (mkProblem [f] [] std_maps ivs []) ci.
  Proof.
    unfold kernel_cell. cbn [maps wave_maps std_maps mass_map tensor_map universal_kernel option_map badd unscalar].
    unfold wave_kernel, laplace_kernel, mass_kernel, fe0. cbn [fes hd]. cbv zeta.
    rewrite map2_table. apply flat_map_ext_in. intros a _. apply map_ext. intros k.
    unfold cell_sol0, dof_shapes, nodes_from, num_nodes_cumsum. cbn [fes map firstn fold_right Nat.add].
    unfold wave_tm, wave_mm. 
    assert (A1 : forall A B C : K, A + B - C = A + (B - C)) by (intros; ring). rewrite A1. f_equal.
    rewrite <- sum_n_sub. apply sum_n_ext. intros q Hq. rewrite !at_quad_internal. ring.
  Qed.
  Lemma as_std_residual sqrtK (p : problem K (nat -> K)) f pts sol : wave_problem c dt p f ->
    compute_residual sqrtK p pts sol = compute_residual sqrtK (as_std p) pts sol.
  Proof.
    intros (F & B & IS & M). destruct p as [fs bi m ivs ivss]. cbn in F, B, IS, M. subst fs bi ivss m. unfold as_std. cbn [fes boundary_inds_list internal_vars internal_vars_surfaces].
    apply same_residual; [apply wave_cell|]. intros s fi. reflexivity.
  Qed.
  Lemma as_std_newton jvp sqrtK (p : problem K (nat -> K)) f pts sol : wave_problem c dt p f ->
    newton_update jvp sqrtK p pts sol = newton_update jvp sqrtK (as_std p) pts sol.
  Proof.
    intros (F & B & IS & M). destruct p as [fs bi m ivs ivss]. cbn in F, B, IS, M. subst fs bi ivss m. unfold as_std. cbn [fes boundary_inds_list internal_vars internal_vars_surfaces].
    apply same_newton; [apply wave_cell|]. intros s fi. reflexivity.
  Qed.
  Lemma as_std_std p f : wave_problem c dt p f -> standard_problem (as_std p) f.
  Proof. intros (F & B & IS & M). repeat split; auto. left. discriminate. Qed.
  Lemma as_std_maps p f : wave_problem c dt p f -> maps_ok (vec f) (dim f) (maps (as_std p)).
  Proof.
    intros _. split; [|split].
    - intros tm E. injection E as <-. intros g g' iv H k j Hk Hj. unfold wave_tm. now rewrite H.
    - intros mm E. injection E as <-. intros u u' x x' iv H _ k Hk. unfold wave_mm. now rewrite H.
    - intros sms sm E. discriminate.
  Qed.
  Lemma as_std_wf p f : wave_problem c dt p f -> wf_problem p -> wf_problem (as_std p).
  Proof. intros _ [A B C D]. constructor; auto. Qed.
End Weak.

Section Step.
  Context {K : ops} (KR : ring_laws K).
  Open Scope num_scope.
  Let Kth : ring_theory (@zero K) one add mul sub opp eq := KR.
  Add Ring KringWs : Kth.
  Variables (sqrtK : K -> K) (c dt : K) (p : problem K (nat -> K)) (f : fe K) (P : list (list K)).
  Hypothesis WP : wave_problem c dt p f.
  Hypothesis WF : wf_problem p.
  Hypothesis NC : (0 < p_num_cells p)%nat.

  Lemma wave_fe0 : fe0 p = f. Proof. unfold fe0. now rewrite (proj1 WP). Qed.
  Lemma wave_nc : p_num_cells p = num_cells f. Proof. unfold p_num_cells. now rewrite wave_fe0. Qed.
  Definition stepped (w u : list (list K)) : problem K (nat -> K) :=
    mkProblem [f] [] (wave_maps c dt [f])
      [map (fun e q => convert_from_dof_to_quad f w e q) (seq 0 (num_cells f)); map (fun e q => convert_from_dof_to_quad f u e q) (seq 0 (num_cells f))] [].
  Lemma set_params_ok w u : set_params p w u = Ok (stepped w u).
  Proof. unfold set_params. destruct WP as (F & B & IS & M). rewrite F, B, IS, M. reflexivity. Qed.
  Lemma stepped_wave w u : wave_problem c dt (stepped w u) f.
  Proof. repeat split. Qed.
  Lemma stepped_wf w u : wf_problem (stepped w u).
  Proof.
    destruct WF as [A B C D]. destruct WP as (F & BI & IS & M). rewrite F in *. constructor; cbn.
    - intros g Hg. rewrite (A g Hg). unfold p_num_cells, fe0. cbn. now rewrite F.
    - intros g cell Hg. apply (B g cell Hg).
    - intros g cell n Hg. apply (C g cell n Hg).
    - intros b e fc [].
  Qed.
  Lemma stepped_nc w u : p_num_cells (stepped w u) = num_cells f. Proof. reflexivity. Qed.
  Lemma stepped_ivs w u : ivs_ok (stepped w u).
  Proof.
    split; [|split]; cbn; auto.
    - intros iv [<-|[<-|[]]]; now rewrite map_length, seq_length.
    - intros s iv Hs. inversion Hs.
  Qed.
  Lemma stepped_sol w u x : sol_ok p [x] <-> sol_ok (stepped w u) [x].
  Proof. unfold sol_ok, fe_of, fe0. cbn [fes stepped]. rewrite (proj1 WP). cbn. reflexivity. Qed.
  Lemma stepped_iv w u e q : (e < num_cells f)%nat -> iv_at (stepped w u) e q = [convert_from_dof_to_quad f w e q; convert_from_dof_to_quad f u e q].
  Proof.
    intros He. unfold iv_at. cbn [internal_vars stepped flat_map].
    rewrite !(nth_error_nth' _ (fun q => convert_from_dof_to_quad f w e q)) by now rewrite map_length, seq_length.
    rewrite !(nth_map_in _ _ _ 0%nat) by now rewrite seq_length. rewrite !seq_nth by auto. reflexivity.
  Qed.
  Lemma stepped_runs w u x : sol_ok p [x] -> exists res, compute_residual sqrtK (stepped w u) [P] [x] = Ok [res] /\ sol_ok p [res].
  Proof.
    intros SX. rewrite (as_std_residual KR c dt sqrtK _ f) by apply stepped_wave.
    pose proof (as_std_std c dt _ f (stepped_wave w u)) as STD.
    assert (NC' : (0 < p_num_cells (as_std c dt (stepped w u)))%nat) by (unfold p_num_cells, fe0; cbn; rewrite <- wave_nc; auto).
    destruct (residual_weak KR sqrtK (as_std c dt (stepped w u)) f P x (as_std_wf c dt _ f (stepped_wave w u) (stepped_wf w u)) NC' STD
                (proj1 (stepped_sol w u x) SX) (stepped_ivs w u) (as_std_maps c dt _ f (stepped_wave w u))) as (r & E & SH & _).
    exists r. split; [exact E|]. apply (stepped_sol w u). split; [reflexivity|]. intros v Hv. cbn in Hv. assert (v = 0)%nat as -> by lia. exact SH.
  Qed.
  Theorem wave_work w u x v res : sol_ok p [x] -> sol_ok p [v] -> compute_residual sqrtK (stepped w u) [P] [x] = Ok [res] ->
    work (length (points f)) (vec f) v res =
    over_cells p f P (fun e q =>
      c * c * (dt * dt) * dot2 (vec f) (dim f) (sol_to_grad P f x e q) (sol_to_grad P f v e q)
      + dot1 (vec f) (fun k => convert_from_dof_to_quad f x e q k - (1 + 1) * convert_from_dof_to_quad f u e q k + convert_from_dof_to_quad f w e q k)
                     (convert_from_dof_to_quad f v e q)).
  Proof.
    intros SX SV. rewrite (as_std_residual KR c dt sqrtK _ f) by apply stepped_wave. intros E.
    pose proof (as_std_std c dt _ f (stepped_wave w u)) as STD.
    assert (NC' : (0 < p_num_cells (as_std c dt (stepped w u)))%nat) by (unfold p_num_cells, fe0; cbn; rewrite <- wave_nc; auto).
    rewrite (any_work KR sqrtK (as_std c dt (stepped w u)) f P x (as_std_wf c dt _ f (stepped_wave w u) (stepped_wf w u)) NC' STD
                (proj1 (stepped_sol w u x) SX) (stepped_ivs w u) (as_std_maps c dt _ f (stepped_wave w u)) v res (proj1 (stepped_sol w u v) SV) E).
    unfold over_faces. cbn [boundary_inds_list as_std stepped length].
    match goal with |- ?A + sum_n 0 ?B = _ => change (sum_n 0 B) with (@zero K); transitivity A; [ring|] end.
    unfold over_cells. rewrite wave_nc. change (p_num_cells (as_std c dt (stepped w u))) with (num_cells f).
    apply sum_n_ext. intros e He. apply sum_n_ext. intros q Hq. f_equal. f_equal.
    - unfold dot2. rewrite <- (sum_n_mul_l KR). apply sum_n_ext. intros k Hk. rewrite <- (sum_n_mul_l KR). apply sum_n_ext. intros j Hj.
      unfold stress. cbn. unfold wave_tm. ring.
    - unfold dot1. apply sum_n_ext. intros k Hk. unfold source. cbn [maps as_std std_maps mass_map].
      change (iv_at (as_std c dt (stepped w u)) e q) with (iv_at (stepped w u) e q). rewrite stepped_iv by auto. unfold wave_mm. cbn [nth]. ring.
  Qed.
End Step.

(** ** Energy, over the reals *)
Section Energy.
  Variables (sqrtK : Rops -> Rops) (c dt : R) (p : problem Rops (nat -> Rops)) (f : fe Rops) (P : list (list Rops)).
  Hypothesis WP : wave_problem (K := Rops) c dt p f.
  Hypothesis WF : wf_problem p.
  Hypothesis NC : (0 < p_num_cells p)%nat.
  Local Open Scope R_scope.
  Local Notation step_problem := (stepped (K := Rops) c dt f).
  Local Notation minus a b := (along (K := Rops) a b (-1)).

  Lemma minus_ok a b : sol_ok p [a] -> sol_ok p [b] -> sol_ok p [minus a b].
  Proof. intros A B. exact (along_ok p a A b (-1) B). Qed.
  (** a field that vanishes where values are prescribed does no work on a solution *)
  Lemma no_work (q : problem Rops (nat -> Rops)) x v (res : list (list Rops)) : solved sqrtK q f P x -> compute_residual sqrtK q [P] [x] = Ok [res] ->
    (forall n k b, (n < length (points f))%nat -> (k < vec f)%nat -> prescribed f n k = Some b -> get2 (@zero Rops) v n k = 0) ->
    work (K := Rops) (length (points f)) (vec f) v res = 0.
  Proof.
    intros (_ & _ & r & E & Z) E' H. rewrite E in E'. injection E' as <-. unfold work.
    transitivity (sum_n (K := Rops) (length (points f)) (fun _ => 0)).
    - apply Rsum_ext. intros n Hn. transitivity (sum_n (K := Rops) (vec f) (fun _ => 0)).
      + apply Rsum_ext. intros k Hk. destruct (prescribed f n k) as [b|] eqn:B.
        * rewrite (H n k b Hn Hk B). cbn. ring.
        * rewrite (Z n k Hn Hk B). cbn. ring.
      + exact (sum_n_zero Rops_ring (vec f)).
    - exact (sum_n_zero Rops_ring _).
  Qed.
  Lemma grad_minus a b e q k j : sol_ok p [a] -> sol_ok p [b] -> (e < p_num_cells p)%nat -> (k < vec f)%nat ->
    sol_to_grad P f (minus a b) e q k j = sol_to_grad P f a e q k j - sol_to_grad P f b e q k j.
  Proof.
    intros A B He Hk. pose proof (as_std_std (K := Rops) c dt p f WP) as STD.
    pose proof (grad_along Rops_ring (as_std (K := Rops) c dt p) f P a (as_std_wf c dt p f WP WF) NC STD A b (-1) e q k j B He Hk) as E.
    rewrite E. cbn; req; ring.
  Qed.
  Lemma value_minus a b e q k : sol_ok p [a] -> sol_ok p [b] -> (e < p_num_cells p)%nat -> (k < vec f)%nat ->
    convert_from_dof_to_quad f (minus a b) e q k = convert_from_dof_to_quad f a e q k - convert_from_dof_to_quad f b e q k.
  Proof.
    intros A B He Hk. pose proof (as_std_std (K := Rops) c dt p f WP) as STD.
    pose proof (value_along Rops_ring (as_std (K := Rops) c dt p) f a (as_std_wf c dt p f WP WF) NC STD A b (-1) e q k B He Hk) as E.
    rewrite E. cbn; req; ring.
  Qed.
  Lemma get_minus a b n k : sol_ok p [a] -> sol_ok p [b] -> (n < length (points f))%nat -> (k < vec f)%nat ->
    get2 (@zero Rops) (minus a b) n k = get2 (@zero Rops) a n k - get2 (@zero Rops) b n k.
  Proof.
    intros A B Hn Hk. pose proof (as_std_std (K := Rops) c dt p f WP) as STD.
    pose proof (nth_along (as_std (K := Rops) c dt p) f a STD A b (-1) n k B Hn Hk) as E. rewrite E. cbn; req; ring.
  Qed.

  Theorem energy_step w u x : sol_ok p [w] -> sol_ok p [u] -> solved sqrtK (step_problem w u) f P x ->
    (forall n k b, (n < length (points f))%nat -> (k < vec f)%nat -> prescribed f n k = Some b -> get2 (@zero Rops) u n k = b) ->
    wave_energy c dt p f P x u + wave_loss c dt p f P x u w = wave_energy c dt p f P u w.
  Proof.
    intros SW SU SX HU. assert (SX' := SX). destruct SX' as (SXo & HX & res & E & _).
    apply (stepped_sol c dt p f WP) in SXo. pose proof (minus_ok x u SXo SU) as SD.
    pose proof (wave_work Rops_ring sqrtK c dt p f P WP WF NC w u x (minus x u) res SXo SD E) as W.
    rewrite (no_work _ x (minus x u) res SX E) in W.
    2:{ intros n k b Hn Hk B. rewrite get_minus by auto. rewrite (HX n k b Hn Hk B), (HU n k b Hn Hk B). req; ring. }
    assert (X : wave_energy c dt p f P x u + wave_loss c dt p f P x u w = wave_energy c dt p f P u w + 0).
    2:{ rewrite X. ring. }
    rewrite W at 1. unfold wave_energy, wave_loss, over_cells.
    repeat rewrite <- Rsum_plus. apply Rsum_ext. intros e He. repeat rewrite <- Rsum_plus. apply Rsum_ext. intros q Hq.
    assert (D2 : forall A B C D : R, forall J, (A + B = C + D) -> A * J + B * J = C * J + D * J) by (intros; nra).
    cbn [mul Rops]. apply D2. clear D2.
    unfold dot1, dot2, change. cbn [mul add sub one Rops]. 
    rewrite <- !Rsum_mul. repeat rewrite <- Rsum_plus. apply Rsum_ext. intros k Hk. 
    rewrite <- !Rsum_mul.
    match goal with |- ?a + ?S1 + (?b + ?S2) = ?d + ?S3 + (?S4 + ?e0) => 
      enough (S1 + S2 = S3 + S4 /\ a + b = d + e0) as [? ?] by lra end. split.
    - repeat rewrite <- Rsum_plus. apply Rsum_ext. intros j Hj. rewrite grad_minus by auto. req; field.
    - rewrite value_minus by auto. req; field.
  Qed.
End Energy.
