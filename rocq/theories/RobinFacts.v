(** Proofs for C96. *)
From Coq Require Import List Arith Lia FunctionalExtensionality Reals.
From Verif Require Import Num Arr ArrFacts Fe FeFacts Problem SpecAssembly SpecWeak KernelFacts Robin SpecRobin.
Import ListNotations.

Lemma map2_map {A B C D} (f : A -> B -> C) (g : D -> A) (h : D -> B) l : map2 f (map g l) (map h l) = map (fun x => f (g x) (h x)) l.
Proof. unfold map2. induction l as [|x l IH]; cbn; [reflexivity|now rewrite IH]. Qed.
Lemma map2_app {A B C} (f : A -> B -> C) a b a' b' : length a = length b -> map2 f (a ++ a') (b ++ b') = map2 f a b ++ map2 f a' b'.
Proof. unfold map2. revert b. induction a as [|x a IH]; intros [|y b] H; cbn in *; try discriminate; [reflexivity|]. injection H as H. now rewrite (IH b H). Qed.
Lemma map2_flat {A B} (f : B -> B -> B) (g h : A -> nat -> B) n l :
  map2 f (flat_map (fun a => map (g a) (seq 0 n)) l) (flat_map (fun a => map (h a) (seq 0 n)) l) = flat_map (fun a => map (fun k => f (g a k) (h a k)) (seq 0 n)) l.
Proof. induction l as [|x l IH]; cbn [flat_map]; [reflexivity|]. rewrite map2_app by now rewrite !map_length. now rewrite map2_map, IH. Qed.

Section Facts.
  Context {K : ops} (KR : ring_laws K) {V : Type}.
  Open Scope num_scope.
  Let Kth : ring_theory (@zero K) one add mul sub opp eq := KR.
  Add Ring KringRo : Kth.
  Variables (body_val : (nat -> K) -> K) (robin_map : K -> K).
  Lemma cell_same (p self : problem K V) ci : fes self = fes p ->
    kernel_cell (with_maps p (robin_maps body_val robin_map self)) ci = kernel_cell (with_maps p (plain_maps body_val robin_map)) ci.
  Proof.
    intros F. unfold kernel_cell, plain_maps, robin_maps. cbn [maps with_maps mass_map tensor_map universal_kernel option_map badd unscalar].
    unfold laplace_kernel, mass_kernel, poisson_kernel, cell_sol0. unfold fe0, dof_shapes. cbn [fes with_maps]. rewrite F. rewrite map2_flat.
    apply flat_map_ext. intros a. apply map_ext. intros k. symmetry.
    match goal with |- ?s + sum_n ?n ?g = ?s' - sum_n ?n ?h => transitivity (s + sum_n n (fun q => (- (1)) * h q)) end.
    - f_equal. apply sum_n_ext. intros q Hq. ring.
    - rewrite (sum_n_mul_l KR). ring.
  Qed.
  Lemma face_same (p self : problem K V) ind : fes self = fes p ->
    kernel_face (with_maps p (robin_maps body_val robin_map self)) ind = kernel_face (with_maps p (plain_maps body_val robin_map)) ind.
  Proof.
    intros F. unfold kernel_face, plain_maps, robin_maps. cbn [maps with_maps surface_maps universal_kernels_surface].
    assert (E : robin_kernel robin_map self = surface_kernel (with_maps p (plain_maps body_val robin_map)) (fun u _ _ k => robin_map (u k))).
    { extensionality fi. unfold robin_kernel, surface_kernel, cell_sol0, fe0, dof_shapes. cbn [fes with_maps]. now rewrite F. }
    unfold plain_maps in E. rewrite E. destruct ind as [|[|[|ind]]]; reflexivity.
  Qed.
  Lemma residual_same sqrtK (p self : problem K V) pts sol : fes self = fes p ->
    compute_residual sqrtK (with_maps p (robin_maps body_val robin_map self)) pts sol = compute_residual sqrtK (with_maps p (plain_maps body_val robin_map)) pts sol.
  Proof.
    intros F. unfold compute_residual, compute_residual_vars.
    assert (C : forall cc, split_and_compute_cell (with_maps p (robin_maps body_val robin_map self)) cc = split_and_compute_cell (with_maps p (plain_maps body_val robin_map)) cc).
    { intros cc. unfold split_and_compute_cell. f_equal. extensionality ci. now apply cell_same. }
    rewrite C. change (input_collection (with_maps p (robin_maps body_val robin_map self))) with (input_collection (with_maps p (plain_maps body_val robin_map))).
    change (cells_sol_flat (with_maps p (robin_maps body_val robin_map self))) with (cells_sol_flat (with_maps p (plain_maps body_val robin_map))).
    cbn [internal_vars internal_vars_surfaces with_maps]. f_equal. extensionality weak.
    assert (G : forall csf ivss, compute_face sqrtK (with_maps p (robin_maps body_val robin_map self)) pts csf ivss = compute_face sqrtK (with_maps p (plain_maps body_val robin_map)) pts csf ivss).
    { intros csf ivss. unfold compute_face. cbn [boundary_inds_list with_maps]. f_equal. extensionality i. unfold face_step. destruct (nth_error ivss i); [|reflexivity]. rewrite face_same by exact F. reflexivity. }
    rewrite G. reflexivity.
  Qed.
  Lemma newton_same jvp sqrtK (p self : problem K V) pts sol : fes self = fes p ->
    newton_update jvp sqrtK (with_maps p (robin_maps body_val robin_map self)) pts sol = newton_update jvp sqrtK (with_maps p (plain_maps body_val robin_map)) pts sol.
  Proof.
    intros F. unfold newton_update, compute_newton_vars.
    assert (C : forall cc, split_and_compute_cell_jac jvp (with_maps p (robin_maps body_val robin_map self)) cc = split_and_compute_cell_jac jvp (with_maps p (plain_maps body_val robin_map)) cc).
    { intros cc. unfold split_and_compute_cell_jac. f_equal. f_equal. extensionality ci. unfold kernel_jac_cell. f_equal. extensionality s. now apply cell_same. }
    rewrite C. change (input_collection (with_maps p (robin_maps body_val robin_map self))) with (input_collection (with_maps p (plain_maps body_val robin_map))).
    change (cells_sol_flat (with_maps p (robin_maps body_val robin_map self))) with (cells_sol_flat (with_maps p (plain_maps body_val robin_map))).
    cbn [internal_vars internal_vars_surfaces with_maps]. f_equal. extensionality wj.
    assert (G : forall csf ivss, compute_face_jac jvp sqrtK (with_maps p (robin_maps body_val robin_map self)) pts csf ivss = compute_face_jac jvp sqrtK (with_maps p (plain_maps body_val robin_map)) pts csf ivss).
    { intros csf ivss. unfold compute_face_jac. cbn [boundary_inds_list with_maps]. f_equal. f_equal. extensionality i. unfold face_step. destruct (nth_error ivss i); [|reflexivity]. rewrite face_same by exact F. reflexivity. }
    rewrite G. reflexivity.
  Qed.
End Facts.

Section Weak.
  Context {K : ops} (KR : ring_laws K) {V : Type}.
  Open Scope num_scope.
  Let Kth2 : ring_theory (@zero K) one add mul sub opp eq := KR.
  Add Ring KringRo2 : Kth2.
  Variables (body_val : (nat -> K) -> K) (robin_map : K -> K).
  Lemma robin_weak sqrtK (p self : problem K V) f P sol : fes self = fes p ->
    wf_problem p -> (0 < p_num_cells p)%nat -> fes p = [f] -> length (boundary_inds_list p) = 2%nat -> sol_ok p [sol] -> ivs_ok p ->
    (forall x x', (forall i, (i < dim f)%nat -> x i = x' i) -> body_val x = body_val x') ->
    exists res, compute_residual sqrtK (with_maps p (robin_maps body_val robin_map self)) [P] [sol] = Ok [res] /\ shaped (length (points f)) (vec f) res /\
    forall n k, (n < length (points f))%nat -> (k < vec f)%nat ->
      get2 0 res n k =
        sum_n (p_num_cells p) (fun c => sum_n (num_nodes f) (fun a =>
          if (nth a (nth c (cells f) []) 0 =? n)%nat then poisson_term body_val f P sol c a k else 0)) +
        sum_n 2 (fun s => sum_n (num_sel_faces p s) (fun e => sum_n (num_nodes f) (fun a =>
          if (nth a (nth (face_cell p s e) (cells f) []) 0 =? n)%nat
          then robin_term robin_map sqrtK f P sol (nth e (nth s (boundary_inds_list p) []) (0%nat, 0%nat)) a k else 0))).
  Proof.
    intros F W NC Ff B So Iv Hb. rewrite (residual_same KR body_val robin_map sqrtK p self [P] [sol] F).
    set (p' := with_maps p (plain_maps body_val robin_map)).
    destruct (residual_weak KR sqrtK p' f P sol) as (res & E & Sh & G); try assumption.
    - destruct W; constructor; assumption.
    - split; [exact Ff|]. split; [reflexivity|]. split; [reflexivity|]. split; [left; discriminate|]. cbn. now rewrite B.
    - split; [|split]; cbn.
      + intros tm E. injection E as <-. intros g g' iv H k j Hk Hj. now apply H.
      + intros mm E. injection E as <-. intros u u' x x' iv Hu Hx k Hk. f_equal. now apply Hb.
      + intros sms sm E H. injection E as <-. assert (sm = fun u _ _ k => robin_map (u k)) as -> by (cbn in H; intuition congruence).
        intros u u' x x' iv Hu Hx k Hk. f_equal. now apply Hu.
    - exists res. split; [exact E|]. split; [exact Sh|]. intros n k Hn Hk. rewrite (G n k Hn Hk). f_equal.
      + apply sum_n_ext. intros c Hc. apply sum_n_ext. intros a Ha. destruct (_ =? n)%nat; [|reflexivity]. unfold volume_term, poisson_term. apply sum_n_ext. intros q Hq.
        cbn. ring.
      + cbn [boundary_inds_list with_maps p']. rewrite B. apply sum_n_ext. intros s Hs. apply sum_n_ext. intros e He. apply sum_n_ext. intros a Ha.
        destruct (_ =? n)%nat; [|reflexivity]. unfold surface_term, robin_term. apply sum_n_ext. intros q Hq. unfold traction. cbn [p' with_maps maps plain_maps surface_maps boundary_inds_list].
        destruct s as [|[|s]]; [| |lia]; reflexivity.
  Qed.
End Weak.

Lemma example_body_eq : example_body = (fun x : nat -> Rops => (x 0%nat * sin (5 * PI * x 1%nat) + exp (- ((x 0%nat - / 2) ^ 2 + (x 1%nat - / 2) ^ 2) / (2 / 100)))%R : Rops).
Proof. extensionality x. unfold example_body. rewrite Rmult_1_l. f_equal. f_equal. field. Qed.
