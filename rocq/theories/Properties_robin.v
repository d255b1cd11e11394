(** C96: the Robin problem written with universal kernels. *)
From Coq Require Import List Arith Lia Reals ZArith.
From Verif Require Import Num Arr Fe Problem SpecAssembly SpecWeak Robin SpecRobin RobinFacts.
Import ListNotations.
Local Open Scope num_scope.

(** C96. The universal kernels of the example define the same problem as the documented maps of the comment beside them (stress = gradient, source =
    minus the body force, traction = the Robin map on both surfaces): equal residuals for every solution ... *)
Theorem C96_same_residual : forall (K : ops), ring_laws K -> forall (V : Type) (body_val : (nat -> K) -> K) (robin_map : K -> K) sqrtK (p self : problem K V) pts sol,
  fes self = fes p ->
  compute_residual sqrtK (with_maps p (robin_maps body_val robin_map self)) pts sol = compute_residual sqrtK (with_maps p (plain_maps body_val robin_map)) pts sol.
Proof. exact (@residual_same). Qed.
Print Assumptions C96_same_residual.
(** ... and equal residuals and tangents in a Newton update, whatever differentiates the kernels. *)
Theorem C96_same_newton : forall (K : ops), ring_laws K -> forall (V : Type) (body_val : (nat -> K) -> K) (robin_map : K -> K) jvp sqrtK (p self : problem K V) pts sol,
  fes self = fes p ->
  newton_update jvp sqrtK (with_maps p (robin_maps body_val robin_map self)) pts sol = newton_update jvp sqrtK (with_maps p (plain_maps body_val robin_map)) pts sol.
Proof. exact (@newton_same). Qed.
Print Assumptions C96_same_newton.
(** So the residual is the weak form of -div grad u = f with - du/dn = g(u) on the two surfaces. *)
Theorem C96_weak_form : forall (K : ops), ring_laws K -> forall (V : Type) (body_val : (nat -> K) -> K) (robin_map : K -> K) sqrtK (p self : problem K V) f P sol,
  fes self = fes p -> wf_problem p -> (0 < p_num_cells p)%nat -> fes p = [f] -> length (boundary_inds_list p) = 2%nat -> sol_ok p [sol] -> ivs_ok p ->
  (forall x x', (forall i, (i < dim f)%nat -> x i = x' i) -> body_val x = body_val x') ->
  exists res, compute_residual sqrtK (with_maps p (robin_maps body_val robin_map self)) [P] [sol] = Ok [res] /\ shaped (length (points f)) (vec f) res /\
  forall n k, (n < length (points f))%nat -> (k < vec f)%nat ->
    get2 0 res n k =
      sum_n (p_num_cells p) (fun c => sum_n (num_nodes f) (fun a =>
        if (nth a (nth c (cells f) []) 0 =? n)%nat then poisson_term body_val f P sol c a k else 0)) +
      sum_n 2 (fun s => sum_n (num_sel_faces p s) (fun e => sum_n (num_nodes f) (fun a =>
        if (nth a (nth (face_cell p s e) (cells f) []) 0 =? n)%nat
        then robin_term robin_map sqrtK f P sol (nth e (nth s (boundary_inds_list p) []) (0%nat, 0%nat)) a k else 0))).
Proof. exact (@robin_weak). Qed.
Print Assumptions C96_weak_form.
(** The example itself: f = x sin(5 pi y) + exp(-((x - 1/2)^2 + (y - 1/2)^2) / 0.02) and g(u) = 5 u^2, in two dimensions or more. *)
Theorem C96_example : forall (V : Type) (p self : problem Rops V) f P sol,
  fes self = fes p -> wf_problem p -> (0 < p_num_cells p)%nat -> fes p = [f] -> (2 <= dim f)%nat -> length (boundary_inds_list p) = 2%nat -> sol_ok p [sol] -> ivs_ok p ->
  exists res, compute_residual (K := Rops) sqrt (with_maps p (robin_maps example_body example_robin self)) [P] [sol] = Ok [res] /\
  forall n k, (n < length (points f))%nat -> (k < vec f)%nat ->
    get2 0 res n k =
      sum_n (p_num_cells p) (fun c => sum_n (num_nodes f) (fun a => if (nth a (nth c (cells f) []) 0 =? n)%nat
        then poisson_term (fun x => (x 0%nat * sin (5 * PI * x 1%nat) + exp (- ((x 0%nat - / 2) ^ 2 + (x 1%nat - / 2) ^ 2) / (2 / 100)))%R : Rops) f P sol c a k else 0)) +
      sum_n 2 (fun s => sum_n (num_sel_faces p s) (fun e => sum_n (num_nodes f) (fun a =>
        if (nth a (nth (face_cell p s e) (cells f) []) 0 =? n)%nat
        then robin_term (fun u => (5 * u ^ 2)%R : Rops) (sqrt : Rops -> Rops) f P sol (nth e (nth s (boundary_inds_list p) []) (0%nat, 0%nat)) a k else 0))).
Proof.
  intros V p self f P sol F W NC Ff D B So Iv.
  destruct (robin_weak Rops_ring example_body example_robin sqrt p self f P sol F W NC Ff B So Iv) as (res & E & _ & G).
  - intros x x' H. unfold example_body. rewrite (H 0%nat), (H 1%nat) by lia. reflexivity.
  - exists res. split; [exact E|]. intros n k Hn Hk. rewrite (G n k Hn Hk). rewrite (example_body_eq). reflexivity.
Qed.
Print Assumptions C96_example.

(** Two triangles of the unit square, surfaces x = 1 and x = 0, over any ring. *)
Definition rb_fe (K : ops) : fe K :=
  mkFe (K := K) [[0; 0]; [1; 0]; [1; 1]; [0; 1]] [[0; 1; 2]; [0; 2; 3]]%nat 1 2 1 3 3 1
    (fun _ a => nth a [1; 0; 0] 0)
    (fun _ a i => nth i (nth a [[- (1); - (1)]; [1; 0]; [0; 1]] []) 0)
    (fun _ => 1)
    (fun fc _ a => if (fc =? a)%nat then 0 else 1)
    (fun _ _ a i => nth i (nth a [[- (1); - (1)]; [1; 0]; [0; 1]] []) 0)
    (fun _ _ => 1)
    (fun fc i => nth i (nth fc [[1; 1]; [- (1); 0]; [0; - (1)]] []) 0)
    [[1; 2]; [0; 2]; [0; 1]]%nat [] [] [].
Definition rb_p (K : ops) : problem K Z := mkProblem [rb_fe K] [[(0, 0)]; [(1, 1)]]%nat (mkMaps None None None None None) [] [[]; []].
Example C96_nonvacuous : forall (K : ops) (a b c d : K),
  wf_problem (rb_p K) /\ (0 < p_num_cells (rb_p K))%nat /\ fes (rb_p K) = [rb_fe K] /\ (2 <= dim (rb_fe K))%nat /\
  length (boundary_inds_list (rb_p K)) = 2%nat /\ sol_ok (rb_p K) [[[a]; [b]; [c]; [d]]] /\ ivs_ok (rb_p K).
Proof.
  intros K a b c d. split.
  { constructor.
    - intros f [<-|[]]. reflexivity.
    - intros f cell [<-|[]] [<-|[<-|[]]]; reflexivity.
    - intros f cell n [<-|[]] [<-|[<-|[]]] Hn; cbn in Hn; unfold num_total_nodes; cbn; lia.
    - intros s e fc [<-|[<-|[]]] [H|[]]; injection H as <- <-; unfold p_num_cells, num_cells; cbn; lia. }
  split; [unfold p_num_cells, num_cells; cbn; lia|]. split; [reflexivity|]. split; [cbn; lia|]. split; [reflexivity|]. split.
  - split; [reflexivity|]. intros v Hv. cbn in Hv. assert (v = 0%nat) as -> by lia. split; [reflexivity|].
    intros row Hr. cbn in Hr. destruct Hr as [<-|[<-|[<-|[<-|[]]]]]; reflexivity.
  - split; [intros iv []|]. split; [reflexivity|]. intros s iv Hs Hiv. cbn in Hs. destruct s as [|[|s]]; [destruct Hiv|destruct Hiv|lia].
Qed.
(** over the integers, with body force x + 2 and 5 u^2: the residual of a solution *)
Example C96_runs : compute_residual (K := Zops) (fun x => x)
   (with_maps (rb_p Zops) (robin_maps (fun x => (x 0%nat + 2)%Z : Zops) (fun u => (5 * u * u)%Z : Zops) (rb_p Zops))) [points (rb_fe Zops)] [[[1]; [2]; [3]; [5]]%Z]
   = Ok [[[171]; [125]; [124]; [186]]%Z].
Proof. vm_compute. reflexivity. Qed.
