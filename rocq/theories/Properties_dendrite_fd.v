(** C100: finite-difference solver for dendritic solidification. *)
From Coq Require Import List Arith Bool Reals Lia Lra ZArith.
From Verif Require Import Num Fe Problem Dendrite SpecDendrite DendriteFd SpecDendriteFd DendriteFdFacts DendriteFdMain DendriteFdRef.
Import ListNotations.
Local Open Scope R_scope.

(** C100. Inside the grid grad and laplace are the central differences and the five-point formula; over the whole grid laplace adds up to 0. *)
Theorem C100_operators : forall nx ny m hx hy,
  (forall i j, inner nx ny i j -> fst (fd_grad nx ny m hx hy) i j = diff_x m hx i j /\ snd (fd_grad nx ny m hx hy) i j = diff_y m hy i j /\ fd_laplace nx ny m hx hy i j = five_point m hx hy i j) /\
  grid_sum nx ny (fd_laplace nx ny m hx hy) = 0.
Proof.
  intros nx ny m hx hy. split; [|apply laplace_total]. intros i j I. destruct (grad_inner nx ny m hx hy i j I). auto using laplace_inner.
Qed.
Print Assumptions C100_operators.

(** They are exact for polynomials of degree two. *)
Theorem C100_exact : forall nx ny hx hy a b c d e f, hx <> 0 -> hy <> 0 ->
  let m : grid := fun i j => a + b * (INR i * hx) + c * (INR j * hy) + d * (INR i * hx) ^ 2 + e * (INR i * hx) * (INR j * hy) + f * (INR j * hy) ^ 2 in
  forall i j, inner nx ny i j ->
    fst (fd_grad nx ny m hx hy) i j = b + 2 * d * (INR i * hx) + e * (INR j * hy) /\ snd (fd_grad nx ny m hx hy) i j = c + e * (INR i * hx) + 2 * f * (INR j * hy) /\
    fd_laplace nx ny m hx hy i j = 2 * d + 2 * f.
Proof.
  intros nx ny hx hy a b c d e f X Y m i j I. destruct (proj1 (C100_operators nx ny m hx hy) i j I) as (-> & -> & ->). unfold diff_x, diff_y, five_point, m. destruct I as (I1 & _ & I2 & _).
  rewrite !plus_INR, !minus_INR by lia. change (INR 1) with 1. repeat split; field; auto.
Qed.
Print Assumptions C100_exact.

(** theta is the angle of the gradient, from 0 up to 2 pi; eps has the derivative that is used. *)
Theorem C100_angle : forall x y, 0 <= get_theta x y < 2 * PI /\ let r := sqrt (x ^ 2 + y ^ 2) in x = r * cos (get_theta x y) /\ y = r * sin (get_theta x y).
Proof. intros x y. split; [apply get_theta_range|apply get_theta_polar]. Qed.
Print Assumptions C100_angle.
Theorem C100_anisotropy : forall P theta, fst (get_eps P theta) = width P theta /\ derivable_pt_lim (width P) theta (snd (get_eps P theta)) /\
  eps_fn P (theta + PI / 2) = fst (get_eps P theta) /\ eps_grad P (theta + PI / 2) = snd (get_eps P theta).
Proof. intros P theta. split; [reflexivity|]. split; [exact (get_eps_derivative P theta)|apply get_eps_fem]. Qed.
Print Assumptions C100_anisotropy.

(** zero_flux_BC leaves the inner values, gives every edge value the one next to it, corners the one next to them diagonally, and twice is once. *)
Theorem C100_edges : forall nx ny a, (3 <= nx)%nat -> (3 <= ny)%nat ->
  mirrored nx ny (zero_flux_BC nx ny a) /\ (forall i j, inner nx ny i j -> zero_flux_BC nx ny a i j = a i j) /\
  (forall i j, on_grid nx ny i j -> zero_flux_BC nx ny a i j = a (Nat.max 1 (Nat.min i (nx - 2))) (Nat.max 1 (Nat.min j (ny - 2))) /\
     zero_flux_BC nx ny (zero_flux_BC nx ny a) i j = zero_flux_BC nx ny a i j).
Proof.
  intros nx ny a HX HY. split; [now apply bc_mirrored|]. split; [intros; now apply bc_inner|]. intros i j O. split; [now apply bc_clamp|now apply bc_idempotent].
Qed.
Print Assumptions C100_edges.

(** The run of n passes from any fields: every pass solves the discrete Kobayashi equations, except that grad eps^2 is that of the fields the run has started from. *)
Theorem C100_run : forall nx ny P hx hy chi n p T, (3 <= nx)%nat -> (3 <= ny)%nat ->
  let l := fd_loop nx ny P hx hy chi n None p T in List.length l = n /\
  forall k, (k < n)%nat -> let s := nth k ((p, T) :: l) (p, T) in let s' := nth k l (p, T) in frozen_step nx ny P hx hy p chi (fst s) (snd s) (fst s') (snd s').
Proof. intros nx ny P hx hy chi n p T HX HY. exact (loop_frozen nx ny P hx hy chi HX HY n p p T None eq_refl). Qed.
Print Assumptions C100_run.
(** The first pass therefore solves them. *)
Theorem C100_first_pass : forall nx ny P hx hy chi p T, (3 <= nx)%nat -> (3 <= ny)%nat ->
  exists p' T', fd_loop nx ny P hx hy chi 1 None p T = [(p', T')] /\ kobayashi nx ny P hx hy chi p T p' T'.
Proof.
  intros nx ny P hx hy chi p T HX HY. eexists _, _. split; [reflexivity|]. exact (pass_step nx ny P hx hy chi HX HY None p p T eq_refl).
Qed.
Print Assumptions C100_first_pass.
(** Later passes do not: on every grid from 7 x 7 on, with the parameters of the example, half solid at the melting temperature, there are noise values for which
    the second pass does not solve the equations. *)
Theorem C100_later_passes_refuted : forall nx ny, (7 <= nx)%nat -> (7 <= ny)%nat ->
  exists chi p T p1 T1 p2 T2, fd_loop nx ny fd_example (3 / 100) (3 / 100) chi 2 None p T = [(p1, T1); (p2, T2)] /\
    (forall i j, - 1 <= chi i j <= 1) /\ (forall i j, p i j = / 2 /\ T i j = 1) /\
    kobayashi nx ny fd_example (3 / 100) (3 / 100) chi p T p1 T1 /\ ~ kobayashi nx ny fd_example (3 / 100) (3 / 100) chi p1 T1 p2 T2.
Proof.
  intros nx ny HX HY. exists three_spots, (fun _ _ => / 2), (fun _ _ => 1). eexists _, _, _, _. split; [reflexivity|]. split; [|split; [|split]].
  - intros i j. unfold three_spots. destruct (_ || _)%bool; lra.
  - intros; split; reflexivity.
  - exact (pass_step nx ny fd_example (3 / 100) (3 / 100) three_spots ltac:(lia) ltac:(lia) None (fun _ _ => / 2) (fun _ _ => / 2) (fun _ _ => 1) eq_refl).
  - exact (frozen_differs nx ny HX HY).
Qed.
Print Assumptions C100_later_passes_refuted.

(** Heat: from a temperature with copied edges the sum of T - K p over the inner places never changes, whatever the noise, the fields and the step size. *)
Theorem C100_heat_balance : forall nx ny P hx hy chi n p T, (3 <= nx)%nat -> (3 <= ny)%nat -> mirrored nx ny T ->
  forall p' T', In (p', T') (fd_loop nx ny P hx hy chi n None p T) ->
    inner_sum nx ny (fun i j => T' i j - K_lat P * p' i j) = inner_sum nx ny (fun i j => T i j - K_lat P * p i j).
Proof. intros nx ny P hx hy chi n p T HX HY M p' T' I. exact (run_heat nx ny P hx hy chi HX HY n p T M (p', T') I). Qed.
Print Assumptions C100_heat_balance.
(** The sum over the whole grid does change: all liquid, a step in the temperature. *)
Theorem C100_whole_grid_refuted : forall ny P hx hy chi, (3 <= ny)%nat -> 0 < dt P -> hx <> 0 ->
  exists p T p' T', mirrored 5 ny T /\ fd_loop 5 ny P hx hy chi 1 None p T = [(p', T')] /\
    grid_sum 5 ny (fun i j => T' i j - K_lat P * p' i j) = grid_sum 5 ny (fun i j => T i j - K_lat P * p i j) + INR ny * (dt P / hx ^ 2) /\
    grid_sum 5 ny (fun i j => T' i j - K_lat P * p' i j) <> grid_sum 5 ny (fun i j => T i j - K_lat P * p i j).
Proof.
  intros ny P hx hy chi HY DT X. exists (fun _ _ => 0), front. eexists _, _. split; [apply front_mirrored|]. split; [reflexivity|].
  pose proof (edges_heat ny P hx hy chi HY) as E. cbv zeta in E. split; [exact E|].
  intros C. assert (Z : INR ny * (dt P / hx ^ 2) = 0) by (apply (Rplus_eq_reg_l (grid_sum 5 ny (fun i j => front i j - K_lat P * 0))); rewrite Rplus_0_r; exact (eq_trans (eq_sym E) C)).
  assert (0 < INR ny) by (apply lt_0_INR; lia). assert (0 < dt P / hx ^ 2); [|nra]. apply Rdiv_lt_0_compat; [exact DT|nra].
Qed.
Print Assumptions C100_whole_grid_refuted.

(** All liquid or all solid at one temperature: nothing ever changes. *)
Theorem C100_steady : forall nx ny P hx hy chi n x y, x = 0 \/ x = 1 ->
  forall p T, In (p, T) (fd_loop nx ny P hx hy chi n None (fun _ _ => x) (fun _ _ => y)) -> forall i j, p i j = x /\ T i j = y.
Proof. intros nx ny P hx hy chi n x y X p T I. exact (steady_run nx ny P hx hy chi n None _ _ x y X (fun _ _ => eq_refl) (fun _ _ => eq_refl) (p, T) I). Qed.
Print Assumptions C100_steady.

(** Under the step size bound dt (2/hx^2 + 2/hy^2) <= 1 a pass takes temperatures between lo and hi and phase changes between d0 and d1 to temperatures between
    lo + K d0 and hi + K d1. *)
Theorem C100_maximum : forall nx ny P hx hy chi baked p T lo hi d0 d1, (3 <= nx)%nat -> (3 <= ny)%nat -> hx <> 0 -> hy <> 0 ->
  0 <= dt P -> dt P * (2 / hx ^ 2 + 2 / hy ^ 2) <= 1 -> 0 <= K_lat P -> (forall i j, on_grid nx ny i j -> lo <= T i j <= hi) ->
  let r := snd (fd_pass nx ny P hx hy chi baked p T) in (forall i j, on_grid nx ny i j -> d0 <= fst r i j - p i j <= d1) ->
  forall i j, on_grid nx ny i j -> lo + K_lat P * d0 <= snd r i j <= hi + K_lat P * d1.
Proof.
  intros nx ny P hx hy chi baked p T lo hi d0 d1 HX HY X Y DT CFL KP HT r HD. refine (bc_bound nx ny _ _ _ HX HY _). exact (heat_maximum nx ny P hx hy T (fun i j => fst r i j - p i j) lo hi d0 d1 X Y DT CFL KP HT HD).
Qed.
Print Assumptions C100_maximum.

(** Only the values on the grid matter. *)
Theorem C100_grid : forall nx ny P hx hy n chi chi' p p' T T', (2 <= nx)%nat -> (2 <= ny)%nat -> same_on nx ny chi chi' -> same_on nx ny p p' -> same_on nx ny T T' ->
  Forall2 (fun s s' => same_on nx ny (fst s) (fst s') /\ same_on nx ny (snd s) (snd s')) (fd_loop nx ny P hx hy chi n None p T) (fd_loop nx ny P hx hy chi' n None p' T').
Proof. intros nx ny P hx hy n chi chi' p p' T T' HX HY HC HP HT. exact (run_ext nx ny P hx hy HX HY n chi chi' None None p p' T T' HC I HP HT). Qed.
Print Assumptions C100_grid.

(** The script: with nx <> ny the seed raises.  With the parameters of the example and nx = ny its run has the heat balance, and its step meets the bound of
    C100_maximum. *)
Theorem C100_example : forall nx ny chi n,
  (nx <> ny -> fd_run nx ny fd_example (3 / 100) (3 / 100) chi n = Err IndexErr) /\
  dt fd_example * (2 / (3 / 100) ^ 2 + 2 / (3 / 100) ^ 2) <= 1 /\
  (nx = ny -> (3 <= nx)%nat -> exists p0 l, fd_seed nx ny = Ok p0 /\ (forall i j, p0 i j = 1 \/ p0 i j = 0) /\ fd_run nx ny fd_example (3 / 100) (3 / 100) chi n = Ok l /\ List.length l = n /\
    forall p T, In (p, T) l -> inner_sum nx ny T = 16 / 10 * (inner_sum nx ny p - inner_sum nx ny p0)).
Proof.
  intros nx ny chi n. split; [|split].
  - intros H. unfold fd_run, fd_seed. apply Nat.eqb_neq in H. now rewrite H.
  - unfold fd_example. cbn [dt]. lra.
  - intros <- HX. unfold fd_run, fd_seed. rewrite Nat.eqb_refl. eexists _, _. split; [reflexivity|]. split; [intros i j; destruct (Rlt_dec _ _); auto|]. split; [reflexivity|]. split; [apply C100_run; auto|].
    intros p T I. set (p0 := fun r c : nat => _) in I. pose proof (C100_heat_balance nx nx fd_example (3 / 100) (3 / 100) chi n p0 (fun _ _ => 0) HX HX ltac:(split; intros; split; reflexivity) p T I) as B.
    exact (heat_sums nx nx (16 / 10) p p0 T B).
Qed.
Print Assumptions C100_example.
