(** Concrete problems meeting the hypotheses of the assembly theorems. *)
From Coq Require Import List Arith Bool Lia ZArith Reals.
From Verif Require Import Num Arr ArrFacts Fe Problem BatchFacts SpecAssembly AssemblyFacts ProblemFacts
  ResidualFacts DerivFacts AgreeFacts Properties_assembly.
Import ListNotations.

(** Unit square, two TRI3 cells, vec = 2, over Z (both Jacobian determinants are 1).
    One quadrature point with weight 1; the face tables have one point per face. *)
Definition ex_fe : fe Zops :=
  mkFe (K := Zops) [[0; 0]; [1; 0]; [1; 1]; [0; 1]]%Z [[0; 1; 2]; [0; 2; 3]] 2 2 1 3 3 1
    (fun _ a => nth a [1; 0; 0]%Z 0%Z)
    (fun _ a i => nth i (nth a [[-1; -1]; [1; 0]; [0; 1]] [])%Z 0%Z)
    (fun _ => 1%Z)
    (fun fc _ a => if (fc =? a)%nat then 0%Z else 1%Z)
    (fun _ _ a i => nth i (nth a [[-1; -1]; [1; 0]; [0; 1]] [])%Z 0%Z)
    (fun _ _ => 1%Z)
    (fun fc i => nth i (nth fc [[1; 1]; [-1; 0]; [0; -1]] [])%Z 0%Z)
    [[1; 2]; [0; 2]; [0; 1]]
    [[0; 3]] [[0; 0]] [[5; 7]]%Z.
Definition ex_maps : user_maps Zops Z :=
  mkMaps (Some (fun g ivs i j => (g i j + g j i + match ivs with v :: _ => v | [] => 0 end)%Z))
         (Some (fun u x ivs k => (u k * u k + x k)%Z)) None
         (Some [fun u x ivs k => (u k + 2 * x k)%Z]) None.
Definition ex_p : problem Zops Z :=
  mkProblem [ex_fe] [[(0, 2); (1, 1)]] ex_maps [[(fun _ => 3%Z); (fun _ => 4%Z)]] [[]].
Definition ex_sol : list (list (list Zops)) := [[[1; 2]; [3; 4]; [5; 6]; [7; 9]]%Z].
Definition ex_kf : nat -> face_in Zops Z -> list Zops :=
  fun _ => surface_kernel ex_p (fun u x ivs k => (u k + 2 * x k)%Z).

Ltac in_list H := repeat (destruct H as [H|H]; [|]); try (exfalso; exact H).

Example ex_wf : wf_problem ex_p.
Proof.
  constructor.
  - intros f [<-|[]]. reflexivity.
  - intros f cell [<-|[]] [<-|[<-|[]]]; reflexivity.
  - intros f cell n [<-|[]] [<-|[<-|[]]] Hn; cbn in Hn; unfold num_total_nodes; cbn; lia.
  - intros b c fc [<-|[]] [H|[H|[]]]; injection H as <- <-; unfold p_num_cells, num_cells; cbn; lia.
Qed.
Example ex_cells : 0 < p_num_cells ex_p.
Proof. cbn. lia. Qed.
Example ex_sol_ok : sol_ok ex_p ex_sol.
Proof.
  split; [reflexivity|]. intros v Hv. cbn in Hv. assert (v = 0) as -> by lia. split; [reflexivity|].
  intros row Hr. cbn in Hr. destruct Hr as [<-|[<-|[<-|[<-|[]]]]]; reflexivity.
Qed.
Example ex_ivs : ivs_ok ex_p.
Proof.
  split; [intros iv [<-|[]]; reflexivity|]. split; [reflexivity|]. intros s iv Hs Hiv.
  cbn in Hs. assert (s = 0) as -> by lia. destruct Hiv.
Qed.
Example ex_kernels : kernels_ok ex_p ex_kf.
Proof.
  apply (C14_standard_kernels Zops Z ex_p ex_fe); try reflexivity.
  - left. discriminate.
  - split; [reflexivity|]. intros [|s] sm H; cbn in H; [injection H as <-; reflexivity|].
    destruct s; discriminate.
Qed.
(** The theorems C14, C15 apply; the residual is not trivial. *)
Example ex_residual :
  compute_residual (K := Zops) (fun x => x) ex_p (map points (fes ex_p)) ex_sol
  = Ok [[[2; 2]; [6; 6]; [7; 14]; [15; 24]]]%Z.
Proof. vm_compute. reflexivity. Qed.
Example ex_elem_dofs : elem_dofs ex_p 1 = [0; 1; 4; 5; 6; 7].
Proof. reflexivity. Qed.

(** Two variables with different meshes (4 nodes x 2 components, 3 nodes x 1 component), a
    universal kernel and a universal surface kernel. *)
Definition ex2_fe : fe Zops :=
  mkFe (K := Zops) [[0; 0]; [1; 0]; [1; 1]]%Z [[0; 1]; [2; 1]] 1 2 1 2 3 1
    (fun _ _ => 1%Z) (fun _ _ _ => 0%Z) (fun _ => 1%Z) (fun _ _ _ => 0%Z) (fun _ _ _ _ => 0%Z)
    (fun _ _ => 1%Z) (fun _ _ => 0%Z) [[1; 2]; [0; 2]; [0; 1]] [] [] [].
Definition ex2_p : problem Zops Z :=
  mkProblem [ex_fe; ex2_fe] [[(1, 0)]]
    (mkMaps None None (Some (fun ci => map (fun x => (3 * x)%Z) (ci_sol ci))) None
            (Some [fun fi => map (fun x => (x + 1)%Z) (fi_sol fi)])) [] [[]].
Definition ex2_kf : nat -> face_in Zops Z -> list Zops := fun _ fi => map (fun x => (x + 1)%Z) (fi_sol fi).
Definition ex2_sol : list (list (list Zops)) := [[[1; 2]; [3; 4]; [5; 6]; [7; 9]]; [[10]; [20]; [30]]]%Z.
(** the linear part of both kernels *)
Definition ex2_jvp (f : list Zops -> list Zops) (x v : list Zops) : list Zops :=
  map2 Z.sub (f (map2 Z.add x v)) (f x).

Example ex2_numbering :
  valid_dof (global_shapes ex2_p) 1 2 0 /\ dof_number (global_shapes ex2_p) 1 2 0 = 10 /\
  all_dofs (global_shapes ex2_p) = 11.
Proof. repeat split; cbn; lia. Qed.
Example ex2_wf : wf_problem ex2_p /\ 0 < p_num_cells ex2_p /\ sol_ok ex2_p ex2_sol /\ ivs_ok ex2_p /\ kernels_ok ex2_p ex2_kf.
Proof.
  split; [|split; [cbn; lia|split; [|split]]].
  - constructor.
    + intros f [<-|[<-|[]]]; reflexivity.
    + intros f cell [<-|[<-|[]]] [<-|[<-|[]]]; reflexivity.
    + intros f cell n [<-|[<-|[]]] [<-|[<-|[]]] Hn; cbn in Hn; unfold num_total_nodes; cbn; lia.
    + intros b c fc [<-|[]] [H|[]]; injection H as <- <-; unfold p_num_cells, num_cells; cbn; lia.
  - split; [reflexivity|]. intros [|[|v]] Hv; cbn in Hv; try lia; (split; [reflexivity|]); intros row Hr; cbn in Hr;
      intuition (subst; reflexivity).
  - split; [intros iv []|split; [reflexivity|]]. intros s iv Hs Hiv. cbn in Hs. assert (s = 0) as -> by lia. destruct Hiv.
  - split.
    + intros ci H. unfold kernel_cell. cbn [maps ex2_p universal_kernel mass_map tensor_map option_map badd unscalar].
      now rewrite map_length.
    + intros s Hs. cbn in Hs. assert (s = 0) as -> by lia. split; [reflexivity|]. intros fi H.
      unfold ex2_kf. now rewrite map_length.
Qed.
Ltac len := unfold unit_vec, line1; repeat rewrite ?map_length, ?length_map2, ?seq_length; cbn [car Zops Rops] in *; lia.
Lemma ex2_affine (m c : Z) x : jvp_affine ex2_jvp (map (fun x => (m * x + c)%Z)) x.
Proof.
  intros v k Hv.
  assert (E : forall i, nth k (ex2_jvp (map (fun x => (m * x + c)%Z)) x (unit_vec (K := Zops) (length x) i)) 0%Z
     = if (k <? length x)%nat then if (k =? i)%nat then m else 0%Z else 0%Z).
  { intros i. unfold ex2_jvp. destruct (Nat.ltb_spec k (length x)) as [L|L].
    - rewrite (nth_map2 _ _ _ _ 0%Z 0%Z) by
        len.
      rewrite !(nth_map_in _ _ _ 0%Z) by len.
      rewrite (nth_map2 _ _ _ _ 0%Z 0%Z) by len.
      unfold unit_vec. rewrite (nth_map_in _ _ _ 0) by (rewrite seq_length; lia). rewrite seq_nth by lia.
      cbn [Nat.add]. destruct (k =? i); cbn; ring.
    - rewrite nth_overflow; [reflexivity|]. rewrite length_map2, !map_length, length_map2.
      unfold unit_vec. rewrite map_length, seq_length. lia. }
  change (nth k (map (fun x => (m * x + c)%Z) (line1 (K := Zops) x v 1%Z)) 0%Z = (nth k (map (fun x => (m * x + c)%Z) x) 0 +
    sum_n (K := Zops) (length x) (fun l => nth k (ex2_jvp (map (fun x => (m * x + c)%Z)) x (unit_vec (K := Zops) (length x) l)) 0 * nth l v 0))%Z).
  destruct (Nat.lt_ge_cases k (length x)) as [L|L].
  - rewrite (sum_n_single Zops_ring _ k) by (auto; intros i Hi Hne; rewrite (E i);
      replace (k =? i) with false by (symmetry; apply Nat.eqb_neq; auto); destruct (k <? length x); reflexivity).
    rewrite (E k), Nat.eqb_refl. replace (k <? length x) with true by (symmetry; now apply Nat.ltb_lt).
    unfold line1. rewrite !(nth_map_in _ _ _ 0%Z) by len.
    rewrite (nth_map2 _ _ _ _ 0%Z 0%Z) by len. set (a := nth k x 0%Z); set (b := nth k v 0%Z); change ((m * (a + 1 * b) + c)%Z = (m * a + c + m * b)%Z); ring.
  - rewrite (sum_n_zero_ext Zops_ring) by (intros i Hi; rewrite (E i); destruct (Nat.ltb_spec k (length x)); [lia|reflexivity]).
    rewrite !nth_overflow by len. reflexivity.
Qed.
(** C16_affine_exact applies to ex2_p *)
Example ex2_affine_hyps :
  (forall c, c < p_num_cells ex2_p -> jvp_affine ex2_jvp (cell_fun ex2_p [] ex2_sol c) (cell_values ex2_p ex2_sol c)) /\
  (forall s i, s < length (boundary_inds_list ex2_p) -> i < num_sel_faces ex2_p s ->
     jvp_affine ex2_jvp (face_fun (fun x => x) ex2_p [] ex2_sol ex2_kf s i) (cell_values ex2_p ex2_sol (face_cell ex2_p s i))).
Proof.
  assert (T : forall (f g : list Zops -> list Zops) x, (forall y, f y = g y) -> jvp_affine ex2_jvp f x -> jvp_affine ex2_jvp g x).
  { intros f g x E H v k Hv. rewrite <- !E. rewrite H by auto. f_equal. apply sum_n_ext. intros i Hi.
    unfold ex2_jvp. now rewrite !E. }
  split.
  - intros c Hc. apply (T (map (fun x => (3 * x + 0)%Z))); [|apply ex2_affine].
    intros y. apply map_ext. intros a. apply Z.add_0_r.
  - intros s i Hs Hi. apply (T (map (fun x => (1 * x + 1)%Z))); [|apply ex2_affine].
    intros y. apply map_ext. intros a. now rewrite Z.mul_1_l.
Qed.

(** A nonlinear kernel over R with its true derivative: the hypotheses of C16_matrix_is_derivative. *)
Definition exR_fe : fe Rops :=
  mkFe (K := Rops) [[0]; [1]; [2]]%R [[0; 1]; [1; 2]] 1 1 1 2 0 0
    (fun _ _ => 1%R) (fun _ _ _ => 0%R) (fun _ => 1%R) (fun _ _ _ => 0%R) (fun _ _ _ _ => 0%R)
    (fun _ _ => 1%R) (fun _ _ => 0%R) [] [] [] [].
Definition exR_p : problem Rops unit :=
  mkProblem [exR_fe] [] (mkMaps None None (Some (fun ci => map (fun x => (x * x)%R) (ci_sol ci))) None None) [] [].
Definition exR_jvp (f : list Rops -> list Rops) (x v : list Rops) : list Rops := map2 (fun a b => (2 * a * b)%R) x v.
Example exR_hyps : forall x, jvp_correct exR_jvp (cell_fun exR_p [] [] 0) x.
Proof.
  intros x v k Hv.
  assert (E : forall i, nth k (exR_jvp (cell_fun exR_p [] [] 0) x (unit_vec (K := Rops) (length x) i)) 0%R
     = (2 * nth k x 0 * (if (k <? length x)%nat then if (k =? i)%nat then 1 else 0 else 0))%R).
  { intros i. unfold exR_jvp. destruct (Nat.ltb_spec k (length x)) as [L|L].
    - rewrite (nth_map2 _ _ _ _ 0%R 0%R) by len.
      unfold unit_vec. rewrite (nth_map_in _ _ _ 0) by (rewrite seq_length; lia). rewrite seq_nth by lia. reflexivity.
    - rewrite nth_overflow; [symmetry; apply Rmult_0_r|]. rewrite length_map2.
      unfold unit_vec. rewrite map_length, seq_length. lia. }
  change (derivable_pt_lim (fun t => nth k (map (fun x => (x * x)%R) (line1 (K := Rops) x v t)) 0%R) 0
    (sum_n (K := Rops) (length x) (fun l => (nth k (exR_jvp (cell_fun exR_p [] [] 0) x (unit_vec (length x) l)) 0 * nth l v 0)%R))).
  destruct (Nat.lt_ge_cases k (length x)) as [L|L].
  - rewrite (sum_n_single Rops_ring _ k).
    2:{ exact L. }
    2:{ intros i Hi Hne. rewrite (E i). replace (k =? i) with false by (symmetry; apply Nat.eqb_neq; auto).
        destruct (k <? length x); cbn; ring. }
    rewrite (E k), Nat.eqb_refl. replace (k <? length x) with true by (symmetry; now apply Nat.ltb_lt).
    apply (dlim_ext (fun t => (nth k x 0 + t * nth k v 0) * (nth k x 0 + t * nth k v 0))%R).
    { intros t. rewrite (nth_map_in _ _ _ 0%R) by len.
      now rewrite (nth_line1 Rops_ring) by auto. }
    set (a := nth k x 0%R). set (b := nth k v 0%R).
    replace (2 * a * 1 * b)%R with ((0 + 1 * b) * (a + 0 * b) + (a + 0 * b) * (0 + 1 * b))%R by ring.
    assert (D : derivable_pt_lim (fun t => (a + t * b)%R) 0 (0 + 1 * b)%R).
    { apply (derivable_pt_lim_plus (fun _ => a) (fun t => (t * b)%R)); [apply derivable_pt_lim_const|].
      replace (1 * b)%R with (1 * b + 0 * 0)%R by ring.
      apply (derivable_pt_lim_mult (fun t => t) (fun _ => b)); [apply derivable_pt_lim_id|apply derivable_pt_lim_const]. }
    exact (derivable_pt_lim_mult _ _ _ _ _ D D).
  - rewrite (sum_n_zero_ext Rops_ring).
    2:{ intros i Hi. rewrite (E i). destruct (Nat.ltb_spec k (length x)); [lia|]. cbn. ring. }
    apply (dlim_ext (fun _ => 0%R)).
    { intros t. rewrite nth_overflow; [reflexivity|]. rewrite map_length. unfold line1. rewrite length_map2. lia. }
    apply derivable_pt_lim_const.
Qed.
