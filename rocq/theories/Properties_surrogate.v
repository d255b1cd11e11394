(** C109: the neural network surrogate as a material. *)
From Coq Require Import Reals String List Arith Lia Lra Bool Permutation.
From Verif Require Import Num Arr Fe Problem Basis SpecBc SpecFe Init Surrogate SpecSurrogate SurrogateMain SurrogateMore.
Import ListNotations.
Local Open Scope R_scope.
Local Notation sum := (sum_n (K := Rops)).

(** The gradient of the network is its true gradient for all weights and inputs, also where an activation has argument zero. *)
Theorem C109_gradient : forall p x i, (i < 3)%nat -> derivable_pt_lim (fun t => network p (put x i t)) (x i) (compute_input_gradient p x i).
Proof. exact network_partial. Qed.
Print Assumptions C109_gradient.
(** and along every curve of inputs *)
Theorem C109_chain : forall p (x : R -> nat -> R) dx t, (forall i, (i < 3)%nat -> derivable_pt_lim (fun s => x s i) t (dx i)) ->
  derivable_pt_lim (fun s => network p (x s)) t (sum 3 (fun i => dx i * compute_input_gradient p (x t) i)).
Proof. exact network_curve. Qed.
Print Assumptions C109_chain.
(** The gradient of the summed outputs of a batch is, row by row, the gradient of the single input. *)
Theorem C109_batch : forall p b x r i, (r < b)%nat -> (i < 3)%nat -> derivable_pt_lim (fun t => batch_forward p b (put2 x r i t)) (x r i) (batch_gradient p x r i).
Proof. exact batch_partial. Qed.
Print Assumptions C109_batch.
(** The stress turns with the body. *)
Theorem C109_objective : forall p p_initial Q G H, orthogonal2 Q -> same2 (def_grad H) (times2 Q (def_grad G)) ->
  same2 (first_PK_stress p p_initial H) (times2 Q (first_PK_stress p p_initial G)).
Proof. exact objective. Qed.
Print Assumptions C109_objective.
(** A body that is only turned has no stress: the stress at the strain free state has been subtracted. *)
Theorem C109_rest : forall p G, orthogonal2 (def_grad G) -> forall i j, (i < 2)%nat -> (j < 2)%nat -> surrogate_stress p G i j = 0.
Proof. exact rest. Qed.
Print Assumptions C109_rest.
(** Balance of angular momentum: P F^T is symmetric. *)
Theorem C109_moment : forall p p_initial G, same2 (times2 (first_PK_stress p p_initial G) (transp (def_grad G))) (transp (times2 (first_PK_stress p p_initial G) (transp (def_grad G)))).
Proof. exact moment. Qed.
Print Assumptions C109_moment.
(** The power of the stress is the rate of the network's energy (without its linear part) plus shear stress times shear strain rate: the shear strain enters once, not twice. *)
Theorem C109_power : forall p (G : R -> nat -> nat -> R) dG t, (forall i j, (i < 2)%nat -> (j < 2)%nat -> derivable_pt_lim (fun s => G s i j) t (dG i j)) ->
  exists dE12, derivable_pt_lim (fun s => green (def_grad (G s)) 0%nat 1%nat) t dE12 /\
    derivable_pt_lim (fun s => network p (voigt (green (def_grad (G s)))) - sum 3 (fun i => initial_stress p i * voigt (green (def_grad (G s))) i)) t
      (contract2 (surrogate_stress p (G t)) dG - P_fn p (initial_stress p) (green (def_grad (G t))) 0%nat 1%nat * dE12).
Proof. exact power. Qed.
Print Assumptions C109_power.
(** False that the stress always comes from a stored energy: there are weights for which it has none, neither the network nor any other. *)
Theorem C109_stored_energy_refuted : ~ (forall p, exists Psi, stored_energy (surrogate_stress p) Psi).
Proof. intros H. exact (no_energy (H wit)). Qed.
Print Assumptions C109_stored_energy_refuted.
(** The loss is the mean of the errors relative to sqrt (label^2 + 0.001), it is zero exactly when every label is met. *)
Theorem C109_loss : forall p b x y, (0 < b)%nat ->
  nllloss p b x y = sum b (fun r => sum 3 (fun i => Rabs (y r i - compute_input_gradient p (x r) i) / sqrt (y r i ^ 2 + / 10 ^ 3))) / INR (b * 3) /\ 0 <= nllloss p b x y /\
  (nllloss p b x y = 0 <-> forall r i, (r < b)%nat -> (i < 3)%nat -> y r i = compute_input_gradient p (x r) i).
Proof. intros p b x y Hb. split; [apply loss_mean|]. split; [apply loss_nonneg|now apply loss_zero]. Qed.
Print Assumptions C109_loss.
(** With zero loss on a batch of symmetric stresses the second Piola-Kirchhoff stress before the shift is the data. *)
Theorem C109_fitted : forall p e_data pk2_data batch, batch <> [] -> (forall idx, In idx batch -> nth idx pk2_data (fun _ _ => 0) 0%nat 1%nat = nth idx pk2_data (fun _ _ => 0) 1%nat 0%nat) ->
  nllloss p (length batch) (fun r => fst (getitem e_data pk2_data (nth r batch 0%nat))) (fun r => snd (getitem e_data pk2_data (nth r batch 0%nat))) = 0 ->
  forall idx E, In idx batch -> (forall i, (i < 3)%nat -> voigt E i = nth idx e_data (fun _ => 0) i) -> same2 (P_fn p (fun _ => 0) E) (nth idx pk2_data (fun _ _ => 0)).
Proof. exact fitted. Qed.
Print Assumptions C109_fitted.
(** An epoch uses every sample but the first exactly once, in batches of at most 16. *)
Theorem C109_epoch : forall n drawn, Permutation drawn (train_indices n) -> let B := epoch_batches drawn in
  concat B = drawn /\ NoDup (concat B) /\ (forall i, In i (concat B) <-> (1 <= i < n)%nat) /\ (forall b, In b B -> (0 < length b <= 16)%nat) /\ length B = ((n - 1 + 15) / 16)%nat.
Proof. exact epoch. Qed.
Print Assumptions C109_epoch.
(** The boundary values: both components zero at the bottom, zero and -1.5 at the top, nothing elsewhere. *)
Theorem C109_boundary : forall s quad fquad normals pts cls (f : fe Rops) n k, fe_init sqrt s quad fquad normals pts cls 2 2 (Some su_bc) = Ok f -> (n < length pts)%nat -> (k < 2)%nat ->
  let y := nth 1 (nth n pts []) 0 in
  (Rabs y <= / 10 ^ 5 -> prescribed f n k = Some 0) /\ (Rabs (y - 30) <= 31 / 10 ^ 5 -> prescribed f n k = Some (if (k =? 1)%nat then - (3 / 2) else 0)) /\
  (/ 10 ^ 5 < Rabs y -> 31 / 10 ^ 5 < Rabs (y - 30) -> prescribed f n k = None).
Proof. exact su_values. Qed.
Print Assumptions C109_boundary.

(** Hypotheses are met: a quarter turn is orthogonal; 20 samples drawn in reverse order give two batches. *)
Example C109_turn : orthogonal2 (mat2 0 (-1) 1 0).
Proof. intros [|[|i]] [|[|j]] Hi Hj; try lia; unfold times2, transp, one2, mat2; ring. Qed.
Example C109_twenty : epoch_batches (rev (train_indices 21)) = [[20; 19; 18; 17; 16; 15; 14; 13; 12; 11; 10; 9; 8; 7; 6; 5]; [4; 3; 2; 1]]%nat /\ Permutation (rev (train_indices 21)) (train_indices 21).
Proof. split; [reflexivity|]. apply Permutation_sym, Permutation_rev. Qed.
(** a network that is not trivial: the witness of the refutation has stress exp (E11 + E12 - 1) - exp (-1) under tension *)
Example C109_tension : surrogate_stress wit (mat2 (1 / 20) 0 0 0) 0%nat 0%nat = 21 / 20 * (exp (41 / 800 - 1) - exp (-1)).
Proof. replace (1 / 20) with (21 / 20 - 1) by lra. rewrite (wit_00 (21 / 20) 0) by lra. replace ((21 / 20 * (21 / 20) - 1) / 2 + 21 / 20 * 0 / 2 - 1) with (41 / 800 - 1) by field. ring. Qed.
