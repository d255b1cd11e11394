(** Model of applications/surrogate_model/train.py and applications/surrogate_model/example.py: a neural network as strain energy.
    Real arithmetic; arrays of fixed length are index functions.  The initial weights, the optimizer (optax.adam), the pickled file and the gradient of the loss
    with respect to the weights are not modelled: every statement holds for all weights. *)
From Coq Require Import Reals String List Arith Bool.
From Verif Require Import Num Arr Fe Problem Lagrangian.
Import ListNotations.
Local Open Scope R_scope.
Local Notation sum := (sum_n (K := Rops)).

(** One nn.Dense: kernel indexed by input and output, bias by output (flax). *)
Record dense := mkDense { kernel : nat -> nat -> R; bias : nat -> R }.
(** flax: x @ kernel + bias, for an input of length n *)
Definition dense_apply (n : nat) (d : dense) (x : nat -> R) (j : nat) : R := sum n (fun i => x i * kernel d i j) + bias d j.
(** nn.elu with alpha = 1: x for x > 0, otherwise exp(x) - 1 *)
Definition elu (x : R) : R := if Rlt_dec 0 x then x else exp x - 1.
(** its derivative in jax: the branches of jax.numpy.where are differentiated one by one *)
Definition elu_grad (x : R) : R := if Rlt_dec 0 x then 1 else exp x.

(** train.py:26-40: the weights of Network *)
Record params := mkParams { dense0 : dense; dense1 : dense; dense2 : dense; dense3 : dense }.
Definition width : nat := 128.
(** train.py:33-40: the three hidden layers before their activation, and the output *)
Definition pre0 (p : params) (x : nat -> R) : nat -> R := dense_apply 3 (dense0 p) x.
Definition pre1 (p : params) (x : nat -> R) : nat -> R := dense_apply width (dense1 p) (fun i => elu (pre0 p x i)).
Definition pre2 (p : params) (x : nat -> R) : nat -> R := dense_apply width (dense2 p) (fun i => elu (pre1 p x i)).
Definition network (p : params) (x : nat -> R) : R := dense_apply width (dense3 p) (fun i => elu (pre2 p x i)) 0.

(** train.py:71-75 for one input: jax.grad in reverse mode, layer by layer *)
Definition back3 (p : params) (j : nat) : R := kernel (dense3 p) j 0.
Definition back2 (p : params) (x : nat -> R) (j : nat) : R := sum width (fun k => kernel (dense2 p) j k * (elu_grad (pre2 p x k) * back3 p k)).
Definition back1 (p : params) (x : nat -> R) (j : nat) : R := sum width (fun k => kernel (dense1 p) j k * (elu_grad (pre1 p x k) * back2 p x k)).
Definition compute_input_gradient (p : params) (x : nat -> R) (i : nat) : R := sum width (fun k => kernel (dense0 p) i k * (elu_grad (pre0 p x k) * back1 p x k)).
(** train.py:72-73 for a batch of b inputs: the sum of the outputs *)
Definition batch_forward (p : params) (b : nat) (x : nat -> nat -> R) : R := sum b (fun r => network p (x r)).
(** train.py:74-75 for a batch: each output depends on its own row only *)
Definition batch_gradient (p : params) (x : nat -> nat -> R) (r i : nat) : R := compute_input_gradient p (x r) i.

(** train.py:83-86; the mean over the b times 3 entries.  An empty batch (nan) does not occur. *)
Definition nllloss (p : params) (b : nat) (x y_label : nat -> nat -> R) : R :=
  let loss r i := sqrt ((y_label r i - batch_gradient p x r i) ^ 2 / (y_label r i ^ 2 + / 10 ^ 3)) in
  sum b (fun r => sum 3 (loss r)) / INR (b * 3).

(** train.py:57-64: strain and label of one sample; pk2 is a 2 x 2 array *)
Definition getitem (e_data : list (nat -> R)) (pk2_data : list (nat -> nat -> R)) (idx : nat) : (nat -> R) * (nat -> R) :=
  let pk2 := nth idx pk2_data (fun _ _ => 0) in
  (nth idx e_data (fun _ => 0), fun i => match i with 0%nat => pk2 0%nat 0%nat | 1%nat => pk2 1%nat 0%nat | _ => pk2 1%nat 1%nat end).
(** train.py:122-123: indices[1:len(x_data):1] *)
Definition train_indices (len : nat) : list nat := skipn 1 (seq 0 len).
(** torch DataLoader with batch_size and drop_last=False: the drawn indices in groups; fuel is the number of indices *)
Fixpoint chunks (fuel k : nat) (l : list nat) : list (list nat) :=
  match fuel with
  | O => []
  | S fuel' => match l with [] => [] | _ => firstn k l :: chunks fuel' k (skipn k l) end
  end.
(** train.py:123-125: one epoch; the sampler draws a permutation of its indices *)
Definition epoch_batches (drawn : list nat) : list (list nat) := chunks (length drawn) 16 drawn.

Definition tensor := nat -> nat -> R.
Definition delta (i j : nat) : R := if (i =? j)%nat then 1 else 0.
(** example.py:36-40 *)
Definition def_grad (u_grad : tensor) : tensor := fun i j => u_grad i j + delta i j.
Definition green (F : tensor) : tensor := fun i j => / 2 * (sum 2 (fun k => F k i * F k j) - delta i j).
(** example.py:31 *)
Definition voigt (E : tensor) : nat -> R := fun i => match i with 0%nat => E 0%nat 0%nat | 1%nat => E 0%nat 1%nat | _ => E 1%nat 1%nat end.
(** example.py:30-34 *)
Definition P_fn (p : params) (p_initial : nat -> R) (E : tensor) : tensor :=
  let P i := compute_input_gradient p (voigt E) i - p_initial i in
  fun i j => match i, j with 0%nat, 0%nat => P 0%nat | 1%nat, 1%nat => P 2%nat | _, _ => P 1%nat end.
(** example.py:36-43 *)
Definition first_PK_stress (p : params) (p_initial : nat -> R) (u_grad : tensor) : tensor :=
  let F := def_grad u_grad in
  let Pk2 := P_fn p p_initial (green F) in
  fun i j => sum 2 (fun k => F i k * Pk2 k j).
(** example.py:106-107 *)
Definition initial_stress (p : params) : nat -> R := compute_input_gradient p (fun _ => 0).
Definition surrogate_stress (p : params) (u_grad : tensor) : tensor := first_PK_stress p (initial_stress p) u_grad.

(** example.py:64-87 with Lx = Ly = 30; the values are [dirichlet_val_bottom] three times and get_dirichlet_top(-0.05*30) *)
Definition su_bottom (point : list Rops) : bool := isclose (nth 1 point 0) 0 (/ 10 ^ 5).
Definition su_top (point : list Rops) : bool := isclose (nth 1 point 0) 30 (/ 10 ^ 5).
Definition su_bc : list (location_fn Rops) * list nat * list (list Rops -> Rops) :=
  ([Loc1 su_bottom; Loc1 su_bottom; Loc1 su_top; Loc1 su_top], [0; 1; 0; 1]%nat, [fun _ => 0; fun _ => 0; fun _ => 0; fun _ => - (5 / 100) * 30]).
