(** numpy / jax.numpy array primitives on lists.
    An array of shape (n,) is a list of length n, (n, m) a list of n lists of
    length m, and so on.  Only the primitives jax_fem uses are here.
    Integer index arrays hold non-negative indices (negative indices, which
    numpy wraps, do not occur in well-formed meshes and are outside the model). *)
From Coq Require Import List Arith Lia Bool.
Import ListNotations.

(** x[i] on a jax array: an out-of-range index is clamped (jax gather).
    np.take(x, i) agrees for in-range indices (it fills with NaN otherwise). *)
Definition gather {A} (d : A) (l : list A) (i : nat) : A :=
  nth (Nat.min i (length l - 1)) l d.

(** x[inds] for an index array (fe.py:338, problem.py:441: sol[cells]). *)
Definition take {A} (d : A) (l : list A) (inds : list nat) : list A :=
  map (gather d l) inds.

(** One jax scatter update; an out-of-range update is dropped. *)
Fixpoint upd_nth {A} (i : nat) (f : A -> A) (l : list A) : list A :=
  match l, i with
  | [], _ => []
  | x :: t, O => f x :: t
  | x :: t, S i' => x :: upd_nth i' f t
  end.

Definition upd2 {A} (i j : nat) (f : A -> A) (l : list (list A)) : list (list A) :=
  upd_nth i (upd_nth j f) l.

(** Total read used to state what an array holds. *)
Definition get2 {A} (d : A) (l : list (list A)) (i j : nat) : A := nth j (nth i l []) d.

(** x[is, js] with two index arrays of equal length. *)
Definition gather2 {A} (d : A) (l : list (list A)) (is_ js : list nat) : list A :=
  map (fun ij => gather d (gather [] l (fst ij)) (snd ij)) (combine is_ js).

(** x.at[is, js].set(vs) *)
Definition at_set2 {A} (l : list (list A)) (is_ js : list nat) (vs : list A) : list (list A) :=
  fold_left (fun acc u => upd2 (fst (fst u)) (snd (fst u)) (fun _ => snd u) acc)
            (combine (combine is_ js) vs) l.

(** x.at[is, js].add(vs) *)
Definition at_add2 {A} (plus : A -> A -> A) (l : list (list A)) (is_ js : list nat) (vs : list A)
  : list (list A) :=
  fold_left (fun acc u => upd2 (fst (fst u)) (snd (fst u)) (fun x => plus x (snd u)) acc)
            (combine (combine is_ js) vs) l.

Definition map2 {A B C} (f : A -> B -> C) (l : list A) (m : list B) : list C :=
  map (fun ab => f (fst ab) (snd ab)) (combine l m).

(** x.at[is].add(rows) for a 2-d x: whole rows are added. *)
Definition at_add_rows {A} (plus : A -> A -> A) (l : list (list A)) (is_ : list nat)
    (rows : list (list A)) : list (list A) :=
  fold_left (fun acc u => upd_nth (fst u) (fun row => map2 plus row (snd u)) acc)
            (combine is_ rows) l.

(** np.argwhere on a 1-d / 2-d boolean array: indices in increasing (lexicographic) order. *)
Definition argwhere (flags : list bool) : list nat :=
  map fst (filter (fun p => snd p) (combine (seq 0 (length flags)) flags)).
Definition argwhere2 (flags : list (list bool)) : list (nat * nat) :=
  flat_map (fun p => map (fun j => (fst p, j)) (argwhere (snd p)))
           (combine (seq 0 (length flags)) flags).

(** x[lo:hi] *)
Definition slice {A} (lo hi : nat) (l : list A) : list A := firstn (hi - lo) (skipn lo l).
(** x[lo:] *)
Definition slice_from {A} (lo : nat) (l : list A) : list A := skipn lo l.

(** reshape of a flat array to (n, c). *)
Fixpoint chunk {A} (n c : nat) (l : list A) : list (list A) :=
  match n with
  | O => []
  | S n' => firstn c l :: chunk n' c (skipn c l)
  end.

(** jax.flatten_util.ravel_pytree on a list of 2-d arrays (problem.py:115,118):
    C-order, arrays one after another ... *)
Definition ravel {A} (l : list (list (list A))) : list A := concat (map (@concat A) l).
(** ... and the unflatten function it returns, for the shapes (n_i, c_i). *)
Fixpoint unravel {A} (shapes : list (nat * nat)) (l : list A) : list (list (list A)) :=
  match shapes with
  | [] => []
  | (n, c) :: t => chunk n c (firstn (n * c) l) :: unravel t (skipn (n * c) l)
  end.

(** A list of 2-d arrays has the given shapes. *)
Definition has_shape2 {A} (n c : nat) (l : list (list A)) : Prop :=
  length l = n /\ Forall (fun row => length row = c) l.
Definition has_shapes {A} (shapes : list (nat * nat)) (l : list (list (list A))) : Prop :=
  Forall2 (fun s x => has_shape2 (fst s) (snd s) x) shapes l.
Definition total_size (shapes : list (nat * nat)) : nat :=
  fold_right (fun s acc => fst s * snd s + acc) 0 shapes.

(** np.zeros((n, c)) *)
Definition zeros2 {A} (z : A) (n c : nat) : list (list A) := repeat (repeat z c) n.

(** np.transpose of a (n, m) array given m (needed when n = 0). *)
Definition transpose {A} (d : A) (m : nat) (l : list (list A)) : list (list A) :=
  map (fun j => map (fun row => nth j row d) l) (seq 0 m).
