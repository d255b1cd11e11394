(** Structured meshes: index arithmetic and geometry. *)
From Coq Require Import String List Arith Bool Lia Reals Lra ZArith.
From Verif Require Import Num Arr ArrFacts Fe Problem Mesh SpecMesh.
Import ListNotations.

Definition row {A} (n : nat) (f : nat -> A) : list A := map f (seq 0 n).
Definition grid {A} (n m : nat) (f : nat -> nat -> A) : list (list A) := row n (fun i => row m (f i)).
Definition cube {A} (n m p : nat) (f : nat -> nat -> nat -> A) : list (list (list A)) := row n (fun i => grid m p (f i)).

Section Rows.
  Context {A B C : Type}.
  Lemma row_len n (f : nat -> A) : length (row n f) = n.
  Proof. unfold row. now rewrite map_length, seq_length. Qed.
  Lemma nth_row n (f : nat -> A) i d : i < n -> nth i (row n f) d = f i.
  Proof. intros H. unfold row. rewrite (nth_map_in _ _ _ 0) by now rewrite seq_length. now rewrite seq_nth. Qed.
  Lemma row_ext n (f g : nat -> A) : (forall i, i < n -> f i = g i) -> row n f = row n g.
  Proof. intros H. apply map_ext_in. intros i Hi. apply in_seq in Hi. apply H. lia. Qed.
  Lemma in_row n (f : nat -> A) x : In x (row n f) <-> exists i, i < n /\ x = f i.
  Proof.
    unfold row. rewrite in_map_iff. split.
    - intros (i & E & Hi). apply in_seq in Hi. exists i. split; [lia|congruence].
    - intros (i & Hi & E). exists i. split; [congruence|]. apply in_seq. lia.
  Qed.
  Lemma row_app n m (f : nat -> A) : row (n + m) f = row n f ++ row m (fun i => f (n + i)).
  Proof.
    unfold row. rewrite seq_app, map_app. f_equal. cbn [plus].
    assert (G : forall k, map f (seq (n + k) m) = map (fun i => f (n + i)) (seq k m)).
    { induction m as [|m' IH]; intros k; [reflexivity|]. cbn. f_equal. rewrite <- IH. now rewrite Nat.add_succ_r. }
    specialize (G 0). now rewrite Nat.add_0_r in G.
  Qed.
  Lemma row_S n (f : nat -> A) : row (n + 1) f = row n f ++ [f n].
  Proof. rewrite row_app. cbn. now rewrite Nat.add_0_r. Qed.
  Lemma row_cons n (f : nat -> A) : row (n + 1) f = f 0 :: row n (fun i => f (S i)).
  Proof. rewrite Nat.add_comm, row_app. reflexivity. Qed.
  Lemma removelast_row n (f : nat -> A) : upto_last (row (n + 1) f) = row n f.
  Proof. unfold upto_last. rewrite row_S. apply removelast_last. Qed.
  Lemma tl_row n (f : nat -> A) : from_second (row (n + 1) f) = row n (fun i => f (S i)).
  Proof. unfold from_second. now rewrite row_cons. Qed.
End Rows.

Lemma map_row {A B} (h : A -> B) n (f : nat -> A) : map h (row n f) = row n (fun i => h (f i)).
Proof. unfold row. now rewrite map_map. Qed.
Lemma map2_row {A B C} (h : A -> B -> C) n f g : map2 h (row n f) (row n g) = row n (fun i => h (f i) (g i)).
Proof. unfold row, map2. induction (seq 0 n) as [|i l IH]; [reflexivity|]. cbn. now rewrite IH. Qed.
Lemma map_grid {A B} (h : A -> B) n m f : map (map h) (grid n m f) = grid n m (fun i j => h (f i j)).
Proof. unfold grid. rewrite map_row. apply row_ext. intros. apply map_row. Qed.
Lemma map2_grid {A B C} (h : A -> B -> C) n m f g :
  map2 (map2 h) (grid n m f) (grid n m g) = grid n m (fun i j => h (f i j) (g i j)).
Proof. unfold grid. rewrite map2_row. apply row_ext. intros. apply map2_row. Qed.
Lemma map_cube {A B} (h : A -> B) n m p f : map (map (map h)) (cube n m p f) = cube n m p (fun i j k => h (f i j k)).
Proof. unfold cube. rewrite map_row. apply row_ext. intros. apply map_grid. Qed.
Lemma map2_cube {A B C} (h : A -> B -> C) n m p f g :
  map2 (map2 (map2 h)) (cube n m p f) (cube n m p g) = cube n m p (fun i j k => h (f i j k) (g i j k)).
Proof. unfold cube. rewrite map2_row. apply row_ext. intros. apply map2_grid. Qed.

Lemma grid_lo1 {A} n m (f : nat -> nat -> A) : upto_last (grid (n + 1) m f) = grid n m f.
Proof. apply removelast_row. Qed.
Lemma grid_hi1 {A} n m (f : nat -> nat -> A) : from_second (grid (n + 1) m f) = grid n m (fun i => f (S i)).
Proof. apply tl_row. Qed.
Lemma grid_lo2 {A} n m (f : nat -> nat -> A) : map upto_last (grid n (m + 1) f) = grid n m f.
Proof. unfold grid. rewrite map_row. apply row_ext. intros. apply removelast_row. Qed.
Lemma grid_hi2 {A} n m (f : nat -> nat -> A) : map from_second (grid n (m + 1) f) = grid n m (fun i j => f i (S j)).
Proof. unfold grid. rewrite map_row. apply row_ext. intros. apply tl_row. Qed.
Lemma cube_lo1 {A} n m p (f : nat -> nat -> nat -> A) : upto_last (cube (n + 1) m p f) = cube n m p f.
Proof. apply removelast_row. Qed.
Lemma cube_hi1 {A} n m p (f : nat -> nat -> nat -> A) : from_second (cube (n + 1) m p f) = cube n m p (fun i => f (S i)).
Proof. apply tl_row. Qed.
Lemma cube_lo2 {A} n m p (f : nat -> nat -> nat -> A) : map upto_last (cube n (m + 1) p f) = cube n m p f.
Proof. unfold cube. rewrite map_row. apply row_ext. intros. apply grid_lo1. Qed.
Lemma cube_hi2 {A} n m p (f : nat -> nat -> nat -> A) :
  map from_second (cube n (m + 1) p f) = cube n m p (fun i j => f i (S j)).
Proof. unfold cube. rewrite map_row. apply row_ext. intros. apply grid_hi1. Qed.
Lemma cube_lo3 {A} n m p (f : nat -> nat -> nat -> A) : map (map upto_last) (cube n m (p + 1) f) = cube n m p f.
Proof. unfold cube. rewrite map_row. apply row_ext. intros. apply grid_lo2. Qed.
Lemma cube_hi3 {A} n m p (f : nat -> nat -> nat -> A) :
  map (map from_second) (cube n m (p + 1) f) = cube n m p (fun i j k => f i j (S k)).
Proof. unfold cube. rewrite map_row. apply row_ext. intros. apply grid_hi2. Qed.

Lemma div_mod_add i m j : j < m -> (i * m + j) / m = i /\ (i * m + j) mod m = j.
Proof.
  intros H. split.
  - rewrite Nat.add_comm, Nat.div_add by lia. now rewrite Nat.div_small.
  - rewrite Nat.add_comm, Nat.mod_add by lia. now apply Nat.mod_small.
Qed.
Lemma div_mod_lt q n m : q < n * m -> q / m < n /\ q mod m < m /\ q = q / m * m + q mod m.
Proof.
  intros H. assert (m <> 0) by (intros ->; lia). split; [|split].
  - apply Nat.div_lt_upper_bound; lia.
  - now apply Nat.mod_upper_bound.
  - rewrite (Nat.div_mod_eq q m) at 1. lia.
Qed.
Lemma add_lt i n m j : i < n -> j < m -> i * m + j < n * m.
Proof. intros. nia. Qed.

Lemma concat_grid {A} n m (f : nat -> nat -> A) : concat (grid n m f) = row (n * m) (fun q => f (q / m) (q mod m)).
Proof.
  induction n as [|n IH]; [reflexivity|].
  replace (S n * m) with (n * m + m) by lia. rewrite row_app, <- IH.
  unfold grid. rewrite <- Nat.add_1_r, row_S, concat_app. f_equal. cbn. rewrite app_nil_r.
  apply row_ext. intros j Hj. destruct (div_mod_add n m j Hj) as [-> ->]. reflexivity.
Qed.
Lemma concat_cube {A} n m p (f : nat -> nat -> nat -> A) :
  concat (concat (cube n m p f)) = row (n * m * p) (fun q => f (q / p / m) ((q / p) mod m) (q mod p)).
Proof.
  unfold cube. change (row n (fun i => grid m p (f i))) with (grid n m (fun i j => row p (f i j))).
  rewrite concat_grid. apply (concat_grid (n * m) p).
Qed.

Lemma firstn_seq s n m : n <= m -> firstn n (seq s m) = seq s n.
Proof. revert s m; induction n; intros s m H; [reflexivity|]. destruct m; [lia|]. cbn. f_equal. apply IHn. lia. Qed.
Lemma skipn_seq s n m : skipn n (seq s m) = seq (s + n) (m - n).
Proof.
  revert s m; induction n; intros s m; [cbn; now rewrite Nat.add_0_r, Nat.sub_0_r|].
  destruct m; [reflexivity|]. cbn. rewrite IHn. f_equal. lia.
Qed.
Lemma seq_row s n : seq s n = row n (fun i => s + i).
Proof.
  apply nth_ext with (d := 0) (d' := 0); [now rewrite row_len, seq_length|]. intros i Hi. rewrite seq_length in Hi.
  now rewrite seq_nth, nth_row.
Qed.
Lemma chunk_row {A} n m (f : nat -> A) : chunk n m (row (n * m) f) = grid n m (fun i j => f (i * m + j)).
Proof.
  revert f; induction n as [|n IH]; intros f; [reflexivity|].
  replace (S n * m) with (m + n * m) by lia. rewrite row_app. cbn [chunk].
  rewrite firstn_app, row_len, Nat.sub_diag, firstn_O, app_nil_r, firstn_all2 by now rewrite row_len.
  rewrite skipn_app, row_len, Nat.sub_diag, skipn_O, skipn_all2, app_nil_l by now rewrite row_len.
  rewrite IH. unfold grid. rewrite <- (Nat.add_1_r n), row_cons. f_equal. apply row_ext. intros i _. apply row_ext. intros j _. f_equal. lia.
Qed.
Lemma chunk3_seq a b c : chunk3 a b c (seq 0 (a * b * c)) = cube a b c (fun i j k => (i * b + j) * c + k).
Proof.
  unfold chunk3. rewrite seq_row, <- Nat.mul_assoc, chunk_row. unfold cube, grid at 1. rewrite map_row. apply row_ext. intros i _.
  rewrite (chunk_row b c (fun j => 0 + (i * (b * c) + j))). unfold grid. apply row_ext. intros j _. apply row_ext. intros k _. lia.
Qed.

Local Open Scope R_scope.

Lemma linspace_row L N : (0 < N)%nat -> linspace L (N + 1) = row (N + 1) (fun i => INR i * L / INR N).
Proof.
  intros HN. unfold linspace, row. apply map_ext_in. intros i Hi. apply in_seq in Hi.
  destruct (Nat.eqb_spec (N + 1) 1) as [E|_]; [lia|].
  assert (INR N <> 0) by (apply not_0_INR; lia).
  destruct (Nat.eqb_spec (S i) (N + 1)) as [E|E].
  - replace i with N by lia. field. assumption.
  - replace (N + 1 - 1)%nat with N by lia. field. assumption.
Qed.
Lemma linspace_len L n : length (linspace L n) = n.
Proof. unfold linspace. now rewrite map_length, seq_length. Qed.

(** What the two generators compute *)
Definition quad_of (Ny i j : nat) : list nat :=
  [i * (Ny + 1) + j; (i + 1) * (Ny + 1) + j; (i + 1) * (Ny + 1) + (j + 1); i * (Ny + 1) + (j + 1)]%nat.
Lemma rectangle_rows Nx Ny Lx Ly : (0 < Nx)%nat -> (0 < Ny)%nat ->
  rectangle_mesh Nx Ny Lx Ly =
  mkMesh (row ((Nx + 1) * (Ny + 1)) (fun q => [INR (q / (Ny + 1)) * Lx / INR Nx; INR (q mod (Ny + 1)) * Ly / INR Ny])) "quad"
         (row (Nx * Ny) (fun q => quad_of Ny (q / Ny) (q mod Ny))).
Proof.
  intros HX HY. unfold rectangle_mesh. rewrite !linspace_row by assumption. rewrite !map_row.
  set (P := concat (stack2 _)).
  assert (HP : P = row ((Nx + 1) * (Ny + 1)) (fun q => [INR (q / (Ny + 1)) * Lx / INR Nx; INR (q mod (Ny + 1)) * Ly / INR Ny])).
  { unfold P. rewrite (row_ext (Nx + 1) (fun i => map (fun _ : R => INR i * Lx / INR Nx) (row (Ny + 1) (fun j => INR j * Ly / INR Ny)))
      (fun i => row (Ny + 1) (fun _ => INR i * Lx / INR Nx))) by
      (intros i _; apply (map_row (fun _ : R => INR i * Lx / INR Nx))).
    change (row (Nx + 1) (fun i => row (Ny + 1) (fun _ => INR i * Lx / INR Nx))) with (grid (Nx + 1) (Ny + 1) (fun i _ => INR i * Lx / INR Nx)).
    change (row (Nx + 1) (fun _ => row (Ny + 1) (fun i => INR i * Ly / INR Ny))) with (grid (Nx + 1) (Ny + 1) (fun _ j => INR j * Ly / INR Ny)).
    unfold stack2. cbn [fold_right hd]. rewrite map_grid, !map2_grid, concat_grid. reflexivity. }
  rewrite HP, row_len. f_equal.
  rewrite seq_row, chunk_row, !grid_lo1, !grid_hi1, !grid_lo2, !grid_hi2.
  unfold stack2. cbn [fold_right hd]. rewrite map_grid, !map2_grid, concat_grid. apply row_ext. intros q _. unfold quad_of.
  repeat (apply f_equal2; [lia|]). reflexivity.
Qed.

Definition hex_of (Ny Nz i j k : nat) : list nat :=
  let p i j k := ((i * (Ny + 1) + j) * (Nz + 1) + k)%nat in
  [p i j k; p (i + 1) j k; p (i + 1) (j + 1) k; p i (j + 1) k; p i j (k + 1); p (i + 1) j (k + 1); p (i + 1) (j + 1) (k + 1); p i (j + 1) (k + 1)]%nat.
Lemma box_rows Nx Ny Nz Lx Ly Lz : (0 < Nx)%nat -> (0 < Ny)%nat -> (0 < Nz)%nat ->
  box_mesh Nx Ny Nz Lx Ly Lz =
  mkMesh (row ((Nx + 1) * (Ny + 1) * (Nz + 1)) (fun q =>
            [INR (q / (Nz + 1) / (Ny + 1)) * Lx / INR Nx; INR ((q / (Nz + 1)) mod (Ny + 1)) * Ly / INR Ny; INR (q mod (Nz + 1)) * Lz / INR Nz])) "hexahedron"
         (row (Nx * Ny * Nz) (fun q => hex_of Ny Nz (q / Nz / Ny) ((q / Nz) mod Ny) (q mod Nz))).
Proof.
  intros HX HY HZ. unfold box_mesh. rewrite !linspace_row by assumption. cbv zeta.
  set (P := concat (concat (stack3 _))).
  assert (HP : P = row ((Nx + 1) * (Ny + 1) * (Nz + 1)) (fun q =>
            [INR (q / (Nz + 1) / (Ny + 1)) * Lx / INR Nx; INR ((q / (Nz + 1)) mod (Ny + 1)) * Ly / INR Ny; INR (q mod (Nz + 1)) * Lz / INR Nz])).
  { unfold P.
    replace (map (fun a => map _ _) (row (Nx + 1) _)) with (cube (Nx + 1) (Ny + 1) (Nz + 1) (fun i _ _ => INR i * Lx / INR Nx)).
    2:{ unfold cube, grid. rewrite map_row. apply row_ext. intros. rewrite map_row. apply row_ext. intros. now rewrite map_row. }
    replace (map (fun _ => map (fun b => map _ _) _) _) with (cube (Nx + 1) (Ny + 1) (Nz + 1) (fun _ j _ => INR j * Ly / INR Ny)).
    2:{ unfold cube, grid. rewrite map_row. apply row_ext. intros. rewrite map_row. apply row_ext. intros. now rewrite map_row. }
    replace (map (fun _ => map (fun _ => _) _) _) with (cube (Nx + 1) (Ny + 1) (Nz + 1) (fun _ _ k => INR k * Lz / INR Nz)).
    2:{ unfold cube, grid. rewrite map_row. apply row_ext. intros. rewrite map_row. apply row_ext. reflexivity. }
    unfold stack3. cbn [fold_right hd]. rewrite map_cube, !map2_cube, concat_cube. reflexivity. }
  rewrite HP, row_len. f_equal.
  rewrite chunk3_seq, !cube_lo1, !cube_hi1, !cube_lo2, !cube_hi2, !cube_lo3, !cube_hi3.
  unfold stack3. cbn [fold_right hd]. rewrite map_cube, !map2_cube, concat_cube. apply row_ext. intros q _. unfold hex_of. cbv zeta.
  repeat (apply f_equal2; [lia|]). reflexivity.
Qed.
