(** The structured meshes are conforming tilings. *)
From Coq Require Import String List Arith Bool Lia Reals Lra ZArith.
From Verif Require Import Num Arr ArrFacts Fe Problem Mesh SpecMesh MeshFacts.
Import ListNotations.
Local Open Scope R_scope.

(** One axis divided in N steps of length L / N *)
Lemma step_pos L N : 0 < L -> (0 < N)%nat -> 0 < L / INR N.
Proof. intros. apply Rdiv_lt_0_compat; auto. now apply lt_0_INR. Qed.
Lemma axis_cover h N x : 0 <= h -> (0 < N)%nat -> 0 <= x <= INR N * h -> exists i, (i < N)%nat /\ INR i * h <= x <= INR (i + 1) * h.
Proof.
  intros Hh. induction N as [|N IH]; intros HN Hx; [lia|].
  destruct (Rle_dec x (INR N * h)) as [H|H].
  - destruct N as [|N'].
    + exists 0%nat. split; [lia|]. rewrite plus_INR. cbn in *. lra.
    + destruct IH as (i & Hi & E); [lia|lra|]. exists i. split; [lia|lra].
  - exists N. split; [lia|]. rewrite Nat.add_1_r. lra.
Qed.
Lemma axis_le h i j : 0 < h -> INR i * h <= INR j * h -> (i <= j)%nat.
Proof. intros Hh H. apply INR_le. apply Rmult_le_reg_r with h; lra. Qed.
Lemma axis_lt h i j : 0 < h -> INR i * h < INR j * h -> (i < j)%nat.
Proof. intros Hh H. apply INR_lt. apply Rmult_lt_reg_r with h; lra. Qed.
Lemma axis_disjoint h i j x : 0 < h -> INR i * h < x < INR (i + 1) * h -> INR j * h < x < INR (j + 1) * h -> i = j.
Proof.
  intros Hh A B. assert (i < j + 1)%nat by (apply (axis_lt h); lra). assert (j < i + 1)%nat by (apply (axis_lt h); lra). lia.
Qed.
Lemma axis_node h i p : 0 < h -> INR i * h <= INR p * h <= INR (i + 1) * h -> p = i \/ p = (i + 1)%nat.
Proof. intros Hh A. assert (i <= p)%nat by (apply (axis_le h); lra). assert (p <= i + 1)%nat by (apply (axis_le h); lra). lia. Qed.
Lemma axis_inj h i j : h <> 0 -> INR i * h = INR j * h -> i = j.
Proof. intros Hh H. apply INR_eq. now apply Rmult_eq_reg_r with h. Qed.

Lemma fold_const {A} (f : A -> R) l v : (forall a, In a l -> f a = v) -> fold_right Rplus 0 (map f l) = INR (length l) * v.
Proof.
  intros H. induction l as [|a l IH]; [cbn; ring|]. cbn [map fold_right length]. rewrite S_INR, IH, (H a) by (try intros; try apply H; cbn; auto).
  ring.
Qed.
Lemma nodup_row {A} n (f : nat -> A) : (forall i j, (i < n)%nat -> (j < n)%nat -> f i = f j -> i = j) -> NoDup (row n f).
Proof.
  intros H. unfold row. assert (G : forall l, NoDup l -> (forall i, In i l -> (i < n)%nat) -> NoDup (map f l)).
  { induction l as [|a l IH]; intros ND Hl; [constructor|]. inversion ND as [|? ? Ha ND']; subst. cbn. constructor.
    - rewrite in_map_iff. intros (b & E & Hb). assert (b = a) by (apply H; auto; apply Hl; cbn; auto). now subst.
    - apply IH; auto. intros; apply Hl; cbn; auto. }
  apply G; [apply seq_NoDup|]. intros i Hi. apply in_seq in Hi. lia.
Qed.

    Lemma axis_in h i N : 0 < h -> (i < N)%nat -> 0 <= INR i * h /\ INR (i + 1) * h <= INR N * h.
    Proof.
      intros Hh Hi. split; [apply Rmult_le_pos; [apply pos_INR|lra]|]. apply Rmult_le_compat_r; [lra|]. apply le_INR. lia.
    Qed.
  Lemma index_inj i j i' j' m : (j < m)%nat -> (j' < m)%nat -> (i * m + j = i' * m + j')%nat -> i = i' /\ j = j'.
  Proof.
    intros H H' E. destruct (div_mod_add i m j H) as [A B], (div_mod_add i' m j' H') as [A' B']. rewrite E in A, B. split; congruence.
  Qed.

Section Rect.
  Context (Nx Ny : nat) (Lx Ly : R) (HX : (0 < Nx)%nat) (HY : (0 < Ny)%nat).
  Let M := rectangle_mesh Nx Ny Lx Ly.
  Let hx := Lx / INR Nx.
  Let hy := Ly / INR Ny.

  Lemma rect_type : m_type M = "quad"%string.
  Proof. reflexivity. Qed.
  Lemma rect_points_len : length (m_points M) = ((Nx + 1) * (Ny + 1))%nat.
  Proof. unfold M. rewrite rectangle_rows by assumption. apply row_len. Qed.
  Lemma rect_cells_len : length (m_cells M) = (Nx * Ny)%nat.
  Proof. unfold M. rewrite rectangle_rows by assumption. apply row_len. Qed.
  Lemma rect_point i j : (i <= Nx)%nat -> (j <= Ny)%nat ->
    nth (i * (Ny + 1) + j) (m_points M) [] = [INR i * Lx / INR Nx; INR j * Ly / INR Ny].
  Proof.
    intros Hi Hj. unfold M. rewrite rectangle_rows by assumption. cbn [m_points].
    rewrite nth_row by (apply add_lt; lia). destruct (div_mod_add i (Ny + 1) j) as [-> ->]; [lia|]. reflexivity.
  Qed.
  Lemma rect_point_inv p : (p < length (m_points M))%nat ->
    exists i j, (i <= Nx)%nat /\ (j <= Ny)%nat /\ p = (i * (Ny + 1) + j)%nat.
  Proof.
    rewrite rect_points_len. intros H. destruct (div_mod_lt _ _ _ H) as (A & B & C).
    exists (p / (Ny + 1))%nat, (p mod (Ny + 1))%nat. repeat split; try lia.
  Qed.
  Lemma rect_cell i j : (i < Nx)%nat -> (j < Ny)%nat -> nth (i * Ny + j) (m_cells M) [] = quad_of Ny i j.
  Proof.
    intros Hi Hj. unfold M. rewrite rectangle_rows by assumption. cbn [m_cells].
    rewrite nth_row by (apply add_lt; lia). destruct (div_mod_add i Ny j) as [-> ->]; [lia|]. reflexivity.
  Qed.
  Lemma rect_in c : In c (m_cells M) <-> exists i j, (i < Nx)%nat /\ (j < Ny)%nat /\ c = quad_of Ny i j.
  Proof.
    unfold M. rewrite rectangle_rows by assumption. cbn [m_cells]. rewrite in_row. split.
    - intros (q & Hq & ->). destruct (div_mod_lt _ _ _ Hq) as (A & B & C). eauto.
    - intros (i & j & Hi & Hj & ->). exists (i * Ny + j)%nat. split; [now apply add_lt|].
      destruct (div_mod_add i Ny j Hj) as [-> ->]. reflexivity.
  Qed.
  Lemma rect_vertex i j a : (i < Nx)%nat -> (j < Ny)%nat -> (a < 4)%nat ->
    vertex M (quad_of Ny i j) a 0 = INR (match a with 1 | 2 => i + 1 | _ => i end)%nat * hx /\
    vertex M (quad_of Ny i j) a 1 = INR (match a with 2 | 3 => j + 1 | _ => j end)%nat * hy.
  Proof.
    intros Hi Hj Ha. unfold vertex, hx, hy.
    destruct a as [|[|[|[|a]]]]; try lia; cbn [nth quad_of]; rewrite rect_point by lia; cbn [nth]; split; field; apply not_0_INR; lia.
  Qed.
  Lemma rect_area i j : (i < Nx)%nat -> (j < Ny)%nat -> quad_area M (quad_of Ny i j) = hx * hy.
  Proof.
    intros Hi Hj. unfold quad_area. cbv zeta.
    pose proof (fun a => rect_vertex i j a Hi Hj) as V.
    destruct (V 0%nat) as [A0 B0]; [lia|]. destruct (V 1%nat) as [A1 B1]; [lia|]. destruct (V 2%nat) as [A2 B2]; [lia|]. destruct (V 3%nat) as [A3 B3]; [lia|].
    rewrite A0, A1, A2, A3, B0, B1, B2, B3, !plus_INR. cbn [INR]. field.
  Qed.
  Lemma rect_turns i j x y : (i < Nx)%nat -> (j < Ny)%nat ->
    let c := quad_of Ny i j in
    turn M c 0 1 x y = hx * (y - INR j * hy) /\ turn M c 1 2 x y = hy * (INR (i + 1) * hx - x) /\
    turn M c 2 3 x y = hx * (INR (j + 1) * hy - y) /\ turn M c 3 0 x y = hy * (x - INR i * hx).
  Proof.
    intros Hi Hj c. pose proof (fun a => rect_vertex i j a Hi Hj) as V. fold c in V.
    destruct (V 0%nat) as [A0 B0]; [lia|]. destruct (V 1%nat) as [A1 B1]; [lia|]. destruct (V 2%nat) as [A2 B2]; [lia|]. destruct (V 3%nat) as [A3 B3]; [lia|].
    unfold turn. rewrite A0, A1, A2, A3, B0, B1, B2, B3, !plus_INR. cbn [INR]. repeat split; ring.
  Qed.

  Theorem rect_total : over_cells M (quad_area M) = Lx * Ly.
  Proof.
    unfold over_cells. rewrite (fold_const _ _ (hx * hy)).
    - rewrite rect_cells_len, mult_INR. unfold hx, hy. field. split; apply not_0_INR; lia.
    - intros c Hc. apply rect_in in Hc as (i & j & Hi & Hj & ->). now apply rect_area.
  Qed.
  Theorem rect_used p : (p < length (m_points M))%nat -> exists c, In c (m_cells M) /\ In p c.
  Proof.
    intros H. destruct (rect_point_inv p H) as (i & j & Hi & Hj & ->).
    exists (quad_of Ny (Nat.min i (Nx - 1)) (Nat.min j (Ny - 1))). split.
    - apply rect_in. exists (Nat.min i (Nx - 1)), (Nat.min j (Ny - 1)). repeat split; lia.
    - unfold quad_of.
      destruct (Nat.eq_dec i Nx) as [->|Di], (Nat.eq_dec j Ny) as [->|Dj].
      + replace (Nat.min Nx (Nx - 1) + 1)%nat with Nx by lia. replace (Nat.min Ny (Ny - 1) + 1)%nat with Ny by lia. cbn. auto.
      + replace (Nat.min Nx (Nx - 1) + 1)%nat with Nx by lia. replace (Nat.min j (Ny - 1)) with j by lia. cbn. auto.
      + replace (Nat.min i (Nx - 1))%nat with i by lia. replace (Nat.min Ny (Ny - 1) + 1)%nat with Ny by lia. cbn. auto.
      + replace (Nat.min i (Nx - 1))%nat with i by lia. replace (Nat.min j (Ny - 1)) with j by lia. cbn. auto.
  Qed.
  Theorem rect_valid c p : In c (m_cells M) -> In p c -> (p < length (m_points M))%nat.
  Proof.
    intros Hc Hp. apply rect_in in Hc as (i & j & Hi & Hj & ->). rewrite rect_points_len.
    unfold quad_of in Hp. cbn in Hp. destruct Hp as [<-|[<-|[<-|[<-|[]]]]]; apply add_lt; lia.
  Qed.
  Theorem rect_nodup_cells : NoDup (m_cells M).
  Proof.
    unfold M. rewrite rectangle_rows by assumption. cbn [m_cells]. apply nodup_row. intros p q Hp Hq E.
    destruct (div_mod_lt _ _ _ Hp) as (A & B & C). destruct (div_mod_lt _ _ _ Hq) as (A' & B' & C').
    inversion E as [E1]. apply index_inj in E1; [|lia|lia]. destruct E1 as [E1 E2]. rewrite C, C', E1, E2. reflexivity.
  Qed.
  Theorem rect_nodup_cell c : In c (m_cells M) -> NoDup c.
  Proof.
    intros Hc. apply rect_in in Hc as (i & j & Hi & Hj & ->). unfold quad_of.
    repeat constructor; cbn; intros H; repeat (destruct H as [H|H]; [nia|]); exact H.
  Qed.
  Theorem rect_nodup_points : Lx <> 0 -> Ly <> 0 -> NoDup (m_points M).
  Proof.
    intros NX NY. unfold M. rewrite rectangle_rows by assumption. cbn [m_points]. apply nodup_row. intros p q Hp Hq E.
    destruct (div_mod_lt _ _ _ Hp) as (A & B & C). destruct (div_mod_lt _ _ _ Hq) as (A' & B' & C').
    assert (INR Nx <> 0) by (apply not_0_INR; lia). assert (INR Ny <> 0) by (apply not_0_INR; lia).
    inversion E as [[E1 E2]].
    assert (F1 : (p / (Ny + 1))%nat = (q / (Ny + 1))%nat).
    { apply (axis_inj (Lx / INR Nx)); [|lra]. unfold Rdiv. apply Rmult_integral_contrapositive. split; auto. now apply Rinv_neq_0_compat. }
    assert (F2 : (p mod (Ny + 1))%nat = (q mod (Ny + 1))%nat).
    { apply (axis_inj (Ly / INR Ny)); [|lra]. unfold Rdiv. apply Rmult_integral_contrapositive. split; auto. now apply Rinv_neq_0_compat. }
    rewrite C, C', F1, F2. reflexivity.
  Qed.

  Section Positive.
    Context (PX : 0 < Lx) (PY : 0 < Ly).
    Let hxp : 0 < hx. Proof. now apply step_pos. Qed.
    Let hyp : 0 < hy. Proof. now apply step_pos. Qed.
    Let ex : INR Nx * hx = Lx. Proof. unfold hx. field. apply not_0_INR. lia. Qed.
    Let ey : INR Ny * hy = Ly. Proof. unfold hy. field. apply not_0_INR. lia. Qed.

    Lemma in_quad_box i j x y : (i < Nx)%nat -> (j < Ny)%nat ->
      (in_quad M (quad_of Ny i j) x y <-> INR i * hx <= x <= INR (i + 1) * hx /\ INR j * hy <= y <= INR (j + 1) * hy).
    Proof.
      intros Hi Hj. destruct (rect_turns i j x y Hi Hj) as (A & B & C & D). unfold in_quad. rewrite A, B, C, D. split.
      - intros (P1 & P2 & P3 & P4). repeat split; apply Rnot_lt_le; intros N; nra.
      - intros ((P1 & P2) & (P3 & P4)). repeat split; apply Rmult_le_pos; lra.
    Qed.
    Lemma inside_quad_box i j x y : (i < Nx)%nat -> (j < Ny)%nat ->
      (inside_quad M (quad_of Ny i j) x y <-> INR i * hx < x < INR (i + 1) * hx /\ INR j * hy < y < INR (j + 1) * hy).
    Proof.
      intros Hi Hj. destruct (rect_turns i j x y Hi Hj) as (A & B & C & D). unfold inside_quad. rewrite A, B, C, D. split.
      - intros (P1 & P2 & P3 & P4). repeat split; apply Rnot_le_lt; intros N; nra.
      - intros ((P1 & P2) & (P3 & P4)). repeat split; apply Rmult_lt_0_compat; lra.
    Qed.
    Theorem rect_cover x y : (0 <= x <= Lx /\ 0 <= y <= Ly) <-> exists c, In c (m_cells M) /\ in_quad M c x y.
    Proof.
      split.
      - intros [Bx By]. destruct (axis_cover hx Nx x) as (i & Hi & Ex); [lra|lia|lra|].
        destruct (axis_cover hy Ny y) as (j & Hj & Ey); [lra|lia|lra|].
        exists (quad_of Ny i j). split; [apply rect_in; eauto|]. apply in_quad_box; auto.
      - intros (c & Hc & Q). apply rect_in in Hc as (i & j & Hi & Hj & ->). apply in_quad_box in Q; auto.
        pose proof (axis_in hx i Nx hxp Hi). pose proof (axis_in hy j Ny hyp Hj). lra.
    Qed.
    Theorem rect_disjoint x y c c' : In c (m_cells M) -> In c' (m_cells M) -> inside_quad M c x y -> inside_quad M c' x y -> c = c'.
    Proof.
      intros Hc Hc' Q Q'. apply rect_in in Hc as (i & j & Hi & Hj & ->). apply rect_in in Hc' as (i' & j' & Hi' & Hj' & ->).
      apply inside_quad_box in Q; auto. apply inside_quad_box in Q'; auto. destruct Q as [Qx Qy], Q' as [Qx' Qy'].
      rewrite (axis_disjoint hx i i' x), (axis_disjoint hy j j' y); auto.
    Qed.
    Theorem rect_no_hanging p c : (p < length (m_points M))%nat -> In c (m_cells M) ->
      in_quad M c (nth 0 (nth p (m_points M) []) 0) (nth 1 (nth p (m_points M) []) 0) -> In p c.
    Proof.
      intros Hp Hc Q. destruct (rect_point_inv p Hp) as (u & v & Hu & Hv & ->). rewrite rect_point in Q by assumption. cbn [nth] in Q.
      apply rect_in in Hc as (i & j & Hi & Hj & ->). apply in_quad_box in Q; auto. destruct Q as [Qx Qy].
      assert (Qx' : INR i * hx <= INR u * hx <= INR (i + 1) * hx) by (unfold hx in *; lra).
      assert (Qy' : INR j * hy <= INR v * hy <= INR (j + 1) * hy) by (unfold hy in *; lra).
      unfold quad_of. destruct (axis_node hx i u) as [-> | ->]; auto; destruct (axis_node hy j v) as [-> | ->]; auto; cbn; auto.
    Qed.
    Theorem rect_oriented c : In c (m_cells M) -> 0 < quad_area M c.
    Proof.
      intros Hc. apply rect_in in Hc as (i & j & Hi & Hj & ->). rewrite rect_area by assumption. now apply Rmult_lt_0_compat.
    Qed.
  End Positive.
End Rect.

Section Box.
  Context (Nx Ny Nz : nat) (Lx Ly Lz : R) (HX : (0 < Nx)%nat) (HY : (0 < Ny)%nat) (HZ : (0 < Nz)%nat).
  Let M := box_mesh Nx Ny Nz Lx Ly Lz.
  Let hx := Lx / INR Nx.
  Let hy := Ly / INR Ny.
  Let hz := Lz / INR Nz.

  Lemma box_type : m_type M = "hexahedron"%string.
  Proof. reflexivity. Qed.
  Lemma box_points_len : length (m_points M) = ((Nx + 1) * (Ny + 1) * (Nz + 1))%nat.
  Proof. unfold M. rewrite box_rows by assumption. apply row_len. Qed.
  Lemma box_cells_len : length (m_cells M) = (Nx * Ny * Nz)%nat.
  Proof. unfold M. rewrite box_rows by assumption. apply row_len. Qed.
  Lemma box_point i j k : (i <= Nx)%nat -> (j <= Ny)%nat -> (k <= Nz)%nat ->
    nth ((i * (Ny + 1) + j) * (Nz + 1) + k) (m_points M) [] = [INR i * Lx / INR Nx; INR j * Ly / INR Ny; INR k * Lz / INR Nz].
  Proof.
    intros Hi Hj Hk. unfold M. rewrite box_rows by assumption. cbn [m_points].
    rewrite nth_row by (apply add_lt; [apply add_lt|]; lia). destruct (div_mod_add (i * (Ny + 1) + j) (Nz + 1) k) as [-> ->]; [lia|].
    destruct (div_mod_add i (Ny + 1) j) as [-> ->]; [lia|]. reflexivity.
  Qed.
  Lemma box_point_inv p : (p < length (m_points M))%nat ->
    exists i j k, (i <= Nx)%nat /\ (j <= Ny)%nat /\ (k <= Nz)%nat /\ p = ((i * (Ny + 1) + j) * (Nz + 1) + k)%nat.
  Proof.
    rewrite box_points_len. intros H. destruct (div_mod_lt _ _ _ H) as (A & B & C). destruct (div_mod_lt _ _ _ A) as (A' & B' & C').
    exists (p / (Nz + 1) / (Ny + 1))%nat, ((p / (Nz + 1)) mod (Ny + 1))%nat, (p mod (Nz + 1))%nat.
    rewrite <- C'. repeat split; try lia.
  Qed.
  Lemma box_cell i j k : (i < Nx)%nat -> (j < Ny)%nat -> (k < Nz)%nat -> nth ((i * Ny + j) * Nz + k) (m_cells M) [] = hex_of Ny Nz i j k.
  Proof.
    intros Hi Hj Hk. unfold M. rewrite box_rows by assumption. cbn [m_cells].
    rewrite nth_row by (apply add_lt; [apply add_lt|]; lia). destruct (div_mod_add (i * Ny + j) Nz k) as [-> ->]; [lia|].
    destruct (div_mod_add i Ny j) as [-> ->]; [lia|]. reflexivity.
  Qed.
  Lemma box_in c : In c (m_cells M) <-> exists i j k, (i < Nx)%nat /\ (j < Ny)%nat /\ (k < Nz)%nat /\ c = hex_of Ny Nz i j k.
  Proof.
    split.
    - unfold M. rewrite box_rows by assumption. cbn [m_cells]. rewrite in_row. intros (q & Hq & ->).
      destruct (div_mod_lt _ _ _ Hq) as (A & B & C). destruct (div_mod_lt _ _ _ A) as (A' & B' & C'). eauto 10.
    - intros (i & j & k & Hi & Hj & Hk & ->). rewrite <- box_cell by assumption. apply nth_In. rewrite box_cells_len.
      apply add_lt; auto. now apply add_lt.
  Qed.
  Lemma box_vertex i j k a : (i < Nx)%nat -> (j < Ny)%nat -> (k < Nz)%nat -> (a < 8)%nat ->
    vertex M (hex_of Ny Nz i j k) a 0 = INR (match a with 1 | 2 | 5 | 6 => i + 1 | _ => i end)%nat * hx /\
    vertex M (hex_of Ny Nz i j k) a 1 = INR (match a with 2 | 3 | 6 | 7 => j + 1 | _ => j end)%nat * hy /\
    vertex M (hex_of Ny Nz i j k) a 2 = INR (match a with 4 | 5 | 6 | 7 => k + 1 | _ => k end)%nat * hz.
  Proof.
    intros Hi Hj Hk Ha. unfold vertex, hx, hy, hz.
    destruct a as [|[|[|[|[|[|[|[|a]]]]]]]]; try lia; cbn [nth hex_of]; rewrite box_point by lia; cbn [nth]; repeat split; field; apply not_0_INR; lia.
  Qed.
  Lemma box_volume i j k : (i < Nx)%nat -> (j < Ny)%nat -> (k < Nz)%nat -> hex_volume M (hex_of Ny Nz i j k) = hx * hy * hz.
  Proof.
    intros Hi Hj Hk. unfold hex_volume. cbv zeta.
    pose proof (fun a => box_vertex i j k a Hi Hj Hk) as V.
    destruct (V 0%nat) as (A0 & B0 & C0); [lia|]. destruct (V 1%nat) as (A1 & B1 & C1); [lia|].
    destruct (V 3%nat) as (A3 & B3 & C3); [lia|]. destruct (V 4%nat) as (A4 & B4 & C4); [lia|].
    rewrite A0, A1, A3, A4, B0, B1, B3, B4, C0, C1, C3, C4, !plus_INR. cbn [INR]. ring.
  Qed.
  Theorem box_total : over_cells M (hex_volume M) = Lx * Ly * Lz.
  Proof.
    unfold over_cells. rewrite (fold_const _ _ (hx * hy * hz)).
    - rewrite box_cells_len, !mult_INR. unfold hx, hy, hz. field. repeat split; apply not_0_INR; lia.
    - intros c Hc. apply box_in in Hc as (i & j & k & Hi & Hj & Hk & ->). now apply box_volume.
  Qed.
  Lemma near u N : (0 < N)%nat -> (u <= N)%nat -> exists i, (i < N)%nat /\ (u = i \/ u = (i + 1)%nat).
  Proof. intros. destruct (Nat.eq_dec u N); [exists (N - 1)%nat|exists u]; lia. Qed.
  Theorem box_used p : (p < length (m_points M))%nat -> exists c, In c (m_cells M) /\ In p c.
  Proof.
    intros H. destruct (box_point_inv p H) as (u & v & w & Hu & Hv & Hw & ->).
    destruct (near u Nx HX Hu) as (i & Hi & Ei), (near v Ny HY Hv) as (j & Hj & Ej), (near w Nz HZ Hw) as (k & Hk & Ek).
    exists (hex_of Ny Nz i j k). split; [apply box_in; eauto 10|].
    destruct Ei as [-> | ->], Ej as [-> | ->], Ek as [-> | ->]; unfold hex_of; cbn [In]; tauto.
  Qed.
  Theorem box_valid c p : In c (m_cells M) -> In p c -> (p < length (m_points M))%nat.
  Proof.
    intros Hc Hp. apply box_in in Hc as (i & j & k & Hi & Hj & Hk & ->). rewrite box_points_len.
    unfold hex_of in Hp. cbn [In] in Hp.
    repeat destruct Hp as [<-|Hp]; try (apply add_lt; [apply add_lt|]; lia). destruct Hp.
  Qed.
  Theorem box_nodup_cells : NoDup (m_cells M).
  Proof.
    unfold M. rewrite box_rows by assumption. cbn [m_cells]. apply nodup_row. intros p q Hp Hq E.
    destruct (div_mod_lt _ _ _ Hp) as (A & B & C). destruct (div_mod_lt _ _ _ Hq) as (A' & B' & C').
    destruct (div_mod_lt _ _ _ A) as (D & F & G). destruct (div_mod_lt _ _ _ A') as (D' & F' & G').
    unfold hex_of in E. cbv zeta in E. apply (f_equal (fun l => nth 0 l 0%nat)) in E. cbn [nth] in E.
    apply index_inj in E; [|lia|lia]. destruct E as [E1 E2].
    apply index_inj in E1; [|lia|lia]. destruct E1 as [E1 E3]. rewrite C, C', G, G', E1, E2, E3. reflexivity.
  Qed.
  Theorem box_nodup_cell c : In c (m_cells M) -> NoDup c.
  Proof.
    intros Hc. apply box_in in Hc as (i & j & k & Hi & Hj & Hk & ->). unfold hex_of. cbv zeta.
    set (J := (Ny + 1)%nat). set (K := (Nz + 1)%nat).
    replace (((i + 1) * J + j) * K + k)%nat with ((i * J + j) * K + k + J * K)%nat by nia.
    replace (((i + 1) * J + (j + 1)) * K + k)%nat with ((i * J + j) * K + k + J * K + K)%nat by nia.
    replace ((i * J + (j + 1)) * K + k)%nat with ((i * J + j) * K + k + K)%nat by nia.
    replace (((i + 1) * J + j) * K + (k + 1))%nat with ((i * J + j) * K + k + J * K + 1)%nat by nia.
    replace (((i + 1) * J + (j + 1)) * K + (k + 1))%nat with ((i * J + j) * K + k + J * K + K + 1)%nat by nia.
    replace ((i * J + (j + 1)) * K + (k + 1))%nat with ((i * J + j) * K + k + K + 1)%nat by nia.
    replace ((i * J + j) * K + (k + 1))%nat with ((i * J + j) * K + k + 1)%nat by nia.
    assert (2 <= K)%nat by (unfold K; lia). assert (K + K <= J * K)%nat by (unfold J; nia).
    generalize (J * K)%nat ((i * J + j) * K + k)%nat H H0. intros JK b H1 H2.
    repeat constructor; cbn [In]; intros Q; repeat (destruct Q as [Q|Q]; [lia|]); exact Q.
  Qed.
  Theorem box_nodup_points : Lx <> 0 -> Ly <> 0 -> Lz <> 0 -> NoDup (m_points M).
  Proof.
    intros NX NY NZ. unfold M. rewrite box_rows by assumption. cbn [m_points]. apply nodup_row. intros p q Hp Hq E.
    destruct (div_mod_lt _ _ _ Hp) as (A & B & C). destruct (div_mod_lt _ _ _ Hq) as (A' & B' & C').
    destruct (div_mod_lt _ _ _ A) as (D & F & G). destruct (div_mod_lt _ _ _ A') as (D' & F' & G').
    assert (INR Nx <> 0) by (apply not_0_INR; lia). assert (INR Ny <> 0) by (apply not_0_INR; lia). assert (INR Nz <> 0) by (apply not_0_INR; lia).
    inversion E as [[E1 E2 E3]].
    assert (I : forall L N u v, L <> 0 -> INR N <> 0 -> INR u * L / INR N = INR v * L / INR N -> u = v).
    { intros L N u v HL HN Q. apply (axis_inj (L / INR N)); [|lra]. unfold Rdiv. apply Rmult_integral_contrapositive. split; auto. now apply Rinv_neq_0_compat. }
    apply I in E1; auto. apply I in E2; auto. apply I in E3; auto. rewrite C, C', G, G', E1, E2, E3. reflexivity.
  Qed.

  Section Positive.
    Context (PX : 0 < Lx) (PY : 0 < Ly) (PZ : 0 < Lz).
    Let hxp : 0 < hx. Proof. now apply step_pos. Qed.
    Let hyp : 0 < hy. Proof. now apply step_pos. Qed.
    Let hzp : 0 < hz. Proof. now apply step_pos. Qed.
    Let ex : INR Nx * hx = Lx. Proof. unfold hx. field. apply not_0_INR. lia. Qed.
    Let ey : INR Ny * hy = Ly. Proof. unfold hy. field. apply not_0_INR. lia. Qed.
    Let ez : INR Nz * hz = Lz. Proof. unfold hz. field. apply not_0_INR. lia. Qed.

    Lemma in_hex_box i j k x y z : (i < Nx)%nat -> (j < Ny)%nat -> (k < Nz)%nat ->
      (in_hex M (hex_of Ny Nz i j k) x y z <->
       INR i * hx <= x <= INR (i + 1) * hx /\ INR j * hy <= y <= INR (j + 1) * hy /\ INR k * hz <= z <= INR (k + 1) * hz).
    Proof.
      intros Hi Hj Hk. unfold in_hex. destruct (box_vertex i j k 0 Hi Hj Hk) as (-> & -> & ->); [lia|].
      destruct (box_vertex i j k 6 Hi Hj Hk) as (-> & -> & ->); [lia|]. reflexivity.
    Qed.
    Lemma inside_hex_box i j k x y z : (i < Nx)%nat -> (j < Ny)%nat -> (k < Nz)%nat ->
      (inside_hex M (hex_of Ny Nz i j k) x y z <->
       INR i * hx < x < INR (i + 1) * hx /\ INR j * hy < y < INR (j + 1) * hy /\ INR k * hz < z < INR (k + 1) * hz).
    Proof.
      intros Hi Hj Hk. unfold inside_hex. destruct (box_vertex i j k 0 Hi Hj Hk) as (-> & -> & ->); [lia|].
      destruct (box_vertex i j k 6 Hi Hj Hk) as (-> & -> & ->); [lia|]. reflexivity.
    Qed.
    Theorem box_cover x y z : (0 <= x <= Lx /\ 0 <= y <= Ly /\ 0 <= z <= Lz) <-> exists c, In c (m_cells M) /\ in_hex M c x y z.
    Proof.
      split.
      - intros (Bx & By & Bz). destruct (axis_cover hx Nx x) as (i & Hi & Ex); [lra|lia|lra|].
        destruct (axis_cover hy Ny y) as (j & Hj & Ey); [lra|lia|lra|].
        destruct (axis_cover hz Nz z) as (k & Hk & Ez); [lra|lia|lra|].
        exists (hex_of Ny Nz i j k). split; [apply box_in; eauto 10|]. apply in_hex_box; auto.
      - intros (c & Hc & Q). apply box_in in Hc as (i & j & k & Hi & Hj & Hk & ->). apply in_hex_box in Q; auto.
        pose proof (axis_in hx i Nx hxp Hi). pose proof (axis_in hy j Ny hyp Hj). pose proof (axis_in hz k Nz hzp Hk). lra.
    Qed.
    Theorem box_disjoint x y z c c' : In c (m_cells M) -> In c' (m_cells M) -> inside_hex M c x y z -> inside_hex M c' x y z -> c = c'.
    Proof.
      intros Hc Hc' Q Q'. apply box_in in Hc as (i & j & k & Hi & Hj & Hk & ->). apply box_in in Hc' as (i' & j' & k' & Hi' & Hj' & Hk' & ->).
      apply inside_hex_box in Q; auto. apply inside_hex_box in Q'; auto. destruct Q as (Qx & Qy & Qz), Q' as (Qx' & Qy' & Qz').
      rewrite (axis_disjoint hx i i' x), (axis_disjoint hy j j' y), (axis_disjoint hz k k' z); auto.
    Qed.
    Theorem box_no_hanging p c : (p < length (m_points M))%nat -> In c (m_cells M) ->
      (let X := nth p (m_points M) [] in in_hex M c (nth 0 X 0) (nth 1 X 0) (nth 2 X 0)) -> In p c.
    Proof.
      intros Hp Hc Q. destruct (box_point_inv p Hp) as (u & v & w & Hu & Hv & Hw & ->). cbv zeta in Q. rewrite box_point in Q by assumption. cbn [nth] in Q.
      apply box_in in Hc as (i & j & k & Hi & Hj & Hk & ->). apply in_hex_box in Q; auto. destruct Q as (Qx & Qy & Qz).
      assert (Qx' : INR i * hx <= INR u * hx <= INR (i + 1) * hx) by (unfold hx in *; lra).
      assert (Qy' : INR j * hy <= INR v * hy <= INR (j + 1) * hy) by (unfold hy in *; lra).
      assert (Qz' : INR k * hz <= INR w * hz <= INR (k + 1) * hz) by (unfold hz in *; lra).
      destruct (axis_node hx i u) as [-> | ->]; auto; destruct (axis_node hy j v) as [-> | ->]; auto; destruct (axis_node hz k w) as [-> | ->]; auto;
        unfold hex_of; cbn [In]; tauto.
    Qed.
    Theorem box_oriented c : In c (m_cells M) -> 0 < hex_volume M c.
    Proof.
      intros Hc. apply box_in in Hc as (i & j & k & Hi & Hj & Hk & ->). rewrite box_volume by assumption. apply Rmult_lt_0_compat; auto. now apply Rmult_lt_0_compat.
    Qed.
  End Positive.
End Box.
