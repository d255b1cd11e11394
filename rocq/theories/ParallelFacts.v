(** Proofs for C97: the distributed system is the Galerkin problem. *)
From Coq Require Import List Arith Bool Lia Reals Lra ZArith Permutation.
From Verif Require Import Num Arr ArrFacts Fe FeFacts Problem XNum ElasticFacts LinAlg Parallel SpecParallel.
Import ListNotations.
Local Open Scope R_scope.
Local Notation sum n g := (sum_n (K := Rops) n g).

Lemma total_app {A} (l m : list A) g : total (l ++ m) g = total l g + total m g.
Proof. unfold total. induction l as [|a l IH]; cbn; [ring|]. rewrite IH. ring. Qed.
Lemma total_ext {A} (l : list A) g h : (forall a, In a l -> g a = h a) -> total l g = total l h.
Proof. induction l as [|a l IH]; intros H; [reflexivity|]. cbn. unfold total in IH. rewrite IH by (intros; apply H; now right). rewrite H by now left. reflexivity. Qed.
Lemma total_perm {A} (l m : list A) g : Permutation l m -> total l g = total m g.
Proof. induction 1; cbn in *; unfold total in *; lra. Qed.
Lemma total_map {A B} (f : A -> B) l g : total (map f l) g = total l (fun a => g (f a)).
Proof. induction l as [|a l IH]; [reflexivity|]. cbn. unfold total in IH. now rewrite IH. Qed.
Lemma total_mul {A} c (l : list A) g : total l (fun a => c * g a) = c * total l g.
Proof. unfold total. induction l as [|a l IH]; cbn; [ring|]. rewrite IH. ring. Qed.
Lemma total_nonneg {A} (l : list A) g : (forall a, In a l -> 0 <= g a) -> 0 <= total l g.
Proof. induction l as [|a l IH]; intros H; cbn; [lra|]. pose proof (H a (or_introl eq_refl)). assert (0 <= total l g) by (apply IH; intros; apply H; now right). unfold total in *. lra. Qed.
Lemma total_zero {A} (l : list A) g : (forall a, In a l -> 0 <= g a) -> total l g = 0 -> forall a, In a l -> g a = 0.
Proof.
  induction l as [|a l IH]; intros H Z b Hb; [destruct Hb|]. cbn in Z. pose proof (H a (or_introl eq_refl)). assert (0 <= total l g) by (apply total_nonneg; intros; apply H; now right).
  unfold total in *. destruct Hb as [->|Hb]; [lra|]. apply IH; auto; [intros; apply H; now right|lra].
Qed.
Lemma total_sum {A} (l : list A) n (g : A -> nat -> R) : total l (fun a => sum n (g a)) = sum n (fun k => total l (fun a => g a k)).
Proof.
  induction l as [|a l IH]; cbn.
  - symmetry. transitivity (sum n (fun _ => 0 * 0)); [apply Rsum_ext; intros; ring|]. rewrite Rsum_mul. req; ring.
  - unfold total in IH. rewrite IH. now rewrite <- Rsum_plus.
Qed.
Lemma total_Forall2 {A} (P : A -> A -> Prop) l m g h : Forall2 P l m -> (forall a b, In a l -> In b m -> P a b -> g a = h b) -> total l g = total m h.
Proof.
  induction 1 as [|a b l m HP H2 IH]; intros H; [reflexivity|]. cbn. unfold total in IH. rewrite IH by (intros; apply H; auto; now right). f_equal. apply H; auto; now left.
Qed.
Lemma sum3 (g : nat -> R) : sum 3 g = g 0%nat + g 1%nat + g 2%nat.
Proof. cbn; req; ring. Qed.
Lemma sum2 (g : nat -> R) : sum 2 g = g 0%nat + g 1%nat.
Proof. cbn; req; ring. Qed.
Lemma sum_single n k (g : nat -> R) : (k < n)%nat -> sum n (fun l => if (k =? l)%nat then g l else 0) = g k.
Proof. intros H. rewrite <- (Rsum_delta n k g H). apply Rsum_ext. intros l Hl. destruct (k =? l)%nat; ring. Qed.
Lemma sum_zero n (g : nat -> R) : (forall i, (i < n)%nat -> g i = 0) -> sum n g = 0.
Proof. intros H. transitivity (sum n (fun _ => 0 * 0)); [apply Rsum_ext; intros i Hi; rewrite H by auto; ring|]. rewrite Rsum_mul. req; ring. Qed.

Lemma perm3 (a b c : nat) l : Permutation [a; b; c] l ->
  l = [a; b; c] \/ l = [a; c; b] \/ l = [b; a; c] \/ l = [b; c; a] \/ l = [c; a; b] \/ l = [c; b; a].
Proof.
  intros H. destruct (Permutation_vs_cons_inv (Permutation_sym H)) as (l1 & l2 & ->). apply Permutation_cons_app_inv in H.
  destruct (Permutation_length_2_inv H) as [E|E]; destruct l1 as [|x [|y [|z l1]]]; cbn in E; inversion E; subst; cbn; tauto.
Qed.

Section Mesh.
  Variable coords : list pt.
  Notation at_ := (at_ coords).
  Notation n := (length coords).
  Definition good (c : list nat) : Prop := exists i j k, c = [i; j; k] /\ (i < n)%nat /\ (j < n)%nat /\ (k < n)%nat /\ cross (at_ i) (at_ j) (at_ k) <> 0.
  (** the gradient of the linear function with the values u *)
  Definition grad_of (c : list nat) (u : nat -> R) : pt :=
    let i := nth 0 c 0%nat in let j := nth 1 c 0%nat in let k := nth 2 c 0%nat in
    let d := cross (at_ i) (at_ j) (at_ k) in
    (((u j - u i) * (snd (at_ k) - snd (at_ i)) - (u k - u i) * (snd (at_ j) - snd (at_ i))) / d,
     ((u k - u i) * (fst (at_ j) - fst (at_ i)) - (u j - u i) * (fst (at_ k) - fst (at_ i))) / d).
  Lemma grad_ok c u : good c -> gradient_on coords c u (grad_of c u).
  Proof.
    intros (i & j & k & -> & _ & _ & _ & D). unfold gradient_on, grad_of. cbn [nth fst snd]. unfold cross in *.
    intros p q [<-|[<-|[<-|[]]]] [<-|[<-|[<-|[]]]]; field; exact D.
  Qed.
  Lemma grad_unique c u g : good c -> gradient_on coords c u g -> g = grad_of c u.
  Proof.
    intros (i & j & k & -> & _ & _ & _ & D) G. unfold grad_of. cbn [nth]. pose proof (G j i ltac:(cbn; auto) ltac:(cbn; auto)) as E1. pose proof (G k i ltac:(cbn; auto) ltac:(cbn; auto)) as E2.
    rewrite E1, E2. destruct g as [g1 g2]. cbn [fst snd]. unfold cross in *. f_equal; field; exact D.
  Qed.
  Lemma good_perm c c' : Permutation c c' -> good c -> good c'.
  Proof.
    intros P (i & j & k & -> & Hi & Hj & Hk & D). unfold cross in D.
    destruct (perm3 _ _ _ _ P) as [->|[->|[->|[->|[->| ->]]]]]; do 3 eexists; (split; [reflexivity|]); unfold cross; repeat (split; [assumption|]); intros Z; apply D; lra.
  Qed.
  Lemma area_perm c c' : Permutation c c' -> good c -> cell_area coords c = cell_area coords c'.
  Proof.
    intros P (i & j & k & -> & _). unfold cell_area. f_equal. destruct (perm3 _ _ _ _ P) as [->|[->|[->|[->|[->| ->]]]]]; cbn [nth]; unfold cross;
      first [f_equal; ring | rewrite <- Rabs_Ropp; f_equal; ring].
  Qed.
  Lemma grad_perm c c' u : Permutation c c' -> good c -> grad_of c u = grad_of c' u.
  Proof.
    intros P G. symmetry. apply grad_unique; [exact G|]. pose proof (grad_ok c' u (good_perm c c' P G)) as H. intros p q Hp Hq. apply H; eapply Permutation_in; eauto.
  Qed.
  (** the element stiffness is the energy of linear functions *)
  Definition cell_form (c : list nat) (w u : nat -> R) : R :=
    sum 3 (fun a => sum 3 (fun b => w (nth a c 0%nat) * element_stiffness (map at_ c) a b * u (nth b c 0%nat))).
  Definition cell_energy (c : list nat) (u w : nat -> R) : R :=
    cell_area coords c * (fst (grad_of c u) * fst (grad_of c w) + snd (grad_of c u) * snd (grad_of c w)).
  Lemma form_energy c w u : good c -> cell_form c w u = cell_energy c u w.
  Proof.
    intros (i & j & k & -> & _ & _ & _ & D). unfold cell_form, cell_energy, element_stiffness, tri_grads, grad_of, cell_area. rewrite !sum3. cbv beta. rewrite ?sum3, !sum2. cbv beta.
    unfold ref_grads, tri_invJ, tri_J, tri_area, vtx. cbn [map nth fst snd]. unfold cross in *.
    set (x0 := fst (at_ i)) in *. set (y0 := snd (at_ i)) in *. set (x1 := fst (at_ j)) in *. set (y1 := snd (at_ j)) in *. set (x2 := fst (at_ k)) in *. set (y2 := snd (at_ k)) in *.
    assert (D2 : (x1 - x0) * (y2 - y0) - (x2 - x0) * (y1 - y0) <> 0) by (intros Z; apply D; lra).
    set (ar := Rabs _). change (car Rops) with R. field. auto.
  Qed.
  Lemma load_cell c f : good c -> element_load (map at_ c) f = cell_area coords c / 3 * f (fst (centroid coords c)) (snd (centroid coords c)).
  Proof.
    intros (i & j & k & -> & _). unfold element_load, tri_area, vtx, cell_area, centroid, cross, total. cbn [map nth fst snd fold_right].
    match goal with |- ?a / 3 * f ?x ?y = ?b / 3 * f ?x' ?y' => replace x' with x by field; replace y' with y by field; replace a with b by field; reflexivity end.
  Qed.

  (** *** Assembly *)
  Variable num : nat -> nat.
  Hypothesis NI : forall k l, (k < n)%nat -> (l < n)%nat -> num k = num l -> k = l.
  Definition zn (k : nat) : Z := Z.of_nat (num k).
  Lemma zn_eqb k l : (k < n)%nat -> (l < n)%nat -> (zn k =? zn l)%Z = (k =? l)%nat.
  Proof.
    intros Hk Hl. unfold zn. destruct (Nat.eqb_spec k l) as [->|D]; [apply Z.eqb_refl|]. apply Z.eqb_neq. intros E. apply Nat2Z.inj in E. auto.
  Qed.
  Lemma gd_local (b : bool) k : global_dof (if b then zn k else (- (zn k + 1))%Z) = zn k.
  Proof. destruct b; unfold global_dof, zn; match goal with |- context [(?a <? 0)%Z] => destruct (Z.ltb_spec a 0) end; lia. Qed.
  Definition entry (k l : nat) (c : list nat) : R :=
    sum 3 (fun a => sum 3 (fun b => if (nth a c 0 =? k)%nat && (nth b c 0 =? l)%nat then element_stiffness (map at_ c) a b else 0)).
  Definition load_entry (f : R -> R -> R) (k : nat) (c : list nat) : R := sum 3 (fun a => if (nth a c 0 =? k)%nat then element_load (map at_ c) f else 0).
  Definition view_ok (r : rank_view) (m : nat -> nat) : Prop :=
    (forall v, (v < rv_nv r)%nat -> (m v < n)%nat /\ rv_xy r v = at_ (m v) /\ global_dof (rv_off r v) = zn (m v)) /\
    (forall c, In c (rv_cells r) -> length c = 3%nat /\ forall v, In v c -> (v < rv_nv r)%nat).
  Lemma asm_cells f r m : (forall v, (v < rv_nv r)%nat -> (m v < n)%nat /\ rv_xy r v = at_ (m v) /\ global_dof (rv_off r v) = zn (m v)) ->
    forall cs mb, (forall c, In c cs -> length c = 3%nat /\ forall v, In v c -> (v < rv_nv r)%nat) ->
    exists mb', fold_left (assemble_cell f r) cs (Ok mb) = Ok mb' /\
      (forall k l, (k < n)%nat -> (l < n)%nat -> fst mb' (zn k) (zn l) = fst mb (zn k) (zn l) + total (map (map m) cs) (entry k l)) /\
      (forall k, (k < n)%nat -> snd mb' (zn k) = snd mb (zn k) + total (map (map m) cs) (load_entry f k)).
  Proof.
    intros Hv. induction cs as [|c cs IH]; intros mb Hc.
    - exists mb. split; [reflexivity|]. split; intros; cbn; ring.
    - destruct (Hc c (or_introl eq_refl)) as [L3 Lv]. cbn [fold_left]. unfold assemble_cell at 2. cbn [bind]. rewrite L3. cbn [Nat.eqb negb].
      destruct c as [|i [|j [|k0 [|? c]]]]; try discriminate L3.
      destruct (Hv i (Lv i ltac:(cbn; auto))) as (Bi & Xi & Gi). destruct (Hv j (Lv j ltac:(cbn; auto))) as (Bj & Xj & Gj). destruct (Hv k0 (Lv k0 ltac:(cbn; auto))) as (Bk & Xk & Gk).
      match goal with |- exists _, fold_left _ _ (Ok ?mb1) = _ /\ _ => destruct (IH mb1 (fun c' H => Hc c' (or_intror H))) as (mb' & E & HM & HL) end.
      exists mb'. split; [exact E|]. cbn [map]. cbn [fst snd] in HM, HL. split.
      + intros k l Hk Hl. rewrite (HM k l Hk Hl). unfold add_values. cbn [total fold_right]. fold (total (map (map m) cs) (entry k l)). unfold entry at 2.
        rewrite <- Rplus_assoc. f_equal. f_equal. rewrite !sum3. cbv beta. rewrite ?sum3. cbv beta. cbn [nth map]. rewrite Xi, Xj, Xk, Gi, Gj, Gk, !zn_eqb by auto. reflexivity.
      + intros k Hk. rewrite (HL k Hk). unfold add_vec_values. cbn [total fold_right]. fold (total (map (map m) cs) (load_entry f k)). unfold load_entry at 2.
        rewrite <- Rplus_assoc. f_equal. f_equal. rewrite !sum3. cbv beta. cbn [nth map]. rewrite Xi, Xj, Xk, Gi, Gj, Gk, !zn_eqb by auto. reflexivity.
  Qed.
  Definition gcells (ranks : list rank_view) (vert : list (nat -> nat)) : list (list nat) := flat_map (fun rm => map (map (snd rm)) (rv_cells (fst rm))) (combine ranks vert).
  Lemma asm_all f ranks vert : length vert = length ranks -> (forall r m, In (r, m) (combine ranks vert) -> view_ok r m) ->
    forall mb, exists mb', fold_left (fun s r => fold_left (assemble_cell f r) (rv_cells r) s) ranks (Ok mb) = Ok mb' /\
      (forall k l, (k < n)%nat -> (l < n)%nat -> fst mb' (zn k) (zn l) = fst mb (zn k) (zn l) + total (gcells ranks vert) (entry k l)) /\
      (forall k, (k < n)%nat -> snd mb' (zn k) = snd mb (zn k) + total (gcells ranks vert) (load_entry f k)).
  Proof.
    revert vert. induction ranks as [|r ranks IH]; intros [|m vert] L H mb; try discriminate L.
    - exists mb. split; [reflexivity|]. split; intros; cbn; ring.
    - destruct (H r m (or_introl eq_refl)) as [V C]. destruct (asm_cells f r m V (rv_cells r) mb C) as (mb1 & E1 & M1 & L1).
      destruct (IH vert ltac:(cbn in L; lia) (fun r' m' Hi => H r' m' (or_intror Hi)) mb1) as (mb2 & E2 & M2 & L2).
      exists mb2. cbn [fold_left]. rewrite E1. split; [exact E2|]. unfold gcells in *. cbn [combine flat_map fst snd]. split.
      + intros k l Hk Hl. rewrite (M2 k l Hk Hl), (M1 k l Hk Hl), total_app. ring.
      + intros k Hk. rewrite (L2 k Hk), (L1 k Hk), total_app. ring.
  Qed.

  (** *** The assembled forms *)
  Lemma entry_form (w u : nat -> R) c : (forall v, In v c -> (v < n)%nat) -> length c = 3%nat ->
    sum n (fun k => w k * sum n (fun l => entry k l c * u l)) = cell_form c w u.
  Proof.
    intros Hc L3. destruct c as [|i [|j [|k0 [|? c]]]]; try discriminate L3.
    assert (B : forall a, (a < 3)%nat -> (nth a [i; j; k0] 0 < n)%nat) by (intros a Ha; apply Hc, nth_In; cbn; lia).
    transitivity (sum n (fun k => sum 3 (fun a => if (nth a [i; j; k0] 0 =? k)%nat then w k * sum 3 (fun b => element_stiffness (map at_ [i; j; k0]) a b * u (nth b [i; j; k0] 0%nat)) else 0))).
    - apply Rsum_ext. intros k Hk.
      transitivity (w k * sum 3 (fun a => if (nth a [i; j; k0] 0 =? k)%nat then sum 3 (fun b => element_stiffness (map at_ [i; j; k0]) a b * u (nth b [i; j; k0] 0%nat)) else 0)).
      + f_equal. unfold entry. 
        transitivity (sum n (fun l => sum 3 (fun a => sum 3 (fun b => (if (nth a [i; j; k0] 0 =? k)%nat && (nth b [i; j; k0] 0 =? l)%nat then element_stiffness (map at_ [i; j; k0]) a b else 0) * u l)))).
        { apply Rsum_ext. intros l Hl. rewrite Rmult_comm, <- Rsum_mul. apply Rsum_ext. intros a Ha. rewrite <- Rsum_mul. apply Rsum_ext. intros b Hb. apply Rmult_comm. }
        rewrite Rsum_swap. apply Rsum_ext. intros a Ha. rewrite Rsum_swap. destruct (nth a [i; j; k0] 0 =? k)%nat eqn:Ek; cbn [andb].
        * apply Rsum_ext. intros b Hb. rewrite <- (sum_single n (nth b [i; j; k0] 0%nat) (fun l => element_stiffness (map at_ [i; j; k0]) a b * u l) (B b Hb)).
          apply Rsum_ext. intros l Hl. destruct (_ =? l)%nat; ring.
        * apply sum_zero. intros b Hb. apply sum_zero. intros l Hl. ring.
      + rewrite <- Rsum_mul. apply Rsum_ext. intros a Ha. destruct (_ =? k)%nat; ring.
    - rewrite Rsum_swap. unfold cell_form. apply Rsum_ext. intros a Ha.
      rewrite (sum_single n (nth a [i; j; k0] 0%nat) (fun k => w k * sum 3 (fun b => element_stiffness (map at_ [i; j; k0]) a b * u (nth b [i; j; k0] 0%nat))) (B a Ha)).
      rewrite <- Rsum_mul. apply Rsum_ext. intros b Hb. ring.
  Qed.
  Lemma load_form (w : nat -> R) f c : (forall v, In v c -> (v < n)%nat) -> length c = 3%nat ->
    sum n (fun k => w k * load_entry f k c) = element_load (map at_ c) f * total c w.
  Proof.
    intros Hc L3. destruct c as [|i [|j [|k0 [|? c]]]]; try discriminate L3.
    transitivity (sum n (fun k => (if (i =? k)%nat then w k * element_load (map at_ [i; j; k0]) f else 0) + ((if (j =? k)%nat then w k * element_load (map at_ [i; j; k0]) f else 0) + (if (k0 =? k)%nat then w k * element_load (map at_ [i; j; k0]) f else 0)))).
    - apply Rsum_ext. intros k Hk. unfold load_entry. rewrite sum3. cbv beta. cbn [nth]. destruct (i =? k)%nat, (j =? k)%nat, (k0 =? k)%nat; ring.
    - set (E := element_load (map at_ [i; j; k0]) f). rewrite !Rsum_plus. transitivity (w i * E + (w j * E + w k0 * E)); [|unfold total; cbn [fold_right]; req; ring].
      f_equal; [|f_equal]; (match goal with |- _ = w ?x * E => apply (sum_single n x (fun k => w k * E)) end; apply Hc; cbn; auto).
  Qed.
End Mesh.
