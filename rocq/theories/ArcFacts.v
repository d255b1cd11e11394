(** The arc-length method: proofs. *)
From Coq Require Import String List Arith Lia Bool Reals Lra.
From Verif Require Import Num Arr ArrFacts Fe Problem SolverBc XNum PyDict Options LinSolve Newton ArcLength SpecArc.
Import ListNotations.
Local Open Scope R_scope.

(** ** Vectors of finite numbers *)
Lemma map2_len {A B C} (f : A -> B -> C) x y : length x = length y -> length (map2 f x y) = length x.
Proof. intros H. rewrite length_map2, H. apply Nat.min_id. Qed.
Lemma map2_cons {A B C} (f : A -> B -> C) a x b y : map2 f (a :: x) (b :: y) = f a b :: map2 f x y.
Proof. reflexivity. Qed.
Lemma finvec (l : list xr) : Forall (fun x => isfinite x = true) l -> exists r, l = map Fin r.
Proof. intros H. exists (map to_R l). now apply all_fin_map. Qed.
Lemma map2_Fin (g : R -> R -> R) (f : xr -> xr -> xr) (H : forall a b, f (Fin a) (Fin b) = Fin (g a b)) x y :
  map2 f (map Fin x) (map Fin y) = map Fin (map2 g x y).
Proof. revert y. induction x as [|a x IH]; intros [|b y]; try reflexivity. cbn [map]. rewrite !map2_cons, H, IH. reflexivity. Qed.
Lemma map2_Fin_inv (f : xr -> xr -> xr) (x y : list xr) :
  (forall a b r, f a b = Fin r -> isfinite a = true /\ isfinite b = true) -> length x = length y ->
  Forall (fun z => isfinite z = true) (map2 f x y) ->
  exists x' y', x = map Fin x' /\ y = map Fin y' /\ length x' = length y'.
Proof.
  intros H. revert y. induction x as [|a x IH]; intros [|b y] L F; try discriminate.
  - exists [], []. auto.
  - rewrite map2_cons in F. inversion F as [|z zs F1 F2]; subst. apply isfinite_ex in F1 as [r Hr].
    apply H in Hr as [Ha Hb]. apply isfinite_ex in Ha as [a' ->]. apply isfinite_ex in Hb as [b' ->].
    destruct (IH y) as (x' & y' & -> & -> & L'); [now injection L|exact F2|].
    exists (a' :: x'), (b' :: y'). cbn. now rewrite L'.
Qed.
Lemma sumK_sq_Fin x : sum_sq (map Fin x) = Fin (len2 x).
Proof.
  unfold sum_sq, len2, dot. rewrite map_map.
  assert (E : map (fun a => sq (Fin a)) x = map Fin (map2 Rmult x x)).
  { clear. induction x as [|a x IH]; [reflexivity|]. cbn [map]. rewrite map2_cons. cbn [map]. now rewrite IH. }
  transitivity (sumK (K := Xops) (map Fin (map2 Rmult x x))); [now rewrite <- E|]. apply sumK_Fin.
Qed.
Lemma sum_sq_inv (x : list Xops) r : sum_sq x = Fin r -> exists x', x = map Fin x'.
Proof.
  unfold sum_sq. intros H. apply sumK_fin in H. apply finvec. rewrite Forall_map in H.
  eapply Forall_impl; [|exact H]. intros a Ha. cbn beta in Ha. apply isfinite_ex in Ha as [b Hb]. apply xmul_fin in Hb as (u & v & -> & _). reflexivity.
Qed.
Lemma len2_pos x : 0 <= len2 x.
Proof. unfold len2, dot. induction x as [|a x IH]; [cbn; lra|]. rewrite map2_cons. cbn [fold_right]. nra. Qed.

Lemma add_vec_ok (x y z : list Xops) : add_vec x y = Ok z -> length x = length y /\ z = map2 xadd x y.
Proof. unfold add_vec. destruct (Nat.eqb_spec (length x) (length y)); [|discriminate]. injection 1 as <-. auto. Qed.
Lemma sub_vec_ok (x y z : list Xops) : sub_vec x y = Ok z -> length x = length y /\ z = map2 xsub x y.
Proof. unfold sub_vec. destruct (Nat.eqb_spec (length x) (length y)); [|discriminate]. injection 1 as <-. auto. Qed.
Lemma sum_mul_ok (x y : list Xops) r : sum_mul x y = Ok r -> length x = length y /\ r = sumK (K := Xops) (map2 xmul x y).
Proof. unfold sum_mul, mul_vec. destruct (Nat.eqb_spec (length x) (length y)); [|discriminate]. injection 1 as <-. auto. Qed.
Lemma add_vec_Fin x y : length x = length y -> add_vec (map Fin x) (map Fin y) = Ok (map Fin (radd x y)).
Proof.
  intros H. unfold add_vec. rewrite !map_length, H, Nat.eqb_refl. f_equal. exact (map2_Fin Rplus xadd (fun a b => eq_refl) x y).
Qed.
Lemma sub_vec_Fin x y : length x = length y -> sub_vec (map Fin x) (map Fin y) = Ok (map Fin (rsub x y)).
Proof.
  intros H. unfold sub_vec. rewrite !map_length, H, Nat.eqb_refl. f_equal. exact (map2_Fin Rminus xsub (fun a b => eq_refl) x y).
Qed.
Lemma sum_mul_Fin x y : length x = length y -> sum_mul (map Fin x) (map Fin y) = Ok (Fin (dot x y)).
Proof.
  intros H. unfold sum_mul, mul_vec. rewrite !map_length, H, Nat.eqb_refl. cbn [bind]. f_equal.
  transitivity (sumK (K := Xops) (map Fin (map2 Rmult x y))); [|apply sumK_Fin].
  f_equal. exact (map2_Fin Rmult xmul (fun a b => eq_refl) x y).
Qed.
Lemma vscale_Fin c x : vscale (K := Xops) (Fin c) (map Fin x) = map Fin (rscale c x).
Proof. unfold vscale, rscale. rewrite !map_map. reflexivity. Qed.
Lemma map_Fin_inj u v : map Fin u = map Fin v -> u = v.
Proof. revert v. induction u as [|a u IH]; intros [|b v] Q; try discriminate; [reflexivity|]. injection Q as -> Q. f_equal. now apply IH. Qed.
Lemma sub_vec_inv (x y : list Xops) (z : list R) : sub_vec x y = Ok (map Fin z) ->
  exists x' y', x = map Fin x' /\ y = map Fin y' /\ length x' = length y' /\ z = rsub x' y'.
Proof.
  intros H. apply sub_vec_ok in H as [L H].
  destruct (map2_Fin_inv xsub x y) as (x' & y' & -> & -> & L').
  - intros a b r Hr. apply xsub_fin in Hr as (u & v & -> & -> & _). auto.
  - exact L.
  - rewrite <- H. apply Forall_forall. intros w Hw. apply in_map_iff in Hw as (r & <- & _). reflexivity.
  - exists x', y'. repeat split; auto.
    exact (map_Fin_inj _ _ (eq_trans H (map2_Fin Rminus xsub (fun a b => eq_refl) x' y'))).
Qed.

(** ** The quadratic equation *)
Lemma xdiv_fin x y r : xdiv x y = Fin r ->
  (exists a b, x = Fin a /\ y = Fin b /\ b <> 0 /\ r = a / b) \/ (exists a, x = Fin a /\ (y = PInf \/ y = NInf)).
Proof.
  destruct x as [a| | |], y as [b| | |]; cbn [xdiv]; try discriminate.
  - destruct (Req_EM_T b 0); intros H; [now apply inf_sign_not_fin in H|]. injection H as <-. left. eauto 10.
  - right. eauto.
  - right. eauto.
  - destruct (Req_EM_T b 0); intros H; [discriminate|now apply inf_sign_not_fin in H].
  - destruct (Req_EM_T b 0); intros H; [discriminate|now apply inf_sign_not_fin in H].
Qed.
Lemma arc_roots_fin a1 a2 a3 s1 s2 : arc_roots a1 a2 a3 = (Fin s1, Fin s2) ->
  exists r1 r2 r3, a1 = Fin r1 /\ a2 = Fin r2 /\ a3 = Fin r3 /\ r1 <> 0 /\ 0 <= r2 * r2 - 4 * r1 * r3 /\
    s1 = (- r2 + sqrt (r2 * r2 - 4 * r1 * r3)) / (2 * r1) /\ s2 = (- r2 - sqrt (r2 * r2 - 4 * r1 * r3)) / (2 * r1).
Proof.
  unfold arc_roots. cbv zeta. intros H. pose proof (f_equal fst H) as H1. pose proof (f_equal snd H) as H2. clear H. cbn [fst snd] in H1, H2.
  assert (F : exists r, xsqrt (xsub (sq a2) (xmul (xmul (Fin 4) a1) a3)) = Fin r).
  { apply xdiv_fin in H1 as [(a & b & E & _)|(a & E & _)]; apply xadd_fin in E as (u & v & _ & -> & _); eauto. }
  destruct F as [r Hr]. pose proof Hr as Hr'. apply xsqrt_fin in Hr as (D & HD & PD & ->).
  apply xsub_fin in HD as (u & v & Hu & Hv & ->).
  apply xmul_fin in Hu as (r2 & r2' & E2 & E2' & ->). subst a2. injection E2' as <-.
  apply xmul_fin in Hv as (w & r3 & Hw & -> & ->). apply xmul_fin in Hw as (c & r1 & Ec & -> & ->). injection Ec as <-.
  rewrite Hr' in H1, H2. cbn [xopp xadd xsub xmul xdiv] in H1, H2.
  destruct (Req_EM_T (2 * r1) 0) as [E|N]; [now apply inf_sign_not_fin in H1|].
  exists r1, r2, r3. repeat (split; [reflexivity|]). split; [intros ->; apply N; ring|]. split; [lra|].
  injection H1 as <-. injection H2 as <-. split; reflexivity.
Qed.
(** the two numbers are the roots *)
Lemma roots_spec r1 r2 r3 : r1 <> 0 -> 0 <= r2 * r2 - 4 * r1 * r3 ->
  let s1 := (- r2 + sqrt (r2 * r2 - 4 * r1 * r3)) / (2 * r1) in
  let s2 := (- r2 - sqrt (r2 * r2 - 4 * r1 * r3)) / (2 * r1) in
  forall s, r1 * s * s + r2 * s + r3 = 0 <-> s = s1 \/ s = s2.
Proof.
  intros N P s1 s2 s. pose proof (sqrt_sqrt _ P) as Q. set (d := sqrt (r2 * r2 - 4 * r1 * r3)) in *.
  assert (E : r1 * s * s + r2 * s + r3 = r1 * ((s - s1) * (s - s2))).
  { unfold s1, s2. clearbody d. apply (Rmult_eq_reg_l (4 * r1)); [|lra].
    transitivity (4 * r1 * r1 * s * s + 4 * r1 * r2 * s + 4 * r1 * r3); [ring|].
    transitivity ((2 * r1 * s + r2) * (2 * r1 * s + r2) - d * d); [rewrite Q; ring|]. field. exact N. }
  rewrite E. split.
  - intros H. apply Rmult_integral in H as [H|H]; [contradiction|]. apply Rmult_integral in H as [H|H]; [left|right]; lra.
  - intros [->| ->]; ring.
Qed.

(** ** One corrector update *)
(** the coefficients *)
Lemma quadratic_inv psi Dl load Du ub ut Dlam a1 a2 a3 r1 r2 r3 :
  arc_quadratic psi Dl load Du ub ut Dlam = Ok (a1, a2, a3) -> a1 = Fin r1 -> a2 = Fin r2 -> a3 = Fin r3 ->
  exists psi' d q du b t l, psi = Fin psi' /\ Dl = Fin d /\ load = map Fin q /\ Du = map Fin du /\ ub = map Fin b /\
    ut = map Fin t /\ Dlam = Fin l /\ length du = length b /\ length b = length t /\
    r1 = len2 t + psi' * psi' * len2 q /\
    r2 = 2 * dot (radd du b) t + 2 * (psi' * psi') * l * len2 q /\
    r3 = len2 (radd du b) + psi' * psi' * (l * l) * len2 q - d * d.
Proof.
  unfold arc_quadratic. intros H E1 E2 E3.
  destruct (add_vec Du ub) as [w|] eqn:Ew; [|discriminate]. cbn [bind] in H.
  destruct (sum_mul w ut) as [wt|] eqn:Ewt; [|discriminate]. cbn [bind] in H. injection H as H1 H2 H3.
  rewrite E1 in H1. rewrite E2 in H2. rewrite E3 in H3. clear E1 E2 E3 a1 a2 a3.
  apply xadd_fin in H1 as (n1 & m1 & Hn1 & Hm1 & ->). apply xmul_fin in Hm1 as (p2 & L & Hp2 & HL & ->).
  apply xmul_fin in Hp2 as (psi' & psi'' & -> & E & ->). injection E as <-.
  destruct (sum_sq_inv _ _ Hn1) as [t ->]. destruct (sum_sq_inv _ _ HL) as [q ->].
  rewrite sumK_sq_Fin in Hn1, HL. injection Hn1 as <-. injection HL as <-.
  apply xsub_fin in H3 as (n3 & m3 & Hn3 & Hm3 & ->). apply xmul_fin in Hm3 as (d & d' & -> & E & ->). injection E as <-.
  apply xadd_fin in Hn3 as (k1 & k2 & Hk1 & Hk2 & ->). apply xmul_fin in Hk2 as (k3 & k4 & Hk3 & Hk4 & ->).
  rewrite sumK_sq_Fin in Hk4. injection Hk4 as <-. apply xmul_fin in Hk3 as (k5 & k6 & Hk5 & Hk6 & ->). injection Hk5 as <-.
  apply xmul_fin in Hk6 as (l & l' & -> & E & ->). injection E as <-.
  destruct (sum_sq_inv _ _ Hk1) as [w' ->]. rewrite sumK_sq_Fin in Hk1. injection Hk1 as <-.
  apply add_vec_ok in Ew as [L1 Ew].
  destruct (map2_Fin_inv xadd Du ub) as (du & b & -> & -> & L2).
  { intros a b r Hr. apply xadd_fin in Hr as (u & v & -> & -> & _). auto. }
  { exact L1. }
  { rewrite <- Ew. apply Forall_forall. intros z Hz. apply in_map_iff in Hz as (r & <- & _). reflexivity. }
  assert (w' = radd du b) as ->.
  { apply map_Fin_inj. exact (eq_trans Ew (map2_Fin Rplus xadd (fun a b => eq_refl) du b)). }
  assert (L3 : length b = length t).
  { apply sum_mul_ok in Ewt as [L3 _]. rewrite !map_length in L3. unfold radd in L3. rewrite map2_len in L3 by exact L2. congruence. }
  rewrite sum_mul_Fin in Ewt by (unfold radd; rewrite map2_len; congruence). injection Ewt as <-.
  rewrite sumK_sq_Fin in H2. cbn [sq xmul xadd] in H2. injection H2 as <-.
  exists psi', d, q, du, b, t, l. repeat (split; [reflexivity|]). repeat split; auto.
Qed.

(** the increment along the line b + s t *)
Lemma dir_expand psi q : forall s x u0 b t l l0, length x = length u0 -> length b = length u0 -> length t = length u0 ->
  forall dx dl, length dx = length u0 ->
  arc_dot psi q dx dl (rsub (radd x (radd b (rscale s t))) u0) (l + s - l0) =
  (dot dx (radd (rsub x u0) b) + psi * psi * dl * (l - l0) * len2 q) + s * (dot dx t + psi * psi * dl * len2 q).
Proof.
  intros s x u0 b t l l0 L1 L2 L3 dx dl L4. unfold arc_dot. set (n := len2 q). clearbody n.
  assert (E : dot dx (rsub (radd x (radd b (rscale s t))) u0) = dot dx (radd (rsub x u0) b) + s * dot dx t).
  { revert u0 b t dx L1 L2 L3 L4. unfold dot, rsub, radd, rscale.
    induction x as [|a x IH]; intros [|u u0] [|b0 b] [|t0 t] [|d dx] L1 L2 L3 L4; try discriminate; [cbn; ring|].
    cbn [map]. rewrite !map2_cons. cbn [fold_right]. rewrite IH by (cbn in *; congruence). ring. }
  rewrite E. ring.
Qed.
Lemma len_expand : forall s x u0 b t, length x = length u0 -> length b = length u0 -> length t = length u0 ->
  len2 (rsub (radd x (radd b (rscale s t))) u0) =
  len2 (radd (rsub x u0) b) + 2 * s * dot (radd (rsub x u0) b) t + s * s * len2 t.
Proof.
  intros s x u0 b t L1 L2 L3. revert u0 b t L1 L2 L3. unfold len2, dot, rsub, radd, rscale.
  induction x as [|a x IH]; intros [|u u0] [|b0 b] [|t0 t] L1 L2 L3; try discriminate; [cbn; ring|].
  cbn [map]. rewrite !map2_cons. cbn [fold_right]. rewrite IH by (cbn in *; congruence). ring.
Qed.
Lemma radd_len x y : length x = length y -> length (radd x y) = length x.
Proof. apply map2_len. Qed.
Lemma rsub_len x y : length x = length y -> length (rsub x y) = length x.
Proof. apply map2_len. Qed.
Lemma rscale_len c x : length (rscale c x) = length x.
Proof. apply map_length. Qed.
Lemma rsub_self_len x y n : length x = n -> length y = n -> length (rsub x y) = n.
Proof. intros <- H. now rewrite rsub_len. Qed.

(** being on the arc is the quadratic equation *)
Lemma on_arc_quadratic psi d q x u0 b t l l0 s :
  length x = length u0 -> length b = length u0 -> length t = length u0 ->
  on_arc psi d q u0 l0 (radd x (radd b (rscale s t))) (l + s) <->
  (len2 t + psi * psi * len2 q) * s * s
   + (2 * dot (radd (rsub x u0) b) t + 2 * (psi * psi) * (l - l0) * len2 q) * s
   + (len2 (radd (rsub x u0) b) + psi * psi * ((l - l0) * (l - l0)) * len2 q - d * d) = 0.
Proof.
  intros L1 L2 L3. unfold on_arc.
  assert (LL : length (radd x (radd b (rscale s t))) = length u0).
  { rewrite radd_len; [exact L1|]. rewrite radd_len; rewrite ?rscale_len; congruence. }
  unfold arc_dot. pose proof (len_expand s x u0 b t L1 L2 L3) as E. unfold len2 at 1 in E. rewrite E.
  split; [intros [_ H]|intros H; split; [exact LL|]]; lra.
Qed.

(** Everything about one update. *)
Record update_facts (psi Dl : xr) (load u0 : list Xops) (lam0 : xr) (st : arc_state) (ub ut : list Xops)
    (st' : arc_state) (n : nat) : Prop := mkUF {
  uf : exists psi' d q u0' l0 x l b t s s1 s2,
    psi = Fin psi' /\ Dl = Fin d /\ load = map Fin q /\ u0 = map Fin u0' /\ lam0 = Fin l0 /\
    ar_u st = map Fin x /\ ar_lam st = Fin l /\ ub = map Fin b /\ ut = map Fin t /\
    length x = length u0' /\ length b = length u0' /\ length t = length u0' /\ length (ar_du st) = length u0' /\
    (forall z, on_arc psi' d q u0' l0 (radd x (radd b (rscale z t))) (l + z) <-> z = s1 \/ z = s2) /\
    (s = s1 \/ s = s2) /\
    st' = mkArc (map Fin (radd x (radd b (rscale s t)))) (Fin (l + s))
                (map Fin (rsub (radd x (radd b (rscale s t))) u0')) (Fin (l + s - l0)) n /\
    (forall dx dl, ar_du st = map Fin dx -> ar_dlam st = Fin dl ->
       let D z := arc_dot psi' q dx dl (rsub (radd x (radd b (rscale z t))) u0') (l + z - l0) in
       (Rabs (D s1) < / 10 ^ 10 /\ Rabs (D s2) < / 10 ^ 10 /\ s1 <= s /\ s2 <= s) \/
       (~ (Rabs (D s1) < / 10 ^ 10 /\ Rabs (D s2) < / 10 ^ 10) /\ D s1 <= D s /\ D s2 <= D s)) }.

Lemma update_ok psi Dl load u0 lam0 st ub ut n st' :
  arc_update psi Dl load u0 lam0 st ub ut n = Ok st' -> update_facts psi Dl load u0 lam0 st ub ut st' n.
Proof.
  unfold arc_update. intros H.
  destruct (sub_vec (ar_u st) u0) as [Du|] eqn:Edu; [|discriminate]. cbn [bind] in H.
  destruct (arc_quadratic _ _ _ _ _ _ _) as [[[a1 a2] a3]|] eqn:Eq; [|discriminate]. cbn [bind] in H.
  destruct (arc_roots a1 a2 a3) as [dl1 dl2] eqn:Er.
  destruct (isfinite dl1 && isfinite dl2) eqn:F; [|discriminate]. cbn [negb] in H.
  apply andb_true_iff in F as [F1 F2]. apply isfinite_ex in F1 as [s1 ->]. apply isfinite_ex in F2 as [s2 ->].
  apply arc_roots_fin in Er as (r1 & r2 & r3 & -> & -> & -> & N & P & Es1 & Es2).
  pose proof (quadratic_inv _ _ _ _ _ _ _ _ _ _ r1 r2 r3 Eq eq_refl eq_refl eq_refl)
    as (psi' & d & q & du & b & t & dlam & -> & -> & -> & -> & -> & -> & Edl & L1 & L2 & R1 & R2 & R3).
  clear Eq. apply xsub_fin in Edl as (l & l0 & El & -> & ->).
  apply sub_vec_inv in Edu as (x & u0' & Ex & -> & L3 & ->). rewrite rsub_len in L1 by exact L3.
  rewrite Ex in H. rewrite El in H.
  assert (Lb : length b = length u0') by congruence. assert (Lt : length t = length u0') by congruence.
  rewrite !vscale_Fin in H. rewrite !add_vec_Fin in H by (rewrite rscale_len; congruence). cbn [bind] in H.
  assert (LS : forall s, length (radd b (rscale s t)) = length b).
  { intros s. apply radd_len. rewrite rscale_len. congruence. }
  assert (LX : forall s, length (radd x (radd b (rscale s t))) = length u0').
  { intros s. rewrite radd_len; rewrite ?LS; congruence. }
  rewrite !add_vec_Fin in H by (rewrite LS; congruence). cbn [bind] in H.
  rewrite !sub_vec_Fin in H by apply LX. cbn [bind] in H.
  unfold u_lamda_dot_product in H.
  destruct (sum_mul (ar_du st) (map Fin (rsub (radd x (radd b (rscale s1 t))) u0'))) as [m1|] eqn:M1; [|discriminate].
  cbn [bind] in H.
  destruct (sum_mul (ar_du st) (map Fin (rsub (radd x (radd b (rscale s2 t))) u0'))) as [m2|] eqn:M2; [|discriminate].
  cbn [bind] in H.
  match type of H with context [arc_choose ?u ?v _ _] => set (dot1 := u) in *; set (dot2 := v) in * end.
  assert (Ch : arc_choose dot1 dot2 (Fin s1) (Fin s2) = Fin s1 \/ arc_choose dot1 dot2 (Fin s1) (Fin s2) = Fin s2).
  { unfold arc_choose, xmax. destruct (_ && _); cbn [isnan orb]; [destruct (xltb _ _); auto|]. destruct (xgtb _ _); auto. }
  assert (Ldu : length (ar_du st) = length u0').
  { apply sum_mul_ok in M1 as [Lm _]. rewrite map_length, (rsub_self_len _ _ (length u0')) in Lm by auto using LX. exact Lm. }
  assert (Cs : exists s, arc_choose dot1 dot2 (Fin s1) (Fin s2) = Fin s /\ (s = s1 \/ s = s2)).
  { destruct Ch; [exists s1|exists s2]; auto. }
  destruct Cs as (s & Es & Hs). rewrite Es in H.
  rewrite !vscale_Fin in H. rewrite !add_vec_Fin in H by (rewrite rscale_len; congruence). cbn [bind] in H.
  rewrite !add_vec_Fin in H by (rewrite LS; congruence). cbn [bind] in H.
  rewrite !sub_vec_Fin in H by apply LX. cbn [bind] in H. injection H as H.
  constructor. exists psi', d, q, u0', l0, x, l, b, t, s, s1, s2.
  repeat (split; [reflexivity || assumption|]).
  split.
  { intros z. rewrite on_arc_quadratic by assumption. rewrite <- R1, <- R2, <- R3, Es1, Es2. apply (roots_spec r1 r2 r3 N P). }
  split; [exact Hs|]. split; [symmetry; exact H|].
  intros dx dl Hdx Hdl D.
  assert (Ldx : length dx = length u0') by (rewrite Hdx, map_length in Ldu; exact Ldu).
  assert (D1 : dot1 = Fin (D s1)).
  { unfold dot1. rewrite Hdx in M1. rewrite sum_mul_Fin in M1 by (rewrite (rsub_self_len _ _ (length u0')); auto using LX).
    injection M1 as <-. rewrite Hdl, sumK_sq_Fin. reflexivity. }
  assert (D2 : dot2 = Fin (D s2)).
  { unfold dot2. rewrite Hdx in M2. rewrite sum_mul_Fin in M2 by (rewrite (rsub_self_len _ _ (length u0')); auto using LX).
    injection M2 as <-. rewrite Hdl, sumK_sq_Fin. reflexivity. }
  rewrite D1, D2 in Es. clear - Es. unfold arc_choose in Es. cbn [xabs xltb] in Es.
  destruct (Rltb (Rabs (D s1)) (/ 10 ^ 10)) eqn:T1.
  - apply Rltb_true in T1. destruct (Rltb (Rabs (D s2)) (/ 10 ^ 10)) eqn:T2; cbn [andb] in Es.
    + apply Rltb_true in T2. left. unfold xmax in Es. cbn [isnan orb xltb] in Es.
      destruct (Rltb s1 s2) eqn:T3; injection Es as <-.
      * apply Rltb_true in T3. repeat split; auto; lra.
      * apply Rltb_false in T3. repeat split; auto; lra.
    + apply Rltb_false in T2. right. split; [lra|]. unfold xgtb in Es. cbn [xltb] in Es.
      destruct (Rltb (D s2) (D s1)) eqn:T3; injection Es as <-.
      * apply Rltb_true in T3. lra.
      * apply Rltb_false in T3. lra.
  - apply Rltb_false in T1. cbn [andb] in Es. right. split; [lra|]. unfold xgtb in Es. cbn [xltb] in Es.
    destruct (Rltb (D s2) (D s1)) eqn:T3; injection Es as <-.
    + apply Rltb_true in T3. lra.
    + apply Rltb_false in T3. lra.
Qed.

(** ** When an update succeeds *)
Section Total.
  Variables (psi d : R) (q u0 : list R) (l0 : R) (x : list R) (l : R) (dx : list R) (dl : R) (b t : list R) (m n : nat).
  Hypothesis Lx : length x = length u0.
  Hypothesis Lb : length b = length u0.
  Hypothesis Lt : length t = length u0.
  Hypothesis Ldx : length dx = length u0.
  Let r1 := len2 t + psi * psi * len2 q.
  Let r2 := 2 * dot (radd (rsub x u0) b) t + 2 * (psi * psi) * (l - l0) * len2 q.
  Let r3 := len2 (radd (rsub x u0) b) + psi * psi * ((l - l0) * (l - l0)) * len2 q - d * d.
  Let disc := r2 * r2 - 4 * r1 * r3.
  Let D z := arc_dot psi q dx dl (rsub (radd x (radd b (rscale z t))) u0) (l + z - l0).
  Let run := arc_update (Fin psi) (Fin d) (map Fin q) (map Fin u0) (Fin l0)
      (mkArc (map Fin x) (Fin l) (map Fin dx) (Fin dl) m) (map Fin b) (map Fin t) n.

  Lemma quadratic_Fin : arc_quadratic (Fin psi) (Fin d) (map Fin q) (map Fin (rsub x u0)) (map Fin b) (map Fin t) (Fin (l - l0))
    = Ok (Fin r1, Fin r2, Fin r3).
  Proof.
    unfold arc_quadratic. rewrite add_vec_Fin by (rewrite rsub_len; congruence). cbn [bind].
    rewrite sum_mul_Fin by (rewrite radd_len; rewrite rsub_len; congruence). cbn [bind]. rewrite !sumK_sq_Fin. reflexivity.
  Qed.
  Lemma update_compute s1 s2 s : r1 <> 0 -> 0 <= disc ->
    s1 = (- r2 + sqrt disc) / (2 * r1) -> s2 = (- r2 - sqrt disc) / (2 * r1) ->
    arc_choose (Fin (D s1)) (Fin (D s2)) (Fin s1) (Fin s2) = Fin s ->
    run = Ok (mkArc (map Fin (radd x (radd b (rscale s t)))) (Fin (l + s))
                (map Fin (rsub (radd x (radd b (rscale s t))) u0)) (Fin (l + s - l0)) n).
  Proof.
    intros N P E1 E2 Ec. unfold run, arc_update. cbn [ar_u ar_lam ar_du ar_dlam].
    assert (LS : forall s, length (radd b (rscale s t)) = length b).
    { intros z. apply radd_len. rewrite rscale_len. congruence. }
    assert (LX : forall s, length (radd x (radd b (rscale s t))) = length u0).
    { intros z. rewrite radd_len; rewrite ?LS; congruence. }
    rewrite sub_vec_Fin by exact Lx. cbn [bind]. change (xsub (Fin l) (Fin l0)) with (Fin (l - l0)).
    rewrite quadratic_Fin. cbn [bind].
    assert (Er : arc_roots (Fin r1) (Fin r2) (Fin r3) = (Fin s1, Fin s2)).
    { unfold arc_roots. cbv zeta. change (xsub (sq (Fin r2)) (xmul (xmul (Fin 4) (Fin r1)) (Fin r3))) with (Fin disc).
      assert (Eq : xsqrt (Fin disc) = Fin (sqrt disc)) by (cbn [xsqrt]; destruct (Rlt_dec disc 0); [lra|reflexivity]).
      rewrite Eq. unfold xsub. cbn [xopp xadd xmul xdiv]. destruct (Req_EM_T (2 * r1) 0) as [Z|_]; [exfalso; apply N; lra|].
      rewrite E1, E2. reflexivity. }
    rewrite Er. cbn [isfinite andb negb].
    rewrite !vscale_Fin. rewrite !add_vec_Fin by (rewrite rscale_len; congruence). cbn [bind].
    rewrite !add_vec_Fin by (rewrite LS; congruence). cbn [bind]. rewrite !sub_vec_Fin by apply LX. cbn [bind].
    unfold u_lamda_dot_product. rewrite !sum_mul_Fin by (rewrite (rsub_self_len _ _ (length u0)); auto using LX). cbn [bind].
    rewrite !sumK_sq_Fin.
    match goal with |- context [arc_choose ?u ?v _ _] => change u with (Fin (D s1)); change v with (Fin (D s2)) end.
    rewrite Ec. rewrite !vscale_Fin. rewrite !add_vec_Fin by (rewrite rscale_len; congruence). cbn [bind].
    rewrite !add_vec_Fin by (rewrite LS; congruence). cbn [bind]. rewrite !sub_vec_Fin by apply LX. reflexivity.
  Qed.
  Lemma choose_fin d1 d2 a c : exists s, arc_choose (Fin d1) (Fin d2) (Fin a) (Fin c) = Fin s.
  Proof. unfold arc_choose, xmax. destruct (_ && _); cbn [isnan orb]; [destruct (xltb _ _)|destruct (xgtb _ _)]; eauto. Qed.
  Lemma update_succeeds : r1 <> 0 -> 0 <= disc -> exists st', run = Ok st'.
  Proof.
    intros N P. destruct (choose_fin (D ((- r2 + sqrt disc) / (2 * r1))) (D ((- r2 - sqrt disc) / (2 * r1)))
      ((- r2 + sqrt disc) / (2 * r1)) ((- r2 - sqrt disc) / (2 * r1))) as [s Es].
    eexists. eapply update_compute; try eassumption; reflexivity.
  Qed.
  Lemma update_fails : (r1 = 0 \/ disc < 0) -> run = Err AssertionErr.
  Proof.
    intros H. unfold run, arc_update. cbn [ar_u ar_lam ar_du ar_dlam].
    rewrite sub_vec_Fin by exact Lx. cbn [bind]. change (xsub (Fin l) (Fin l0)) with (Fin (l - l0)).
    rewrite quadratic_Fin. cbn [bind]. destruct (arc_roots (Fin r1) (Fin r2) (Fin r3)) as [d1 d2] eqn:E.
    destruct (isfinite d1 && isfinite d2) eqn:F; [|reflexivity]. exfalso.
    apply andb_true_iff in F as [F1 F2]. apply isfinite_ex in F1 as [a1 ->]. apply isfinite_ex in F2 as [a2 ->].
    apply arc_roots_fin in E as (k1 & k2 & k3 & E1 & E2 & E3 & N & P & _).
    injection E1 as <-. injection E2 as <-. injection E3 as <-. fold disc in P. destruct H; [contradiction|lra].
  Qed.
  (** For data of matching sizes with some load direction, the update works exactly when the line meets the arc. *)
  Lemma update_iff : r1 <> 0 ->
    ((exists st', run = Ok st') <-> exists z, on_arc psi d q u0 l0 (radd x (radd b (rscale z t))) (l + z)) /\
    ((~ exists z, on_arc psi d q u0 l0 (radd x (radd b (rscale z t))) (l + z)) -> run = Err AssertionErr).
  Proof.
    intros N.
    assert (Q : forall z, on_arc psi d q u0 l0 (radd x (radd b (rscale z t))) (l + z) <-> r1 * z * z + r2 * z + r3 = 0).
    { intros z. apply on_arc_quadratic; assumption. }
    destruct (Rlt_dec disc 0) as [Neg|Pos].
    - assert (No : forall z, ~ on_arc psi d q u0 l0 (radd x (radd b (rscale z t))) (l + z)).
      { intros z Hz. apply Q in Hz. assert (E : disc = (2 * r1 * z + r2) * (2 * r1 * z + r2) - 4 * r1 * (r1 * z * z + r2 * z + r3)) by (unfold disc; ring).
        rewrite Hz in E. pose proof (Rle_0_sqr (2 * r1 * z + r2)) as S. unfold Rsqr in S. lra. }
      pose proof (update_fails (or_intror Neg)) as F. split; [|auto]. rewrite F. split; [intros [st' H]; discriminate|].
      intros [z Hz]. destruct (No z Hz).
    - assert (P : 0 <= disc) by lra. split.
      + split; [|intros _; now apply update_succeeds]. intros _. exists ((- r2 + sqrt disc) / (2 * r1)). apply Q.
        apply (roots_spec r1 r2 r3 N P). now left.
      + intros H. exfalso. apply H. exists ((- r2 + sqrt disc) / (2 * r1)). apply Q. apply (roots_spec r1 r2 r3 N P). now left.
  Qed.
End Total.
