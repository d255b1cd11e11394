(** Proofs for C99: heat balance, whole runs, elements that meet the hypotheses. *)
From Coq Require Import String Reals List Arith Lia Lra Bool.
From Verif Require Import Num Arr ArrFacts Fe Problem SpecAssembly ProblemFacts AssemblyFacts Basis SpecBasis BasisFacts FeFacts GeomFacts SpecFe SpecWeak KernelFacts SpecBc SpecEnergy Elastic ElasticFacts LinAlg SpecLinear SpecPosed
  PosedFacts FieldFacts Wave SpecCoupled CoupledFacts CoupledLinear StokesMain ThermoMech SpecThermoMech ThermoMechFacts ThermoMechMain Mesh MeshFe FractureUse Dendrite SpecDendrite DendriteFacts DendriteMain DendriteRun
  DendriteEx SpecDendriteEx DendriteExFacts DendriteExMain.
Import ListNotations.
Local Open Scope R_scope.
Local Notation V := (nat -> nat -> Rops).
Local Notation zr := (@zero Rops).

Lemma hs_alg1 a b k : - a + k * (b) = (-1) * a + k * b.
Proof. ring. Qed.
Lemma hs_alg2 a F k d n t : - a + k * (- F + d * t) = (-1) * a + k * ((- F + (d + n) * t) - n * t).
Proof. ring. Qed.
Lemma hs_alg3 e c a b : e - c * a - c * b = e - c * (a + b).
Proof. ring. Qed.
Section Same.
  Variables (P : dn_params) (f : fe Rops) (chi : list R).
  Local Notation p := (pm_of P f f).
  Local Notation N := (List.length (points f)).
  Hypothesis V1 : vec f = 1%nat.
  Hypothesis D2 : dim f = 2%nat.
  Hypothesis WF : wf_problem p.
  Hypothesis NC : (0 < p_num_cells p)%nat.
  Hypothesis LN : List.length chi = p_num_cells p.
  Hypothesis T0 : tau P <> 0.
  Hypothesis D0 : dt P <> 0.
  Hypothesis SH : forall n, (n < N)%nat -> share p f n <> 0.
  Local Notation NB := (NB0 P f f WF NC).
  Lemma heat_split u w z : heat_force P p f f u w z =
    - over_cells (K := Rops) p f (points f) (fun c q => grad_T f w c q 0 * grad_T f z c q 0 + grad_T f w c q 1 * grad_T f z c q 1)
    + K_lat P / tau P * (phase_force P p f f chi u w z - over_cells (K := Rops) p f (points f) (fun c q => noise_term P f chi u c q * phase f z c q)).
  Proof.
    unfold heat_force, phase_force. rewrite over_diff. rewrite hs_alg1, !over_mul, over_add. apply over_ext. intros c q _ _.
    unfold grad_T, grad_p, temp, phase. exact (hs_alg2 _ _ _ _ _ _).
  Qed.
  Lemma lumped_one x : shaped N 1 x -> lumped p f x (constant N 1) = integral p f x.
  Proof. intros SX. rewrite (integral_sum p f NB x SX). unfold lumped. apply Rsum_ext. intros n Hn. rewrite const_get by exact Hn. exact (Rmult_1_r _). Qed.
  Lemma integral_change x y : shaped N 1 x -> shaped N 1 y -> integral p f (change x y) = integral p f y - integral p f x.
  Proof.
    intros SX SY. assert (SC : shaped N 1 (change x y)) by now apply column_shaped. rewrite (integral_sum p f NB _ SC), (integral_sum p f NB x SX), (integral_sum p f NB y SY).
    match goal with |- _ = ?a - ?b => transitivity (a + -1 * b); [|req; ring] end. rewrite <- Rsum_mul, <- Rsum_plus. apply Rsum_ext. intros n Hn. unfold change. rewrite (column_get _ N) by auto. req; ring.
  Qed.
  Lemma enthalpy_is u w : enthalpy P p f f u w = integral p f w - K_lat P * integral p f u.
  Proof. unfold enthalpy, integral. rewrite over_mul, over_diff. reflexivity. Qed.
  Section Const.
    Hypothesis CE : constants_exact p f.
    Theorem latent sqrtK iv u w u' w' : shaped N 1 u -> shaped N 1 w ->
      explicit_euler sqrtK (mass_list P f f) (mkProblem [f; f] [] (sf_maps P [f; f]) iv []) [points f; points f] [u; w] chi = Ok [u'; w'] ->
      forall z, shaped N 1 z -> / dt P * (lumped p f (change w w') z - K_lat P * lumped p f (change u u') z) =
        - over_cells (K := Rops) p f (points f) (fun c q => grad_T f w c q 0 * grad_T f z c q 0 + grad_T f w c q 1 * grad_T f z c q 1)
        - K_lat P / tau P * over_cells (K := Rops) p f (points f) (fun c q => noise_term P f chi u c q * phase f z c q).
    Proof.
      intros SU SW E z SZ. destruct (ex_step P f f V1 V1 D2 D2 WF NC chi LN T0 D0 SH SH sqrtK iv u w SU SW) as (u2 & w2 & E2 & _ & _ & H0 & H1). rewrite E in E2. injection E2 as <- <-.
      specialize (H0 z SZ). specialize (H1 z SZ). rewrite heat_split, <- H0 in H1. rewrite Rmult_minus_distr_l, H1. field. auto.
    Qed.
    Theorem balance sqrtK iv u w u' w' : shaped N 1 u -> shaped N 1 w ->
      explicit_euler sqrtK (mass_list P f f) (mkProblem [f; f] [] (sf_maps P [f; f]) iv []) [points f; points f] [u; w] chi = Ok [u'; w'] ->
      enthalpy P p f f u' w' = enthalpy P p f f u w - dt P * K_lat P / tau P * over_cells (K := Rops) p f (points f) (noise_term P f chi u).
    Proof.
      intros SU SW E. pose proof (latent sqrtK iv u w u' w' SU SW E _ (const_shaped N 1)) as L.
      destruct (ex_step P f f V1 V1 D2 D2 WF NC chi LN T0 D0 SH SH sqrtK iv u w SU SW) as (u2 & w2 & E2 & SU' & SW' & _). rewrite E in E2. injection E2 as <- <-.
      rewrite !lumped_one in L by now apply column_shaped. rewrite !integral_change in L by auto. rewrite !enthalpy_is.
      assert (Z : over_cells (K := Rops) p f (points f) (fun c q => grad_T f w c q 0 * grad_T f (constant N 1) c q 0 + grad_T f w c q 1 * grad_T f (constant N 1) c q 1) = 0).
      { apply over_zero. intros c q Hc Hq. unfold grad_T. rewrite !(const_grad p f NB CE 1 c q) by (auto; rewrite D2; lia). req; ring. }
      assert (Z2 : over_cells (K := Rops) p f (points f) (fun c q => noise_term P f chi u c q * phase f (constant N 1) c q) = over_cells (K := Rops) p f (points f) (noise_term P f chi u)).
      { apply over_ext. intros c q Hc Hq. unfold phase. rewrite (const_val p f NB CE 1 c q Hc Hq). exact (Rmult_1_r _). }
      rewrite Z, Z2 in L. set (X := over_cells _ _ _ _) in *. apply (f_equal (Rmult (dt P))) in L. rewrite <- Rmult_assoc, Rinv_r, Rmult_1_l in L by exact D0. unfold Rdiv in *. lra.
    Qed.
    (** runs *)
    Definition heat_of (s : list (list (list Rops))) : R := enthalpy P p f f (nth 0 s []) (nth 1 s []).
    Definition is_fields (s : list (list (list Rops))) : Prop := exists u w, s = [u; w] /\ shaped N 1 u /\ shaped N 1 w.
    Theorem runs sqrtK iv n : forall s, is_fields s -> exists l, ex_loop (explicit_euler sqrtK (mass_list P f f) (mkProblem [f; f] [] (sf_maps P [f; f]) iv []) [points f; points f]) chi n s = Ok l /\
      List.length l = n /\ (forall k, (k <= n)%nat -> is_fields (nth k (s :: l) [])) /\
      (forall k, (k < n)%nat -> explicit_euler sqrtK (mass_list P f f) (mkProblem [f; f] [] (sf_maps P [f; f]) iv []) [points f; points f] (nth k (s :: l) []) chi = Ok (nth k l [])) /\
      (forall k, (k <= n)%nat -> heat_of (nth k (s :: l) []) = heat_of s - dt P * K_lat P / tau P *
         sum_n (K := Rops) k (fun j => over_cells (K := Rops) p f (points f) (noise_term P f chi (nth 0 (nth j (s :: l) []) [])))).
    Proof.
      induction n as [|n IH]; intros s (u & w & -> & SU & SW).
      - exists []. split; [reflexivity|]. split; [reflexivity|]. split; [|split].
        + intros k Hk. assert (k = 0)%nat as -> by lia. exists u, w. auto.
        + intros k Hk. lia.
        + intros k Hk. assert (k = 0)%nat as -> by lia. cbn [nth sum_n]. cbn. req; ring.
      - destruct (ex_step P f f V1 V1 D2 D2 WF NC chi LN T0 D0 SH SH sqrtK iv u w SU SW) as (u' & w' & E & SU' & SW' & _).
        destruct (IH [u'; w'] (ex_intro _ u' (ex_intro _ w' (conj eq_refl (conj SU' SW'))))) as (l & EL & LL & FL & ST & EN).
        exists ([u'; w'] :: l). split; [cbn [ex_loop]; rewrite E; cbn [bind]; rewrite EL; reflexivity|]. split; [exact (f_equal S LL)|]. split; [|split].
        + intros [|k] Hk; [exists u, w; auto|]. apply FL. lia.
        + intros [|k] Hk; [exact E|]. apply ST. lia.
        + intros [|k] Hk; [cbn; req; ring|]. pose proof (balance sqrtK iv u w u' w' SU SW E) as B. specialize (EN k ltac:(lia)).
          transitivity (heat_of (nth k ([u'; w'] :: l) [])); [reflexivity|]. rewrite EN. unfold heat_of at 1. cbn [nth]. rewrite B. rewrite (sum_n_Sl k). unfold heat_of. cbn [nth]. exact (hs_alg3 _ _ _ _).
    Qed.
  End Const.
End Same.
