(** C99: explicit solver for dendritic solidification. *)
From Coq Require Import String Reals List Arith Lia Lra Bool.
From Verif Require Import Num Arr ArrFacts DendriteMain ProblemFacts Fe Problem SpecAssembly Basis SpecBasis SpecFe FeFacts GeomFacts SolverBc SpecBc SpecWeak SpecEnergy Elastic Wave ThermoMech SpecThermoMech SpecLinear SpecPosed PosedFacts Mesh FractureUse
  StokesMain ThermoMechMain Dendrite SpecDendrite DendriteRun Examples_energy DendriteEx SpecDendriteEx DendriteExFacts DendriteExMain DendriteExRun DendriteExRect.
Import ListNotations.
Local Open Scope R_scope.
Local Notation V := (nat -> nat -> Rops).

(** C99. get_mass returns tau/dt, respectively 1/dt, times the integral of the shape function of each node. *)
Theorem C99_mass : forall P jvp kf (pm pf : problem Rops V) fp fT chi, ex_setting P jvp kf pm pf fp fT chi -> forall sqrtK,
  get_mass jvp sqrtK pm [points fp; points fT] =
  Ok (map (fun n => tau P / dt P * share pm fp n) (seq 0 (List.length (points fp))) ++ map (fun n => share pm fT n / dt P) (seq 0 (List.length (points fT)))).
Proof.
  intros P jvp kf pm pf fp fT chi ((-> & _ & VP & VT & DP & DT & QE) & WF & NC & LN & C0 & C1 & RJ) sqrtK. exact (masses P fp fT VP VT DP DT QE WF NC C0 C1 jvp sqrtK kf RJ).
Qed.
Print Assumptions C99_mass.

(** A step never fails.  Its change of the fields, in the lumped inner product, is the right-hand side of Kobayashi's equations at the old fields,
    tested with any fields. *)
Theorem C99_step : forall P jvp kf (pm pf : problem Rops V) fp fT chi, ex_setting P jvp kf pm pf fp fT chi -> ex_regular P pm fp fT ->
  forall sqrtK M, get_mass jvp sqrtK pm [points fp; points fT] = Ok M ->
  forall u w, shaped (List.length (points fp)) 1 u -> shaped (List.length (points fT)) 1 w -> exists u' w',
    explicit_euler sqrtK M pf [points fp; points fT] [u; w] chi = Ok [u'; w'] /\ shaped (List.length (points fp)) 1 u' /\ shaped (List.length (points fT)) 1 w' /\
    ex_stepped P pm fp fT chi u w u' w'.
Proof.
  intros P jvp kf pm pf fp fT chi H (T0 & D0 & S0 & S1) sqrtK M EM. rewrite (C99_mass _ _ _ _ _ _ _ _ H) in EM. injection EM as <-. destruct H as ((-> & (iv & ->) & VP & VT & DP & DT & QE) & WF & NC & LN & C0 & C1 & RJ).
  exact (ex_step P fp fT VP VT DP DT WF NC chi LN T0 D0 S0 S1 sqrtK iv).
Qed.
Print Assumptions C99_step.

(** Where everything is liquid or everything solid, at one temperature, a step changes nothing, whatever the noise. *)
Theorem C99_steady : forall P jvp kf (pm pf : problem Rops V) fp fT chi, ex_setting P jvp kf pm pf fp fT chi -> ex_regular P pm fp fT ->
  forall sqrtK M, get_mass jvp sqrtK pm [points fp; points fT] = Ok M -> forall x y, x = 0 \/ x = 1 ->
  let s := [constant (List.length (points fp)) x; constant (List.length (points fT)) y] in
  explicit_euler sqrtK M pf [points fp; points fT] s chi = Ok s.
Proof.
  intros P jvp kf pm pf fp fT chi H (T0 & D0 & S0 & S1) sqrtK M EM x y X. rewrite (C99_mass _ _ _ _ _ _ _ _ H) in EM. injection EM as <-. destruct H as ((-> & (iv & ->) & VP & VT & DP & DT & QE) & WF & NC & LN & C0 & C1 & RJ).
  exact (ex_steady P fp fT VP VT DP DT QE WF NC chi LN T0 D0 S0 S1 sqrtK iv x y C0 C1 X).
Qed.
Print Assumptions C99_steady.

(** Both variables on the same elements: temperature changes by diffusion and by K times the change of phase, except for the part of that change which the noise
    causes. *)
Theorem C99_latent_heat : forall P jvp kf (pm pf : problem Rops V) f chi, ex_setting P jvp kf pm pf f f chi -> ex_regular P pm f f ->
  forall sqrtK M, get_mass jvp sqrtK pm [points f; points f] = Ok M ->
  forall u w u' w', shaped (List.length (points f)) 1 u -> shaped (List.length (points f)) 1 w -> explicit_euler sqrtK M pf [points f; points f] [u; w] chi = Ok [u'; w'] ->
  forall z, shaped (List.length (points f)) 1 z ->
    / dt P * (lumped pm f (change w w') z - K_lat P * lumped pm f (change u u') z) =
    - over_cells (K := Rops) pm f (points f) (fun c q => grad_T f w c q 0 * grad_T f z c q 0 + grad_T f w c q 1 * grad_T f z c q 1)
    - K_lat P / tau P * over_cells (K := Rops) pm f (points f) (fun c q => noise_term P f chi u c q * phase f z c q).
Proof.
  intros P jvp kf pm pf f chi H (T0 & D0 & S0 & _) sqrtK M EM u w u' w' SU SW. rewrite (C99_mass _ _ _ _ _ _ _ _ H) in EM. injection EM as <-. destruct H as ((-> & (iv & ->) & VP & _ & DP & _ & _) & WF & NC & LN & _).
  exact (latent P f chi VP DP WF NC LN T0 D0 S0 sqrtK iv u w u' w' SU SW).
Qed.
Print Assumptions C99_latent_heat.

(** Whole runs of any length from any fields: none fails, every step satisfies both equations, and the integral of T - K p after k steps is the initial one minus
    dt K / tau times the integrals of the noise terms of these steps. *)
Theorem C99_runs : forall P jvp kf (pm pf : problem Rops V) f chi, ex_setting P jvp kf pm pf f f chi -> ex_regular P pm f f ->
  forall sqrtK M, get_mass jvp sqrtK pm [points f; points f] = Ok M ->
  forall n u w, shaped (List.length (points f)) 1 u -> shaped (List.length (points f)) 1 w ->
  exists l, ex_loop (explicit_euler sqrtK M pf [points f; points f]) chi n [u; w] = Ok l /\ List.length l = n /\
    let s := fun k => nth k ([u; w] :: l) [] in let ph := fun k => nth 0 (s k) [] in let te := fun k => nth 1 (s k) [] in
    (forall k, (k < n)%nat -> explicit_euler sqrtK M pf [points f; points f] [ph k; te k] chi = Ok [ph (S k); te (S k)] /\ ex_stepped P pm f f chi (ph k) (te k) (ph (S k)) (te (S k))) /\
    (forall k, (k <= n)%nat -> enthalpy P pm f f (ph k) (te k) =
       enthalpy P pm f f u w - dt P * K_lat P / tau P * sum_n (K := Rops) k (fun j => over_cells (K := Rops) pm f (points f) (noise_term P f chi (ph j)))).
Proof.
  intros P jvp kf pm pf f chi H REG sqrtK M EM n u w SU SW. pose proof (C99_step _ _ _ _ _ _ _ _ H REG sqrtK M EM) as ST. pose proof EM as EM2. rewrite (C99_mass _ _ _ _ _ _ _ _ H) in EM2. injection EM2 as EM2.
  destruct REG as (T0 & D0 & S0 & _). destruct H as ((-> & (iv & ->) & VP & _ & DP & _ & _) & WF & NC & LN & C0 & _).
  destruct (runs P f chi VP DP WF NC LN T0 D0 S0 C0 sqrtK iv n [u; w] (ex_intro _ u (ex_intro _ w (conj eq_refl (conj SU SW))))) as (l & E & LL & FL & SL & HB).
  exists l. rewrite <- EM2 in *. split; [exact E|]. split; [exact LL|]. cbv zeta. split.
  - intros k Hk. destruct (FL k ltac:(lia)) as (a & b & EA & SA & SB). specialize (SL k Hk). pose proof EA as EA'. cbn [nth] in EA'. rewrite EA in SL |- *. cbn [nth].
    destruct (ST a b SA SB) as (a' & b' & E1 & _ & _ & E2). change (nth (S k) ([u; w] :: l) []) with (nth k l []).
    assert (N : nth k l [] = [a'; b']) by (assert (Q : Ok (nth k l []) = Ok [a'; b']) by (rewrite <- E1; symmetry; exact SL); now injection Q). rewrite N. cbn [nth]. auto.
  - intros k Hk. exact (HB k Hk).
Qed.
Print Assumptions C99_runs.

(** Without noise (a = 0, or all its values 0) the integral of T - K p stays what it was. *)
Theorem C99_conserved : forall P jvp kf (pm pf : problem Rops V) f chi, ex_setting P jvp kf pm pf f f chi -> ex_regular P pm f f -> a_noise P = 0 \/ (forall c, nth c chi 0 = 0) ->
  forall sqrtK M, get_mass jvp sqrtK pm [points f; points f] = Ok M ->
  forall n u w l, shaped (List.length (points f)) 1 u -> shaped (List.length (points f)) 1 w -> ex_loop (explicit_euler sqrtK M pf [points f; points f]) chi n [u; w] = Ok l ->
  forall s, In s l -> enthalpy P pm f f (nth 0 s []) (nth 1 s []) = enthalpy P pm f f u w.
Proof.
  intros P jvp kf pm pf f chi H REG Z sqrtK M EM n u w l SU SW E s I. destruct (C99_runs _ _ _ _ _ _ _ H REG sqrtK M EM n u w SU SW) as (l' & E' & LL & _ & HB). rewrite E in E'. injection E' as <-.
  apply In_nth with (d := []) in I as (k & Hk & Ek). specialize (HB (S k) ltac:(lia)). cbv zeta in HB. change (nth (S k) ([u; w] :: l) []) with (nth k l []) in HB. rewrite Ek in HB. rewrite HB.
  match goal with |- _ - _ * ?x = _ => assert (S0 : x = 0) end; [|rewrite S0; ring].
  apply (sum_n_zero_ext Rops_ring). intros j _. apply over_zero. intros c q _ _. unfold noise_term. destruct Z as [->|Z]; [|rewrite Z]; ring.
Qed.
Print Assumptions C99_conserved.

(** With noise it does not: on every rectangle mesh, with the parameters of the example, half-solid everywhere and noise 1, one step loses
    dt K a / (4 tau) times the area. *)
Theorem C99_conserved_refuted : forall Nx Ny Lx Ly sqrtK fquad normals, (0 < Nx)%nat -> (0 < Ny)%nat -> 0 < Lx -> 0 < Ly ->
  let P := ex_example in let Q := rectangle_mesh Nx Ny Lx Ly in let chi := repeat 1 (Nx * Ny) in
  exists f pm pf M u w u' w', fe_init (K := Rops) sqrtK "QUAD4" two_by_two fquad normals (m_points Q) (m_cells Q) 1 2 None = Ok f /\
    (forall kf, ex_setting P difference kf pm pf f f chi) /\ ex_regular P pm f f /\ get_mass difference sqrtK pm [points f; points f] = Ok M /\
    shaped (List.length (points f)) 1 u /\ shaped (List.length (points f)) 1 w /\ explicit_euler sqrtK M pf [points f; points f] [u; w] chi = Ok [u'; w'] /\
    enthalpy P pm f f u' w' = enthalpy P pm f f u w - (2 / 10000) * (16 / 10) * (1 / 100) / (4 * (3 / 10000)) * integral pm f (constant (List.length (points f)) 1) /\
    enthalpy P pm f f u' w' < enthalpy P pm f f u w.
Proof.
  intros Nx Ny Lx Ly sqrtK fquad normals HX HY LX LY P Q chi.
  destruct (fe_init (K := Rops) sqrtK "QUAD4" two_by_two fquad normals (m_points Q) (m_cells Q) 1 2 None) as [f|e] eqn:B; [|discriminate].
  destruct (rect_explicit P Nx Ny Lx Ly sqrtK two_by_two fquad normals HX HY LX LY two_grid_points two_inside two_weights f B) as (V1 & D2 & WF & NC & PF & CE & SH & RJ).
  set (pm := pm_of P f f) in *. set (pf := mkProblem [f; f] [] (sf_maps P [f; f]) [] [] : problem Rops V).
  assert (NP : (0 < p_num_cells pm)%nat) by (rewrite NC; nia). assert (LN : List.length chi = p_num_cells pm) by (unfold chi; rewrite repeat_length, NC; reflexivity).
  assert (ES : forall kf, ex_setting P difference kf pm pf f f chi).
  { intros kf. split; [|split; [exact WF|split; [exact NP|split; [exact LN|split; [exact CE|split; [exact CE|apply RJ]]]]]]. split; [reflexivity|]. split; [exists []; reflexivity|]. repeat split; auto. }
  assert (SH' : forall n, (n < List.length (points f))%nat -> share pm f n <> 0) by (intros n Hn; apply Rgt_not_eq; now apply SH).
  assert (RG : ex_regular P pm f f) by (split; [unfold P, ex_example; cbn; lra|split; [unfold P, ex_example; cbn; lra|auto]]).
  pose proof (C99_mass _ _ _ _ _ _ _ _ (ES (fun _ _ => [])) sqrtK) as EM. set (N := List.length (points f)) in *.
  destruct (C99_step _ _ _ _ _ _ _ _ (ES (fun _ _ => [])) RG sqrtK _ EM (constant N (/ 2)) (constant N 0) (DendriteMain.const_shaped _ _) (DendriteMain.const_shaped _ _)) as (u' & w' & E & SU & SW & _).
  eexists f, pm, pf, _, (constant N (/ 2)), (constant N 0), u', w'. split; [reflexivity|]. split; [exact ES|]. split; [exact RG|]. split; [exact EM|]. split; [apply DendriteMain.const_shaped|]. split; [apply DendriteMain.const_shaped|]. split; [exact E|].
  destruct RG as (T0 & D0 & _). pose proof (NB0 P f f WF NP) as NB.
  pose proof (balance P f chi V1 D2 WF NP LN T0 D0 SH' CE sqrtK [] _ _ u' w' (DendriteMain.const_shaped _ _) (DendriteMain.const_shaped _ _) E) as BA. fold pm N in BA.
  assert (NT : over_cells (K := Rops) pm f (points f) (noise_term P f chi (constant N (/ 2))) = 1 / 100 / 4 * integral pm f (constant N 1)).
  { unfold integral. rewrite over_mul. apply over_ext. intros c q Hc Hq. pose proof (const_val pm f NB CE 1 c q Hc Hq) as CV1. pose proof (const_val pm f NB CE (/ 2) c q Hc Hq) as CV2. fold N in CV1, CV2. rewrite CV1. unfold noise_term, phase. rewrite CV2.
    assert (CC : nth c chi 0 = 1) by (unfold chi; apply nth_repeat_lt; rewrite <- NC; exact Hc). rewrite CC. unfold P, ex_example. cbn [a_noise]. lra. }
  assert (PP : 0 < integral pm f (constant N 1)).
  { apply area_positive; [exact SH| |exact NB]. fold N. pose proof (built_nodes _ _ _ _ _ _ _ _ _ _ _ B) as NN. cbn in NN. pose proof (NB 0%nat 0%nat NP ltac:(rewrite NN; lia)) as N0. fold N in N0. lia. }
  rewrite NT in BA. assert (BB : enthalpy P pm f f u' w' = enthalpy P pm f f (constant N (/ 2)) (constant N 0) - 2 / 10000 * (16 / 10) * (1 / 100) / (4 * (3 / 10000)) * integral pm f (constant N 1)).
  { rewrite BA. unfold P at 2 3 4, ex_example. cbn [dt K_lat tau]. field. }
  split; [exact BB|]. rewrite BB. lra.
Qed.
Print Assumptions C99_conserved_refuted.

(** The hypotheses on every rectangle mesh and for every quadrature rule with positive weights and a grid of points inside the square.  The masses are positive. *)
Theorem C99_rectangle : forall P Nx Ny Lx Ly sqrtK quad fquad normals, (0 < Nx)%nat -> (0 < Ny)%nat -> 0 < Lx -> 0 < Ly -> 0 < tau P -> 0 < dt P ->
  full_grid 2 (fst quad) -> inside_square (fst quad) -> (forall q, (q < List.length (fst quad))%nat -> 0 < nth q (snd quad) 0) ->
  let Q := rectangle_mesh Nx Ny Lx Ly in
  exists f, fe_init (K := Rops) sqrtK "QUAD4" quad fquad normals (m_points Q) (m_cells Q) 1 2 None = Ok f /\ points f = m_points Q /\
    let pm : problem Rops V := mkProblem [f; f] [] (sm_maps P [f; f]) [] [] in
    let pf : problem Rops V := mkProblem [f; f] [] (sf_maps P [f; f]) [] [] in
    (forall kf chi, List.length chi = (Nx * Ny)%nat -> ex_setting P difference kf pm pf f f chi) /\ ex_regular P pm f f /\
    exists M, get_mass difference sqrtK pm [points f; points f] = Ok M /\ List.length M = (2 * List.length (m_points Q))%nat /\ forall m, In m M -> 0 < m.
Proof.
  intros P Nx Ny Lx Ly sqrtK quad fquad normals HX HY LX LY TP TD FG IQ WP Q.
  destruct (fe_init (K := Rops) sqrtK "QUAD4" quad fquad normals (m_points Q) (m_cells Q) 1 2 None) as [f|e] eqn:B; [|discriminate].
  exists f. split; [reflexivity|]. destruct (rect_explicit P Nx Ny Lx Ly sqrtK quad fquad normals HX HY LX LY FG IQ WP f B) as (V1 & D2 & WF & NC & PF & CE & SH & RJ).
  split; [exact PF|]. intros pm pf.
  assert (ES : forall kf chi, List.length chi = (Nx * Ny)%nat -> ex_setting P difference kf pm pf f f chi).
  { intros kf chi LN. split; [|split; [exact WF|split; [change (p_num_cells pm) with (p_num_cells (pm_of P f f)); rewrite NC; nia|split; [rewrite LN; symmetry; exact NC|split; [exact CE|split; [exact CE|apply RJ]]]]]].
    split; [reflexivity|]. split; [exists []; reflexivity|]. repeat split; auto. }
  split; [exact ES|]. split.
  { split; [lra|]. split; [lra|]. split; intros n Hn; apply Rgt_not_eq; now apply SH. }
  rewrite (C99_mass _ _ _ _ _ _ _ _ (ES (fun _ _ => []) (repeat 0 (Nx * Ny)) (repeat_length _ _)) sqrtK). eexists. split; [reflexivity|]. split.
  - rewrite app_length, !map_length, !seq_length. pose proof (f_equal (@List.length _) PF) as LP. cbn [Nat.mul]. rewrite Nat.add_0_r. exact (f_equal2 Nat.add LP LP).
  - intros m Hm. apply in_app_iff in Hm as [Hm|Hm]; apply in_map_iff in Hm as (n & <- & Hn); apply in_seq in Hn; pose proof (SH n ltac:(lia)) as SN; unfold Rdiv.
    + apply Rmult_lt_0_compat; [apply Rmult_lt_0_compat; [exact TP|now apply Rinv_0_lt_compat]|exact SN].
    + apply Rmult_lt_0_compat; [exact SN|now apply Rinv_0_lt_compat].
Qed.
Print Assumptions C99_rectangle.

(** The example: its parameters, its seed, temperature 0 and one noise array for all passes, on every rectangle mesh.  No run fails, every step satisfies the
    equations, and after k steps the integral of T is K times what the integral of p has grown, minus what the noise has made. *)
Theorem C99_example : forall Nx Ny hx hy sqrtK fquad normals, (0 < Nx)%nat -> (0 < Ny)%nat -> 0 < hx -> 0 < hy ->
  let P := ex_example in let Q := rectangle_mesh Nx Ny (INR Nx * hx) (INR Ny * hy) in
  exists f, fe_init (K := Rops) sqrtK "QUAD4" two_by_two fquad normals (m_points Q) (m_cells Q) 1 2 None = Ok f /\
    let pm : problem Rops V := mkProblem [f; f] [] (sm_maps P [f; f]) [] [] in
    let pf : problem Rops V := mkProblem [f; f] [] (sf_maps P [f; f]) [] [] in
    forall chi n, List.length chi = (Nx * Ny)%nat ->
    exists l, ex_run difference sqrtK pm pf [points f; points f] (m_points Q) Nx Ny hx hy chi n = Ok l /\ List.length l = n /\
      let s := fun k => nth k ([dn_seed (m_points Q) Nx Ny hx hy; zeros2 (@zero Rops) (List.length (m_points Q)) 1] :: l) [] in
      let ph := fun k => nth 0 (s k) [] in let te := fun k => nth 1 (s k) [] in
      (forall k, (k < n)%nat -> ex_stepped P pm f f chi (ph k) (te k) (ph (S k)) (te (S k))) /\
      (forall k, (k <= n)%nat -> integral pm f (te k) = 16 / 10 * (integral pm f (ph k) - integral pm f (ph 0%nat)
         - 2 / 3 * sum_n (K := Rops) k (fun j => over_cells (K := Rops) pm f (points f) (noise_term P f chi (ph j))))).
Proof.
  intros Nx Ny hx hy sqrtK fquad normals HX HY LX LY P Q. assert (0 < INR Nx) by (apply lt_0_INR; lia). assert (0 < INR Ny) by (apply lt_0_INR; lia).
  destruct (C99_rectangle P Nx Ny (INR Nx * hx) (INR Ny * hy) sqrtK two_by_two fquad normals HX HY ltac:(nra) ltac:(nra) ltac:(unfold P, ex_example; cbn; lra) ltac:(unfold P, ex_example; cbn; lra) two_grid_points two_inside two_weights) as (f & B & PF & ES & RG & M & EM & _).
  exists f. split; [exact B|]. intros pm pf chi n LN. set (u := dn_seed (m_points Q) Nx Ny hx hy). set (w := zeros2 (@zero Rops) (List.length (m_points Q)) 1).
  assert (SU : shaped (List.length (points f)) 1 u).
  { rewrite PF. split; [unfold u, dn_seed; apply map_length|]. intros r Hr. unfold u, dn_seed in Hr. apply in_map_iff in Hr as (x & <- & _). now destruct (Rlt_dec _ _). }
  assert (SW : shaped (List.length (points f)) 1 w).
  { rewrite PF. split; [unfold w, zeros2; apply repeat_length|]. intros r Hr. unfold w, zeros2 in Hr. apply repeat_spec in Hr as ->. reflexivity. }
  destruct (C99_runs _ _ _ _ _ _ _ (ES (fun _ _ => []) chi LN) RG sqrtK M EM n u w SU SW) as (l & E & LL & ST & HB). exists l. split.
  { exact (eq_trans (f_equal (fun r => bind r (fun m => ex_loop (explicit_euler sqrtK m pf [points f; points f]) chi n [u; w])) EM) E). }
  split; [exact LL|]. cbv zeta. split; [intros k Hk; exact (proj2 (ST k Hk))|].
  intros k Hk. specialize (HB k Hk). cbv zeta in HB. assert (HE : forall a b, enthalpy P pm f f a b = integral pm f b - K_lat P * integral pm f a) by exact (enthalpy_is P f).
  change (mkProblem [f; f] [] (sm_maps P [f; f]) [] []) with pm in HB. rewrite !HE in HB. cbn [nth] in HB |- *.
  assert (Z : integral pm f w = 0) by (apply over_zero; intros c q _ _; exact (zeros_temp f (List.length (m_points Q)) 1 c q)).
  rewrite Z in HB. unfold P at 1 2 3 4 5, ex_example in HB. cbn [K_lat tau dt] in HB.
  set (S1 := sum_n _ _) in *. unfold Rdiv in *. lra.
Qed.
Print Assumptions C99_example.
