(** Lemmas for C108: the standard problem, boxes. *)
From Coq Require Import Reals String List Arith Lia Lra Bool.
From Verif Require Import Num Arr ArrFacts BatchFacts Fe Problem SpecAssembly AssemblyFacts ProblemFacts ResidualFacts Basis SpecBasis SpecFe FeFacts GeomFacts SpecBc BcFacts SpecSelect SelectFacts SpecWeak KernelFacts SpecEnergy ElasticFacts SpecLinear SpecPosed
  DynamicsFacts Init SpecInit InitFacts Lagrangian LaserHeat Wave Elastic SpecElastic ElasticMain SpecWave SpecSolve SolveFacts Mesh SpecMesh MeshFacts MeshMain MeshFe SolveBox LinearElastic CoupledFacts TwoVars SpecTwoVars TwoVarsMain TwoVarsEnd.
Import ListNotations.
Local Open Scope R_scope.
Local Notation sum := (sum_n (K := Rops)).

Definition plain_problem {V} (f : fe Rops) : problem Rops V := mkProblem [f] [] (mkMaps (Some (elastic_stress tv_lmbda tv_mu (dim f))) None None None None) [] [].
Lemma plain_residual {V} (f : fe Rops) P u : compute_residual sqrt (mkProblem (V := V) [f] [] (one_var_maps [f]) [] []) P u = compute_residual sqrt (plain_problem (V := V) f) P u.
Proof. reflexivity. Qed.
Lemma plain_solves {V} (f : fe Rops) P u : solves (mkProblem (V := V) [f] [] (one_var_maps [f]) [] []) P u <-> solves (plain_problem (V := V) f) P u.
Proof. reflexivity. Qed.

Lemma tv_positive : 0 <= tv_lmbda /\ 0 < tv_mu.
Proof. unfold tv_lmbda, tv_mu, tv_E, tv_nu. split; [|lra]. replace (70000 * (3 / 10) / ((1 + 3 / 10) * (1 - 2 * (3 / 10)))) with (21000 / (52 / 100)) by (field; lra). lra. Qed.
Lemma plain_elastic {V} (f : fe Rops) : vec f = 3%nat -> dim f = 3%nat -> elastic_problem tv_lmbda tv_mu (plain_problem (V := V) f) f /\ maps_ok (vec f) (dim f) (maps (plain_problem (V := V) f)).
Proof.
  intros VE DE. split.
  - split; [|split; [congruence|]; split; [reflexivity|]; split; discriminate]. split; [reflexivity|]. split; [reflexivity|]. split; [reflexivity|]. split; [left; discriminate|reflexivity].
  - split; [|split; discriminate]. intros tm [= <-]. intros G G' iv E k j Hk Hj. rewrite VE, DE in *. unfold elastic_stress, trace, strain.
    rewrite (E k j), (E j k) by auto. rewrite (Rsum_ext 3 (fun m => (/ 2 * (G m m + G m m))%R) (fun m => (/ 2 * (G' m m + G' m m))%R)); [reflexivity|]. intros m Hm. now rewrite E by auto.
Qed.
Lemma one_is_elastic {V} s quad fquad normals pts cls (p1 : problem Rops V) : In s nine_names -> (forall cell, In cell cls -> length cell = node_count s /\ forall n, In n cell -> (n < length pts)%nat) ->
  one_var_problem s quad fquad normals pts cls = Ok p1 -> exists f (e : problem Rops V),
  elastic_problem (70000 * (3 / 10) / ((1 + 3 / 10) * (1 - 2 * (3 / 10)))) (70000 / (2 * (1 + 3 / 10))) e f /\ mass_map (maps e) = None /\ surface_maps (maps e) = None /\ fes p1 = fes e /\
  forall P u, compute_residual sqrt p1 P u = compute_residual sqrt e P u.
Proof.
  intros N C E. destruct (one_make (V := V) s quad fquad normals pts cls N C) as (f & p1' & B & E1 & EP1 & _). rewrite E in E1. injection E1 as <-. exists f, (plain_problem f).
  destruct (plain_elastic (V := V) f (built_vec _ _ _ _ _ _ _ _ _ _ _ B) (built_dim _ _ _ _ _ _ _ _ _ _ _ B)) as (EL & _). split; [exact EL|]. split; [reflexivity|]. split; [reflexivity|]. rewrite EP1. split; [reflexivity|]. intros P u. apply plain_residual.
Qed.
Section Box.
  Context {V : Type}.
  Variables (Nx Ny Nz : nat) (Lx Ly Lz : R) (quad fquad : list (list Rops) * list Rops) (normals : nat -> nat -> Rops).
  Hypothesis HX : (0 < Nx)%nat.
  Hypothesis HY : (0 < Ny)%nat.
  Hypothesis HZ : (0 < Nz)%nat.
  Hypothesis LX : 0 < Lx.
  Hypothesis LY : 0 < Ly.
  Hypothesis LZ : 0 < Lz.
  Let M := box_mesh Nx Ny Nz Lx Ly Lz.
  Hypothesis QW : forall q, (q < List.length (fst quad))%nat -> 0 < nth q (snd quad) (@zero Rops).
  Hypothesis GRID : grid_rule 3 (fst quad).
  Lemma box_cells_ok : forall cell, In cell (m_cells M) -> length cell = node_count "HEX8" /\ forall n, In n cell -> (n < length (m_points M))%nat.
  Proof.
    intros cell Hc. split.
    - apply (box_in Nx Ny Nz Lx Ly Lz HX HY HZ) in Hc as (i & j & k & _ & _ & _ & ->). reflexivity.
    - intros n Hn. exact (box_valid Nx Ny Nz Lx Ly Lz HX HY HZ cell n Hc Hn).
  Qed.
  Lemma box_cells_some : m_cells M <> [].
  Proof. intros E. pose proof (box_cells_len Nx Ny Nz Lx Ly Lz HX HY HZ) as L. fold M in L. rewrite E in L. cbn in L. nia. Qed.
  Lemma hex8 : In "HEX8"%string nine_names. Proof. cbn; tauto. Qed.
  Lemma held_left (x : list Rops) k : at_left (nth 0 x 0) -> exists w : R, held x k = Some w.
  Proof. intros A. apply tv_left_spec in A. unfold held. rewrite A. destruct (tv_right x); eexists; reflexivity. Qed.
  Lemma box_both : exists (p1 p2 : problem Rops V) u x y,
    one_var_problem "HEX8" quad fquad normals (m_points M) (m_cells M) = Ok p1 /\ two_vars_problem "HEX8" quad fquad normals (m_points M) (m_cells M) = Ok p2 /\
    split3 u x y /\ solves p1 [m_points M] [u] /\ (forall sol, solves p1 [m_points M] sol -> sol = [u]) /\
    solves p2 [m_points M; m_points M] [x; y] /\ (forall sol, solves p2 [m_points M; m_points M] sol -> sol = [x; y]).
  Proof.
    destruct (one_make (V := V) "HEX8" quad fquad normals _ _ hex8 box_cells_ok) as (f & p1 & B & E1 & EP1 & WF1 & IV1). destruct (two_make (V := V) "HEX8" quad fquad normals _ _ hex8 box_cells_ok) as (f0 & f1 & p2 & B0 & B1 & E2 & EP2 & WF2 & IV2).
    pose proof (built_points _ _ _ _ _ _ _ _ _ _ _ B) as PE. pose proof (built_vec _ _ _ _ _ _ _ _ _ _ _ B) as VE. pose proof (built_dim _ _ _ _ _ _ _ _ _ _ _ B) as DE.
    destruct (plain_elastic (V := V) f VE DE) as (EL & MO). destruct tv_positive as (L0 & M0).
    assert (LH : left_held f).
    { intros n k Hn Hk Z. rewrite PE in Hn, Z. rewrite VE in Hk. rewrite (one_held "HEX8" quad fquad normals _ _ f n k B Hn Hk). apply held_left. unfold at_left. refine (eq_ind_r (fun t => Rabs t <= / 10 ^ 5) _ Z). rewrite Rabs_R0. lra. }
    assert (WF : wf_problem (plain_problem (V := V) f)). { destruct WF1 as [W1 W2 W3 W4]. rewrite EP1 in W1, W2, W3, W4. constructor; [exact W1|exact W2|exact W3|exact W4]. }
    assert (IV : ivs_ok (plain_problem (V := V) f)) by (rewrite EP1 in IV1; exact IV1).
    destruct (box_clamped Nx Ny Nz Lx Ly Lz HX HY HZ LX LY LZ sqrt quad fquad normals _ f (plain_problem (V := V) f) tv_lmbda tv_mu B QW GRID LH EL IV MO L0 M0 WF) as (NCP & _ & _ & u & SU & UU).
    apply (el_solves tv_lmbda tv_mu (plain_problem (V := V) f) f (m_points M) WF NCP EL IV MO) in SU. apply plain_solves in SU. rewrite <- EP1 in SU.
    destruct (solves_one "HEX8" quad fquad normals _ _ hex8 box_cells_ok p1 E1 [u] SU) as (u' & [= <-] & SH). destruct (split_exists (m_points M) u SH) as (x & y & SP).
    assert (U1 : forall sol, solves p1 [m_points M] sol -> sol = [u]).
    { intros sol SS. destruct (solves_one "HEX8" quad fquad normals _ _ hex8 box_cells_ok p1 E1 sol SS) as (w & -> & SW). f_equal. rewrite EP1 in SS. apply plain_solves in SS. apply (el_solves tv_lmbda tv_mu (plain_problem (V := V) f) f (m_points M) WF NCP EL IV MO) in SS.
      apply (shaped_ext (@zero Rops) _ _ w u SW SH). intros n k Hn Hk. apply (UU w SS n k); [now rewrite PE|now rewrite VE]. }
    exists p1, p2, u, x, y. split; [exact E1|]. split; [exact E2|]. split; [exact SP|]. split; [exact SU|]. split; [exact U1|]. split; [now apply (solves_split "HEX8" quad fquad normals _ _ hex8 box_cells_ok box_cells_some p1 p2 E1 E2 u x y SP SH)|].
    intros sol SS. destruct (solves_two "HEX8" quad fquad normals _ _ hex8 box_cells_ok box_cells_some p1 p2 E1 E2 sol SS) as (w & x' & y' & -> & SW & SP' & S1). specialize (U1 _ S1) as [= ->].
    destruct SP as (A1 & A2 & A3), SP' as (C1 & C2 & C3). assert (X : x' = x). { apply (nth_ext _ _ [] []); [lia|]. intros n Hn. now rewrite (proj1 (A3 n ltac:(lia))), (proj1 (C3 n ltac:(lia))). }
    assert (Y : y' = y). { apply (nth_ext _ _ [] []); [lia|]. intros n Hn. now rewrite (proj2 (A3 n ltac:(lia))), (proj2 (C3 n ltac:(lia))). } now rewrite X, Y.
  Qed.
End Box.
