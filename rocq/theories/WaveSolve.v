(** Proofs for C78: the implicit step has a solution. *)
From Coq Require Import String Reals List Arith Lia Lra Bool.
From Verif Require Import Num Arr ArrFacts Fe Problem Basis SpecBasis BasisFacts SpecFe GeomFacts Mesh SpecMesh MeshFacts MeshMain MeshFe SpecSelect SelectFacts SpecAssembly SpecBc ProblemFacts FeFacts AgreeFacts SpecWeak KernelFacts SpecEnergy EnergyFacts ElasticFacts
  UniversalFacts LinAlg Wave SpecWave WaveFacts WaveMain.
Import ListNotations.

Section Solve.
  Variables (sqrtK : Rops -> Rops) (c dt : R) (p : problem Rops (nat -> Rops)) (f : fe Rops) (P : list (list Rops)).
  Hypothesis WP : wave_problem (K := Rops) c dt p f.
  Hypothesis WF : wf_problem p.
  Hypothesis NC : (0 < p_num_cells p)%nat.
  Hypothesis JP : forall e q, (e < p_num_cells p)%nat -> (q < num_quads f)%nat -> (0 < get_JxW P f e q)%R.
  Local Open Scope R_scope.
  Local Notation N := (List.length (points f)).
  (** fields that are zero where values are prescribed and vanish with their gradient at every quadrature point are zero *)
  Hypothesis SEEN : seen p f P.

  Definition wbil (x v : list (list Rops)) : R := over_cells (K := Rops) p f P (fun e q =>
      (c * dt) ^ 2 * dot2 (K := Rops) (vec f) (dim f) (sol_to_grad P f x e q) (sol_to_grad P f v e q)
      + dot1 (K := Rops) (vec f) (convert_from_dof_to_quad f x e q) (convert_from_dof_to_quad f v e q)).
  Definition wlin (w u v : list (list Rops)) : R := over_cells (K := Rops) p f P (fun e q =>
      dot1 (K := Rops) (vec f) (fun k => 2 * convert_from_dof_to_quad f u e q k - convert_from_dof_to_quad f w e q k) (convert_from_dof_to_quad f v e q)).
  Lemma wshape x : sol_ok p [x] <-> shaped N (vec f) x.
  Proof.
    unfold sol_ok, fe_of. rewrite (proj1 WP). cbn. split.
    - intros [_ H]. apply (H 0%nat). lia.
    - intros H. split; [reflexivity|]. intros v Hv. assert (v = 0)%nat as -> by lia. exact H.
  Qed.
  Lemma w_grad a b t e q k j : sol_ok p [a] -> sol_ok p [b] -> (e < p_num_cells p)%nat -> (k < vec f)%nat ->
    sol_to_grad P f (along (K := Rops) a b t) e q k j = sol_to_grad P f a e q k j + t * sol_to_grad P f b e q k j.
  Proof.
    intros A B He Hk. pose proof (as_std_std (K := Rops) c dt p f WP) as STD.
    exact (grad_along Rops_ring (as_std (K := Rops) c dt p) f P a (as_std_wf c dt p f WP WF) NC STD A b t e q k j B He Hk).
  Qed.
  Lemma w_value a b t e q k : sol_ok p [a] -> sol_ok p [b] -> (e < p_num_cells p)%nat -> (k < vec f)%nat ->
    convert_from_dof_to_quad f (along (K := Rops) a b t) e q k = convert_from_dof_to_quad f a e q k + t * convert_from_dof_to_quad f b e q k.
  Proof.
    intros A B He Hk. pose proof (as_std_std (K := Rops) c dt p f WP) as STD.
    exact (value_along Rops_ring (as_std (K := Rops) c dt p) f a (as_std_wf c dt p f WP WF) NC STD A b t e q k B He Hk).
  Qed.
  Lemma wbil_linear y x v t : sol_ok p [y] -> sol_ok p [x] -> sol_ok p [v] -> wbil (along (K := Rops) x v t) y = wbil x y + t * wbil v y.
  Proof.
    intros SY SX SV. unfold wbil, over_cells. rewrite <- Rsum_mul, <- Rsum_plus. apply Rsum_ext. intros e He. rewrite <- Rsum_mul, <- Rsum_plus. apply Rsum_ext. intros q Hq.
    cbn [mul Rops]. unfold dot1, dot2.
    rewrite (Rsum_ext (vec f) (fun k => sum_n (K := Rops) (dim f) _) (fun k => sum_n (K := Rops) (dim f) (fun j => sol_to_grad P f x e q k j * sol_to_grad P f y e q k j) + t * sum_n (K := Rops) (dim f) (fun j => sol_to_grad P f v e q k j * sol_to_grad P f y e q k j))).
    2:{ intros k Hk. rewrite <- Rsum_mul, <- Rsum_plus. apply Rsum_ext. intros j Hj. rewrite w_grad by auto. cbn; req; ring. }
    rewrite (Rsum_ext (vec f) (fun k => mul _ _) (fun k => convert_from_dof_to_quad f x e q k * convert_from_dof_to_quad f y e q k + t * (convert_from_dof_to_quad f v e q k * convert_from_dof_to_quad f y e q k))).
    2:{ intros k Hk. rewrite w_value by auto. cbn; req; ring. }
    rewrite !Rsum_plus, !Rsum_mul. cbn; req; ring.
  Qed.
  Lemma wbil_sym x y : wbil x y = wbil y x.
  Proof.
    unfold wbil, over_cells. apply Rsum_ext. intros e He. apply Rsum_ext. intros q Hq. cbn [mul Rops]. f_equal. f_equal.
    - f_equal. unfold dot2. apply Rsum_ext. intros k Hk. apply Rsum_ext. intros j Hj. cbn; req; ring.
    - unfold dot1. apply Rsum_ext. intros k Hk. cbn; req; ring.
  Qed.
  Lemma wbil_definite d : c * dt <> 0 -> wbil d d = 0 -> forall e q k, (e < p_num_cells p)%nat -> (q < num_quads f)%nat -> (k < vec f)%nat ->
    convert_from_dof_to_quad f d e q k = 0 /\ forall j, (j < dim f)%nat -> sol_to_grad P f d e q k j = 0.
  Proof.
    intros CD Z e q k He Hq Hk.
    set (D := fun e q => (c * dt) ^ 2 * dot2 (K := Rops) (vec f) (dim f) (sol_to_grad P f d e q) (sol_to_grad P f d e q)
                        + dot1 (K := Rops) (vec f) (convert_from_dof_to_quad f d e q) (convert_from_dof_to_quad f d e q)).
    assert (DP : forall e q, 0 <= D e q).
    { intros e' q'. unfold D. apply Rplus_le_le_0_compat; [apply Rmult_le_pos; [nra|apply square2_nonneg]|apply square_nonneg]. }
    assert (JW : forall e q, (e < p_num_cells p)%nat -> (q < num_quads f)%nat -> 0 <= get_JxW P f e q) by (intros; apply Rlt_le, JP; auto).
    assert (DZ : D e q = 0).
    { unfold wbil, over_cells in Z.
      pose proof (Rsum_zero_all _ _ (fun e He => Rsum_nonneg _ _ (fun q Hq => Rmult_le_pos _ _ (DP e q) (JW e q He Hq))) Z e He) as Z1.
      pose proof (Rsum_zero_all _ _ (fun q Hq => Rmult_le_pos _ _ (DP e q) (JW e q He Hq)) Z1 q Hq) as Z2.
      apply Rmult_integral in Z2. destruct Z2 as [Z2|Z2]; [exact Z2|]. pose proof (JP e q He Hq). lra. }
    unfold D in DZ. assert (C2 : 0 < (c * dt) ^ 2) by nra.
    pose proof (square2_nonneg (vec f) (dim f) (sol_to_grad P f d e q)) as N2. pose proof (square_nonneg (vec f) (convert_from_dof_to_quad f d e q)) as N1.
    assert (Z1 : dot1 (K := Rops) (vec f) (convert_from_dof_to_quad f d e q) (convert_from_dof_to_quad f d e q) = 0).
    { pose proof (Rmult_le_pos _ _ (Rlt_le _ _ C2) N2). lra. }
    assert (Z2 : dot2 (K := Rops) (vec f) (dim f) (sol_to_grad P f d e q) (sol_to_grad P f d e q) = 0).
    { rewrite Z1 in DZ. assert (X : (c * dt) ^ 2 * dot2 (K := Rops) (vec f) (dim f) (sol_to_grad P f d e q) (sol_to_grad P f d e q) = 0) by lra.
      apply Rmult_integral in X. destruct X; lra. }
    split.
    - unfold dot1 in Z1. pose proof (Rsum_zero_all _ _ (fun k _ => Rle_0_sqr _) Z1 k Hk) as Y. cbn in Y. apply Rmult_integral in Y. lra.
    - intros j Hj. unfold dot2 in Z2. pose proof (Rsum_zero_all _ _ (fun k _ => Rsum_nonneg _ _ (fun j _ => Rle_0_sqr _)) Z2 k Hk) as Y.
      pose proof (Rsum_zero_all _ _ (fun j _ => Rle_0_sqr _) Y j Hj) as Y'. cbn in Y'. apply Rmult_integral in Y'. lra.
  Qed.
  Theorem step_exists w u : c * dt <> 0 -> exists x, solved sqrtK (stepped (K := Rops) c dt f w u) f P x.
  Proof.
    intros CD.
    set (Res := fun x => match compute_residual sqrtK (stepped (K := Rops) c dt f w u) [P] [x] with Ok [r] => r | _ => [] end).
    assert (RES : forall x, sol_ok p [x] -> compute_residual sqrtK (stepped (K := Rops) c dt f w u) [P] [x] = Ok [Res x]).
    { intros x SX. destruct (stepped_runs Rops_ring sqrtK c dt p f P WP WF NC w u x SX) as (r & E & _). unfold Res. now rewrite E. }
    destruct (field_solvable N (vec f) wbil (wlin w u) Res (prescribed f)) as (x & SX & HX & ZX).
    - intros y x v t Y X V. apply wbil_linear; now apply wshape.
    - intros y x v t Y X V. rewrite wbil_sym, wbil_linear by now apply wshape. now rewrite (wbil_sym x y), (wbil_sym v y).
    - intros x v X V. apply wshape in X, V. rewrite (wave_work Rops_ring sqrtK c dt p f P WP WF NC w u x v (Res x) X V (RES x X)).
      unfold wbil, wlin, over_cells. apply Rplus_eq_reg_r with (sum_n (K := Rops) (p_num_cells p) (fun e => sum_n (K := Rops) (num_quads f) (fun q =>
        dot1 (K := Rops) (vec f) (fun k => 2 * convert_from_dof_to_quad f u e q k - convert_from_dof_to_quad f w e q k) (convert_from_dof_to_quad f v e q) * get_JxW P f e q))).
      rewrite <- Rsum_plus. unfold Rminus. rewrite Rplus_assoc. cbn [mul Rops]. rewrite Rplus_opp_l, Rplus_0_r. apply Rsum_ext. intros e He. rewrite <- Rsum_plus. apply Rsum_ext. intros q Hq.
      rewrite <- Rmult_plus_distr_r. f_equal. rewrite Rplus_assoc. f_equal; [cbn; req; ring|]. unfold dot1. rewrite <- Rsum_plus. apply Rsum_ext. intros k Hk. cbn; req; ring.
    - intros d SD HD Z n k Hn Hk. apply SEEN; auto; [now apply wshape|]. intros e q k' He Hq Hk'. now apply wbil_definite.
    - exists x. split; [apply (stepped_sol (K := Rops) c dt p f WP w u x); now apply wshape|]. split; [exact HX|]. exists (Res x). split; [apply RES; now apply wshape|]. exact ZX.
  Qed.
  Theorem nodal_unique w u x y : c * dt <> 0 -> solved sqrtK (stepped (K := Rops) c dt f w u) f P x -> solved sqrtK (stepped (K := Rops) c dt f w u) f P y ->
    forall n k, (n < N)%nat -> (k < vec f)%nat -> get2 (@zero Rops) x n k = get2 (@zero Rops) y n k.
  Proof.
    intros CD SX SY n k Hn Hk. assert (SX' := SX). assert (SY' := SY). destruct SX' as (OX & HX & _), SY' as (OY & HY & _).
    apply (stepped_sol (K := Rops) c dt p f WP) in OX. apply (stepped_sol (K := Rops) c dt p f WP) in OY.
    assert (JW : forall e q, (e < p_num_cells p)%nat -> (q < num_quads f)%nat -> 0 <= get_JxW P f e q) by (intros; apply Rlt_le, JP; auto).
    pose proof (step_unique sqrtK c dt p f P WP WF NC JW w u x y CD JP SX SY) as U.
    pose proof (get_minus c dt p f WP x y n k OX OY Hn Hk) as G.
    enough (Z : get2 (@zero Rops) (along (K := Rops) x y (-1)) n k = 0).
    { pose proof (eq_trans (eq_sym G) Z) as Q. clear - Q. cbn in *. lra. }
    apply SEEN; auto; [apply minus_ok; auto| |].
    - intros n' k' b Hn' Hk' B. pose proof (get_minus c dt p f WP x y n' k' OX OY Hn' Hk') as G'. etransitivity; [exact G'|]. rewrite (HX n' k' b Hn' Hk' B), (HY n' k' b Hn' Hk' B). req; ring.
    - intros e q k' He Hq Hk'. destruct (U e q k' He Hq Hk') as (U1 & U2). split.
      + etransitivity; [apply (value_minus c dt p f WP WF NC); auto|]. rewrite U1. req; ring.
      + intros j Hj. etransitivity; [apply (grad_minus c dt p f P WP WF NC); auto|]. rewrite (U2 j Hj). req; ring.
  Qed.
End Solve.

Section RunExists.
  Variables (sqrtK : Rops -> Rops) (c dt : R) (f : fe Rops) (P : list (list Rops)).
  Local Open Scope R_scope.
  Lemma loop_exists n : c * dt <> 0 -> forall i p w u, wave_problem (K := Rops) c dt p f -> wf_problem p -> (0 < p_num_cells p)%nat ->
    (forall e q, (e < p_num_cells p)%nat -> (q < num_quads f)%nat -> (0 < get_JxW P f e q)%R) -> seen p f P ->
    exists solve h, (forall j q, (j < i)%nat -> solve j q = Err AssertionErr) /\ time_loop (K := Rops) solve n i p w u = Ok h /\ forall q x, In (q, x) h -> solved sqrtK q f P x.
  Proof.
    intros CD. induction n as [|n IH]; intros i p w u WP WF NC JP SE.
    - exists (fun _ _ => Err AssertionErr), []. split; [auto|]. split; [reflexivity|]. intros q x [ ].
    - destruct (step_exists sqrtK c dt p f P WP WF NC JP SE w u CD) as (x & SX).
      destruct (IH (S i) (stepped (K := Rops) c dt f w u) u x) as (solve & h & B & E & H).
      + apply stepped_wave.
      + now apply (stepped_wf (K := Rops) c dt p f WP WF).
      + rewrite (stepped_nc c dt f w u). now rewrite <- (wave_nc c dt p f WP).
      + intros e q. rewrite (stepped_nc c dt f w u), <- (wave_nc c dt p f WP). apply JP.
      + intros d Sd Hd Z. apply SE; auto; [now apply (stepped_sol (K := Rops) c dt p f WP) in Sd|]. intros e q k He. rewrite (wave_nc c dt p f WP) in He. now apply Z.
      + exists (fun j q => if (j =? i)%nat then Ok x else solve j q), ((stepped (K := Rops) c dt f w u, x) :: h). split; [|split].
        * intros j q Hj. destruct (Nat.eqb_spec j i); [lia|]. apply B. lia.
        * cbn [time_loop]. rewrite (set_params_ok (K := Rops) c dt p f WP). cbn [bind]. rewrite Nat.eqb_refl. cbn [bind].
          enough (EQ : forall n i' p0 w0 u0, (i < i')%nat -> time_loop (K := Rops) (fun j q => if (j =? i)%nat then Ok x else solve j q) n i' p0 w0 u0 = time_loop (K := Rops) solve n i' p0 w0 u0)
            by (rewrite EQ by lia; rewrite E; reflexivity).
          clear. induction n as [|n IH]; intros i' p0 w0 u0 Hi; [reflexivity|]. cbn [time_loop]. destruct (set_params p0 w0 u0) as [p'|]; [|reflexivity]. cbn [bind].
          destruct (Nat.eqb_spec i' i); [lia|]. destruct (solve i' p') as [s|]; [|reflexivity]. cbn [bind]. rewrite IH by lia. reflexivity.
        * intros q y [Q|Q]; [injection Q as <- <-; exact SX|now apply H].
  Qed.
End RunExists.

(** Enough quadrature points and no node outside the cells: every field is seen. *)
Lemma seen_by_values {V} (p : problem Rops V) f P : fes p = [f] -> 
  (forall n, (n < List.length (points f))%nat -> exists e a, (e < num_cells f)%nat /\ (a < num_nodes f)%nat /\ nth a (nth e (cells f) []) 0%nat = n) ->
  (forall z : nat -> R, (forall q, (q < num_quads f)%nat -> sum_n (K := Rops) (num_nodes f) (fun a => z a * shape_vals f q a)%R = 0%R) -> forall a, (a < num_nodes f)%nat -> z a = 0%R) ->
  seen p f P.
Proof.
  intros F COV UNI d SD _ Z n k Hn Hk. destruct (COV n Hn) as (e & a & He & Ha & E).
  assert (He' : (e < p_num_cells p)%nat) by (unfold p_num_cells, fe0; now rewrite F).
  assert (LD : List.length d = List.length (points f)).
  { destruct SD as (_ & SD). specialize (SD 0%nat). rewrite F in SD. specialize (SD ltac:(cbn; lia)). unfold fe_of in SD. rewrite F in SD. exact (proj1 SD). }
  transitivity (cell_sol_at f d e a k).
  - unfold cell_sol_at, cell_node. rewrite E. rewrite gather_in by (rewrite LD; exact Hn). reflexivity.
  - apply (UNI (fun a => cell_sol_at f d e a k)); [|exact Ha]. intros q Hq. exact (proj1 (Z e q k He' Hq Hk)).
Qed.

(** *** Rectangles *)
Definition quad4_rule : list (list Rops) * list Rops :=
  ([[/ 4; / 4]; [/ 4; 3 / 4]; [3 / 4; / 4]; [3 / 4; 3 / 4]], [/ 4; / 4; / 4; / 4])%R.
Section Rect.
  Variables (Nx Ny : nat) (Lx Ly c dt : R) (value : Rops) (g : list Rops -> bool) (sqrtK : Rops -> Rops) (fquad : list (list Rops) * list Rops) (normals : nat -> nat -> Rops).
  Hypothesis HX : (0 < Nx)%nat. Hypothesis HY : (0 < Ny)%nat. Hypothesis LX : (0 < Lx)%R. Hypothesis LY : (0 < Ly)%R.
  Let M := rectangle_mesh Nx Ny Lx Ly.
  Local Notation bc := (Some ([Loc1 g], [0%nat], [fun _ : list Rops => value])).
  Variable f : fe Rops.
  Hypothesis BUILT : fe_init (K := Rops) sqrtK "QUAD4"%string quad4_rule fquad normals (m_points M) (m_cells M) 1 2 bc = Ok f.
  Let p : problem Rops (nat -> Rops) := mkProblem [f] [] (wave_maps (K := Rops) c dt [f]) [] [].
  Lemma rect_seen : seen p f (m_points M).
  Proof.
    apply seen_by_values; [reflexivity| |].
    - intros n Hn. rewrite (built_points _ _ _ _ _ _ _ _ _ _ _ BUILT) in Hn. destruct (rect_point_inv Nx Ny Lx Ly HX HY n Hn) as (i & j & Hi & Hj & ->).
      rewrite (built_nodes _ _ _ _ _ _ _ _ _ _ _ BUILT), (rect_num_cells Nx Ny Lx Ly HX HY _ _ _ _ _ _ f BUILT), (built_cells _ _ _ _ _ _ _ _ _ _ _ BUILT).
      set (i0 := if (i =? Nx)%nat then (i - 1)%nat else i). set (j0 := if (j =? Ny)%nat then (j - 1)%nat else j).
      assert (I0 : (i0 < Nx)%nat) by (unfold i0; destruct (Nat.eqb_spec i Nx); lia). assert (J0 : (j0 < Ny)%nat) by (unfold j0; destruct (Nat.eqb_spec j Ny); lia).
      exists (i0 * Ny + j0)%nat, (match (i =? Nx)%nat, (j =? Ny)%nat with false, false => 0 | true, false => 1 | true, true => 2 | false, true => 3 end)%nat.
      split; [nia|]. split; [destruct (i =? Nx)%nat, (j =? Ny)%nat; cbn; lia|]. unfold M. rewrite rect_cell by auto. unfold quad_of, i0, j0.
      destruct (Nat.eqb_spec i Nx), (Nat.eqb_spec j Ny); cbn [nth]; nia.
    - rewrite (built_nodes _ _ _ _ _ _ _ _ _ _ _ BUILT), (built_quads _ _ _ _ _ _ _ _ _ _ _ BUILT). change (node_count "QUAD4"%string) with 4%nat. cbn [quad4_rule fst List.length].
      intros z H. destruct (built_inv _ _ _ _ _ _ _ _ _ _ _ BUILT) as (info & fi & bc0 & GE & _ & _ & Hf). injection GE as <-.
      destruct bc0 as [[ns vs] ws]. rewrite Hf in H. cbn [make_fe shape_vals] in H.
      pose proof (H 0%nat ltac:(lia)) as H0. pose proof (H 1%nat ltac:(lia)) as H1. pose proof (H 2%nat ltac:(lia)) as H2. pose proof (H 3%nat ltac:(lia)) as H3. clear H.
      cbn in H0, H1, H2, H3. intros a Ha. destruct a as [|[|[|[|a]]]]; try lia; lra.
  Qed.
  Lemma rect_positive e q : (e < p_num_cells p)%nat -> (q < num_quads f)%nat -> (0 < get_JxW (m_points M) f e q)%R.
  Proof.
    intros He Hq. change (p_num_cells p) with (num_cells f) in He. rewrite (rect_num_cells Nx Ny Lx Ly HX HY _ _ _ _ _ _ f BUILT) in He.
    unfold M. rewrite (rect_JxW Nx Ny Lx Ly HX HY _ _ _ _ _ _ f BUILT e q He). rewrite (built_weights _ _ _ _ _ _ _ _ _ _ _ BUILT). rewrite (built_quads _ _ _ _ _ _ _ _ _ _ _ BUILT) in Hq.
    assert (0 < INR Nx)%R by (apply lt_0_INR; lia). assert (0 < INR Ny)%R by (apply lt_0_INR; lia).
    apply Rmult_lt_0_compat; [apply Rmult_lt_0_compat; now apply Rdiv_lt_0_compat|]. cbn in Hq. destruct q as [|[|[|[|q]]]]; try lia; cbn; lra.
  Qed.
  Lemma rect_wf : wf_problem p.
  Proof.
    pose proof (rect_mesh_ok Nx Ny Lx Ly HX HY _ _ _ _ _ _ f BUILT) as MESH. constructor; cbn.
    - intros f0 [<-|[]]. reflexivity.
    - intros f0 cell [<-|[]] Hc. apply In_nth with (d := []) in Hc as (e & Hc & <-). now apply MESH.
    - intros f0 cell n [<-|[]] Hc. apply In_nth with (d := []) in Hc as (e & Hc & <-). now apply MESH.
    - intros b e fc [].
  Qed.
  Lemma rect_prescribed n k : (n < List.length (m_points M))%nat -> (k < 1)%nat -> prescribed f n k = if g (nth n (m_points M) []) then Some value else None.
  Proof.
    intros Hn Hk. assert (k = 0)%nat as -> by lia. assert (B := BUILT). unfold fe_init in B. destruct (get_elements "QUAD4"%string) as [info|]; [|discriminate]. destruct (reorder_inds _ _) as [fi|]; [|discriminate].
    destruct (dirichlet_spec (K := Rops) (m_points M) [Loc1 g] [0%nat] [fun _ => value]) as (_ & _ & D).
    destruct D as (ns & vs & ws & E & D); [reflexivity|reflexivity|reflexivity|]. unfold M in *. match type of E with ?l = _ => match type of B with context [Dirichlet_boundary_conditions ?a ?b] => change (Dirichlet_boundary_conditions a b) with l in B end end. rewrite E in B. injection B as Bf.
    assert (OK' : dirichlet_ok (points f) [Loc1 g] [0%nat] [fun _ => value] (node_inds_list f) (vec_inds_list f) (vals_list f)) by (rewrite <- Bf; exact D).
    rewrite (proj1 (proj2 (dirichlet_prescribed f _ _ _ OK'))). rewrite (built_points _ _ _ _ _ _ _ _ _ _ _ BUILT). unfold dirichlet_value. cbn [List.length seq fold_left].
    cbn [andb nth Nat.eqb loc_holds]. clear Bf OK' D E. match goal with |- context [(n <? ?l)%nat] => change l with (List.length (m_points (rectangle_mesh Nx Ny Lx Ly))) end. rewrite (proj2 (Nat.ltb_lt _ _) Hn). cbn [andb]. match goal with |- (if ?a then _ else _) = (if ?b then _ else _) => change a with b; destruct b; reflexivity end.
  Qed.
End Rect.
