(** A run for C101: heated, cooled, and heated again. *)
From Coq Require Import String Reals List Arith Lia Lra Bool.
From Verif Require Import Num Arr ArrFacts Fe Problem SpecAssembly Basis SpecBasis SpecFe FeFacts GeomFacts SpecSelect SpecWeak BalanceFacts Init SpecInit InitFacts Mesh SpecMesh MeshMain MeshFe
  Elastic ElasticFacts Plasticity SpecPlasticity PlasticityFacts PlasticityMain ThermalFacts Laser SpecLaser LaserFacts LaserMain LaserHeat LaserBox LaserEnd.
Import ListNotations.
Local Open Scope R_scope.

Section Witness.
  Variables (Nx Ny : nat) (X Y : R) (HX : (0 < Nx)%nat) (HY : (0 < Ny)%nat).
  Let M := box_mesh Nx Ny 5 X Y Lz.
  Variables (sqrtK : Rops -> Rops) (quad fquad : list (list Rops) * list Rops) (normals : nat -> nat -> Rops).
  Lemma box_arg v dir : match dir with None => True | Some (l, vs, ws) => length l = length vs /\ length ws = length vs /\ forall g, In g l -> loc_wrong g = false end ->
    mesh_arg_ok (mkVar (K := Rops) (m_points M) (m_cells M) v "HEX8" quad fquad normals dir).
  Proof.
    intros H. unfold mesh_arg_ok. cbn [va_ele_type va_points va_cells va_vec va_bc]. split; [cbn; tauto|]. split; [|exact H].
    intros cell I. split; [apply box_in in I as (i & j & k & Hi & Hj & Hk & ->); [reflexivity|assumption|assumption|lia]|].
    intros n Hn. exact (box_valid Nx Ny 5 X Y Lz HX HY ltac:(lia) cell n I Hn).
  Qed.
  Lemma heat_exists : exists p, problem_init sqrtK 3 [heat_var quad fquad normals (m_points M) (m_cells M)] heat_locations heat_maps (fun a b => (a, b)) = Ok p.
  Proof.
    destruct (init_wf sqrtK 3 [heat_var quad fquad normals (m_points M) (m_cells M)] heat_locations heat_maps (fun a b => (a, b))) as (p & E & _).
    - split; [discriminate|]. split; [|intros a b [<-|[]] [<-|[]]; reflexivity]. intros a [<-|[]]. apply box_arg. cbn. split; [reflexivity|]. split; [reflexivity|]. intros g [<-|[]]. reflexivity.
    - cbn. intros g [<-|[<-|[]]]; reflexivity.
    - reflexivity.
    - exists p. exact E.
  Qed.
  Lemma mech_exists : exists f, fe_init sqrtK "HEX8" quad fquad normals (m_points M) (m_cells M) 3 3 (Some mech_bc) = Ok f.
  Proof.
    apply (fe_init_ok sqrtK 3 (mkVar (m_points M) (m_cells M) 3 "HEX8" quad fquad normals (Some mech_bc))). apply box_arg. cbn. split; [reflexivity|]. split; [reflexivity|].
    intros g [<-|[<-|[<-|[]]]]; reflexivity.
  Qed.
  Variables (p : problem Rops lval) (fu : fe Rops).
  Hypothesis INIT : problem_init sqrtK 3 [heat_var quad fquad normals (m_points M) (m_cells M)] heat_locations heat_maps (fun a b => (a, b)) = Ok p.
  Hypothesis BU : fe_init sqrtK "HEX8" quad fquad normals (m_points M) (m_cells M) 3 3 (Some mech_bc) = Ok fu.
  Definition constant (x : R) : list (list Rops) := repeat [x] (length (points fu)).
  Lemma constant_shaped x : shaped (length (points fu)) 1 (constant x).
  Proof. split; [apply repeat_length|]. intros row R. apply repeat_spec in R. now subst. Qed.
  Lemma mul_comm_r (x y : R) : x * y = y * x. Proof. ring. Qed.
  Lemma constant_quad x c q : (c < num_cells fu)%nat -> convert_from_dof_to_quad fu (constant x) c q 0%nat = x.
  Proof.
    intros Hc. assert (LE : built_element "HEX8" (dim fu) fu).
    { split; [cbn; tauto|]. rewrite (built_dim _ _ _ _ _ _ _ _ _ _ _ BU). split; [reflexivity|]. split; [exact (box_mesh_ok Nx Ny 5 X Y Lz HX HY ltac:(lia) _ _ _ _ _ _ fu BU)|]. do 8 eexists. exact BU. }
    pose proof (box_mesh_ok Nx Ny 5 X Y Lz HX HY ltac:(lia) _ _ _ _ _ _ fu BU c Hc) as (L & I).
    unfold convert_from_dof_to_quad. rewrite (sum_n_ext _ _ (fun a => @mul Rops x (shape_vals fu q a))).
    - rewrite (sum_n_mul_l Rops_ring), (vals_total Rops_ring "HEX8" fu q LE). cbn. ring.
    - intros a Ha. f_equal. unfold cell_sol_at, cell_node, constant. set (n := nth a (nth c (cells fu) []) 0%nat).
      assert (Hn : (n < length (points fu))%nat) by (apply I, nth_In; lia).
      rewrite gather_nth by (rewrite repeat_length; exact Hn). rewrite repeat_nth by exact Hn. reflexivity.
  Qed.
  Definition heating (x : R) : R := if Rlt_dec x (125 / 10 ^ 6 + 10 / 10 ^ 6 + 5 / 10 ^ 7) then 2000 else if Rlt_dec x (125 / 10 ^ 6 + 20 / 10 ^ 6 + 5 / 10 ^ 7) then 1000 else 2000.
  Definition demo_T (pT : problem Rops lval) : result (list (list Rops)) :=
    match internal_vars_surfaces pT with
    | (_ :: (g :: _) :: _) :: _ => match g 0%nat with LVec center => Ok (constant (heating (center 0%nat))) | _ => Ok (constant 300) end
    | _ => Ok (constant 300)
    end.
  Definition demo_u (pu : problem Rops lval) (guess : list (list Rops)) : result (list (list Rops)) := Ok guess.
  Definition mech_problem : problem Rops lval := mkProblem [fu] [] (mkMaps (Some (laser_stress 3)) None None None None) (mech_init fu) [].
  Lemma demo_total pT : exists T, demo_T pT = Ok T.
  Proof. unfold demo_T. destruct (internal_vars_surfaces pT) as [|[|? [|[|g ?] ?]] ?]; try (eexists; reflexivity). destruct (g 0%nat); eexists; reflexivity. Qed.
  Lemma demo_shape pT T : demo_T pT = Ok T -> shaped (length (points fu)) 1 T.
  Proof.
    unfold demo_T. intros E. destruct (internal_vars_surfaces pT) as [|[|? [|[|g ?] ?]] ?]; try (injection E as <-; apply constant_shaped). destruct (g 0%nat); injection E as <-; apply constant_shaped.
  Qed.
  Lemma demo_pass i Told pT : heat_params p Told (beam_center i) (beam_switch i) = Ok pT -> demo_T pT = Ok (constant (heating (beam_center i 0%nat))).
  Proof.
    destruct (heat_built sqrtK quad fquad normals _ _ p INIT) as (f & b0 & b1 & EF & EB & EM & B & SB). unfold heat_params. rewrite EF, EB. intros E. injection E as <-.
    assert (b0 <> []) as NE.
    { pose proof (box_mesh_ok Nx Ny 5 X Y Lz HX HY ltac:(lia) _ _ _ _ _ _ f B) as MO. destruct (heat_selected sqrtK quad fquad normals _ _ f B MO b0 b1 SB) as (S0 & _).
      pose proof (top_count Nx Ny X Y HX HY sqrtK quad fquad normals 1 _ f B b0 S0) as TC. intros ->. cbn in TC. nia. }
    destruct b0 as [|x b0]; [congruence|]. reflexivity.
  Qed.
  Lemma heating_at i : heating (beam_center i 0%nat) = if (i <? 10)%nat then 2000 else if (i <? 20)%nat then 1000 else 2000.
  Proof.
    rewrite (proj1 (beam_center_eq i)). unfold heating. rewrite plus_INR. change (INR 1) with 1.
    assert (H9 : INR 9 = 9) by (rewrite INR_IZR_INZ; reflexivity). assert (H10 : INR 10 = 10) by (rewrite INR_IZR_INZ; reflexivity).
    assert (H19 : INR 19 = 19) by (rewrite INR_IZR_INZ; reflexivity). assert (H20 : INR 20 = 20) by (rewrite INR_IZR_INZ; reflexivity).
    destruct (Nat.ltb_spec i 10) as [L|L]; [|destruct (Nat.ltb_spec i 20) as [L2|L2]].
    - assert (L' : (i <= 9)%nat) by lia. apply le_INR in L'. destruct (Rlt_dec _ _); [reflexivity|lra].
    - apply le_INR in L. assert (L' : (i <= 19)%nat) by lia. apply le_INR in L'. destruct (Rlt_dec _ _); [lra|]. destruct (Rlt_dec _ _); [reflexivity|lra].
    - apply le_INR in L, L2. destruct (Rlt_dec _ _); [lra|]. destruct (Rlt_dec _ _); [lra|reflexivity].
  Qed.
  Lemma demo_run n : exists h, laser_run demo_T demo_u p mech_problem fu (m_points M) n = Ok h /\ length h = n /\
    forall i c q, (i < n)%nat -> (c < num_cells fu)%nat -> temperature fu (state fu h (S i)) c q = if (i <? 10)%nat then 2000 else if (i <? 20)%nat then 1000 else 2000.
  Proof.
    assert (D : dim fu = 3%nat) by exact (built_dim _ _ _ _ _ _ _ _ _ _ _ BU).
    assert (D0 : (0 < dim fu)%nat) by (rewrite D; lia). assert (MU : tensor_map (maps mech_problem) = Some (laser_stress (dim fu))) by (rewrite D; reflexivity).
    destruct (heat_built sqrtK quad fquad normals _ _ p INIT) as (f & b0 & b1 & EF & EB & EM & B & SB).
    destruct (loop_runs demo_T demo_u p mech_problem fu (m_points M) D0 MU n) with (i := 0%nat) (s := laser_start fu) as (h & RUN).
    - exists f, b0, b1, []. auto.
    - exact demo_total.
    - intros pu g. eexists. reflexivity.
    - exact (start_ok fu D0).
    - exists h. split; [exact RUN|]. split; [exact (h_len demo_T demo_u p mech_problem fu (m_points M) D0 n h RUN)|].
      intros i c q Hi Hc. pose proof (h_pass demo_T demo_u p mech_problem fu (m_points M) D0 n h RUN i Hi) as E.
      destruct (pass_spec demo_T demo_u p mech_problem fu (m_points M) D0 MU i _ _ (h_ok demo_T demo_u p mech_problem fu (m_points M) D0 MU n h RUN i ltac:(lia)) E) as (_ & (pT & E1 & E2) & _).
      rewrite (demo_pass i _ pT E1) in E2. injection E2 as E2. unfold temperature, state. change (nth (S i) (laser_start fu :: h) no_state) with (nth i h no_state). rewrite <- E2.
      rewrite constant_quad by exact Hc. apply heating_at.
  Qed.
End Witness.
