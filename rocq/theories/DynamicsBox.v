(** The lumped masses on a box mesh. *)
From Coq Require Import String Reals List Arith Lia Lra Bool.
From Verif Require Import Num Arr ArrFacts Fe Problem SpecAssembly BatchFacts ProblemFacts Basis SpecBasis SpecFe FeFacts GeomFacts SpecWeak KernelFacts
  SpecEnergy EnergyFacts Elastic ElasticFacts SpecElastic ElasticMain Mesh MeshFacts MeshMain MeshFe Dynamics SpecDynamics DynamicsFacts DynamicsMain.
Import ListNotations.
Local Open Scope R_scope.

Lemma Rsum_pos n (g : nat -> R) : (forall i, (i < n)%nat -> 0 <= g i) -> (exists i, (i < n)%nat /\ 0 < g i) -> 0 < sum_n (K := Rops) n g.
Proof.
  induction n as [|n IH]; intros H (i & Hi & P); [lia|]. rewrite (sum_n_S Rops_ring). change (0 < sum_n (K := Rops) n g + g n).
  destruct (Nat.eq_dec i n) as [->|D].
  - pose proof (Rsum_nonneg n g (fun i Hi => H i (Nat.lt_lt_succ_r _ _ Hi))). cbn in *. lra.
  - assert (0 < sum_n (K := Rops) n g) by (apply IH; [intros; apply H; lia|exists i; split; [lia|exact P]]). pose proof (H n (Nat.lt_succ_diag_r n)). cbn in *. lra.
Qed.

Lemma hex8_positive info (x : list Rops) a : get_elements "HEX8" = Ok info -> (a < 8)%nat -> (forall j, (j < 3)%nat -> 0 < nth j x (@zero Rops) < 1) ->
  0 < shape_value info x a.
Proof.
  intros E Ha H. pose proof (H 0%nat ltac:(lia)) as [A0 B0]. pose proof (H 1%nat ltac:(lia)) as [A1 B1]. pose proof (H 2%nat ltac:(lia)) as [A2 B2].
  injection E as <-. unfold shape_value. cbn [re_order basix_ele degree].
  set (u := nth 0 x (@zero Rops)) in *. set (v := nth 1 x (@zero Rops)) in *. set (w := nth 2 x (@zero Rops)) in *.
  destruct a as [|[|[|[|[|[|[|[|a]]]]]]]]; try lia; cbn; change (pt x 0) with u; change (pt x 1) with v; change (pt x 2) with w;
    repeat apply Rmult_lt_0_compat; lra.
Qed.

Section Box.
  Context (Nx Ny Nz : nat) (Lx Ly Lz : R) (HX : (0 < Nx)%nat) (HY : (0 < Ny)%nat) (HZ : (0 < Nz)%nat) (LX : 0 < Lx) (LY : 0 < Ly) (LZ : 0 < Lz).
  Let M := box_mesh Nx Ny Nz Lx Ly Lz.
  Context (sqrtK : R -> R) (quad fquad : list (list Rops) * list Rops) (normals : nat -> nat -> Rops) (v : nat)
    (dir : option (list (location_fn Rops) * list nat * list (list Rops -> Rops))) (f : fe Rops).
  Hypothesis BUILT : fe_init (K := Rops) sqrtK "HEX8" quad fquad normals (m_points M) (m_cells M) v 3 dir = Ok f.
  Hypothesis Q0 : (0 < List.length (fst quad))%nat.
  Hypothesis QX : forall q, (q < List.length (fst quad))%nat -> 0 < nth q (snd quad) (@zero Rops) /\ forall j, (j < 3)%nat -> 0 < nth j (nth q (fst quad) []) (@zero Rops) < 1.
  Lemma box_vals_positive q a : (q < num_quads f)%nat -> (a < num_nodes f)%nat -> 0 < shape_vals f q a.
  Proof.
    intros Hq Ha. rewrite (built_nodes _ _ _ _ _ _ _ _ _ _ _ BUILT) in Ha. rewrite (built_quads _ _ _ _ _ _ _ _ _ _ _ BUILT) in Hq.
    destruct (built_inv _ _ _ _ _ _ _ _ _ _ _ BUILT) as (info & fi & [[ns vs] ws] & HI & HFI & HD & ->). cbn [make_fe shape_vals].
    apply hex8_positive; [exact HI|exact Ha|]. apply QX. exact Hq.
  Qed.
  Lemma box_JxW_positive c q : (c < num_cells f)%nat -> (q < num_quads f)%nat -> 0 < get_JxW (m_points M) f c q.
  Proof.
    intros Hc Hq. rewrite (box_num_cells Nx Ny Nz Lx Ly Lz HX HY HZ _ _ _ _ _ _ f BUILT) in Hc.
    refine (eq_ind_r (fun t : R => 0 < t) _ (box_JxW Nx Ny Nz Lx Ly Lz HX HY HZ _ _ _ _ _ _ f BUILT c q Hc)).
    refine (eq_ind_r (fun t : R => 0 < Lx / INR Nx * (Ly / INR Ny) * (Lz / INR Nz) * t) _ (built_weights _ _ _ _ _ _ _ _ _ _ _ BUILT q)).
    assert (0 < INR Nx /\ 0 < INR Ny /\ 0 < INR Nz) as (X & Y & Z) by (repeat split; apply lt_0_INR; auto).
    rewrite (built_quads _ _ _ _ _ _ _ _ _ _ _ BUILT) in Hq. pose proof (proj1 (QX q Hq)).
    repeat apply Rmult_lt_0_compat; try (apply Rinv_0_lt_compat; assumption); auto.
  Qed.
  Theorem box_mass_positive rho n : 0 < rho -> (n < List.length (points f))%nat -> 0 < lumped_mass f (m_points M) rho n.
  Proof.
    intros HR Hn. unfold lumped_mass.
    assert (PT : forall c a, (c < num_cells f)%nat -> (a < num_nodes f)%nat -> 0 < rho * sum_n (K := Rops) (num_quads f) (fun q => shape_vals f q a * get_JxW (m_points M) f c q)).
    { intros c a Hc Ha. apply Rmult_lt_0_compat; [exact HR|].
      assert (T : forall q, (q < num_quads f)%nat -> 0 < shape_vals f q a * get_JxW (m_points M) f c q) by (intros; apply Rmult_lt_0_compat; [now apply box_vals_positive|now apply box_JxW_positive]).
      apply Rsum_pos; [intros; apply Rlt_le; auto|]. exists 0%nat. split; [|apply T]; rewrite (built_quads _ _ _ _ _ _ _ _ _ _ _ BUILT); exact Q0. }
    rewrite (built_points _ _ _ _ _ _ _ _ _ _ _ BUILT) in Hn.
    destruct (box_used Nx Ny Nz Lx Ly Lz HX HY HZ n Hn) as (cell & IC & IN). fold M in IC.
    pose proof (built_cells _ _ _ _ _ _ _ _ _ _ _ BUILT) as EC. rewrite <- EC in IC.
    apply (In_nth _ _ []) in IC as (c & Hc & Ec). apply (In_nth _ _ 0%nat) in IN as (a & Ha & Ea).
    destruct (box_mesh_ok Nx Ny Nz Lx Ly Lz HX HY HZ _ _ _ _ _ _ f BUILT c Hc) as [LC _]. rewrite Ec in LC.
    apply Rsum_pos.
    - intros c' Hc'. apply Rsum_nonneg. intros a' Ha'. destruct (_ =? _)%nat; [apply Rlt_le; now apply PT|lra].
    - exists c. split; [exact Hc|]. apply Rsum_pos.
      + intros a' Ha'. destruct (_ =? _)%nat; [apply Rlt_le; now apply PT|lra].
      + exists a. split; [lia|]. unfold cell_node. rewrite Ec, Ea, Nat.eqb_refl. apply PT; [exact Hc|lia].
  Qed.
  Theorem box_volume : volume f (m_points M) = Lx * Ly * Lz * sum_n (K := Rops) (List.length (fst quad)) (fun q => nth q (snd quad) (@zero Rops)).
  Proof.
    unfold volume. etransitivity; [exact (box_integral Nx Ny Nz Lx Ly Lz HX HY HZ _ _ _ _ _ _ f BUILT)|]. rewrite (built_quads _ _ _ _ _ _ _ _ _ _ _ BUILT). f_equal.
    apply Rsum_ext. intros q Hq. apply (built_weights _ _ _ _ _ _ _ _ _ _ _ BUILT).
  Qed.
End Box.
