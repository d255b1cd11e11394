(** A constructed problem meeting the hypotheses of C18, C19, C51-C55. *)
From Coq Require Import String List Arith Bool Lia ZArith QArith Qcanon.
From Verif Require Import Num Arr ArrFacts Fe Problem SpecAssembly Basis SpecBasis SpecFe SpecWeak Init SpecInit
  Properties_kernel Examples_fe.
Import ListNotations.
Local Open Scope nat_scope.

(** two distorted quadrilaterals, symmetric stress, source depending on u and x, traction on x = 0 *)
Definition exk_maps : user_maps Qcops Z :=
  mkMaps (Some (fun g _ i j => Qcplus (g i j) (g j i))) (Some (fun u x _ k => Qcplus (Qcmult (u k) (u k)) (x k)))
         None (Some [fun u x _ k => Qcminus (u k) (x 0%nat)]) None.
Definition exk_var : var_args Qcops :=
  mkVar exq_pts exq_cls 2 "QUAD4" exq_quad exq_fquad (fun _ _ => qc 0 1) exq_dir.
Definition exk_locs : option (list (location_fn Qcops)) := Some [nth 0 exq_locs (LocOther 0)].
Definition exk_p : problem Qcops Z := mkProblem [exq] [[(0, 1)]]%nat exk_maps [] [[]].

Example exk_args : args_ok [exk_var].
Proof.
  split; [discriminate|]. split.
  - intros a [<-|[]]. split; [cbn; tauto|]. split.
    + intros cell [<-|[<-|[]]]; (split; [reflexivity|]); intros n Hn; cbn in Hn |- *; lia.
    + cbn. split; [reflexivity|]. split; [reflexivity|]. intros g [<-|[<-|[]]]; reflexivity.
  - intros a b [<-|[]] [<-|[]]. reflexivity.
Qed.
Example exk_locs_ok : locations_ok exk_locs.
Proof. intros g [<-|[]]. reflexivity. Qed.
Example exk_faces : get_boundary_conditions_inds exq exk_locs = Ok [[(0, 1)]].
Proof. vm_compute. reflexivity. Qed.
Example exk_built : problem_init (V := Z) (fun x => x) 2 [exk_var] exk_locs exk_maps (fun a b => (a, b)) = Ok exk_p.
Proof.
  unfold problem_init, make_fes. cbn [mapM]. change (fe_init _ _ _ _ _ _ _ _ _ _) with exq_init.
  rewrite exq_built. cbn [bind]. rewrite exk_faces. reflexivity.
Qed.
(** the declared count is enforced *)
Example exk_mismatch : problem_init (V := Z) (fun x => x) 2 [exk_var] None exk_maps (fun a b => (a, b)) = Err AssertionErr.
Proof. apply C19_mismatch_raises; [exact exk_args|exact I|discriminate]. Qed.

Definition exk_sol : list (list Qcops) := qmap [[1; 0]; [2; 5]; [0; 0]; [1; 1]; [3; 2]; [4; 4]]%Z.
Example exk_wf : wf_problem exk_p /\ ivs_ok exk_p.
Proof.
  destruct (C55_construction Qcops Z (fun x => x) 2 [exk_var] exk_locs exk_maps (fun a b => (a, b)) exk_args exk_locs_ok eq_refl)
    as (p & E & W & _ & _ & _ & _ & I & _). rewrite exk_built in E. injection E as <-. split; [exact W|]. apply I. reflexivity.
Qed.
Example exk_standard : standard_problem exk_p exq /\ (0 < p_num_cells exk_p)%nat /\ sol_ok exk_p [exk_sol].
Proof.
  split; [|split].
  - repeat split; auto. left. discriminate.
  - change (0 < 2). lia.
  - split; [reflexivity|]. intros v Hv. change (v < 1) in Hv. assert (v = 0) as -> by lia. split; [reflexivity|].
    intros row Hr. change (vec _) with 2. cbn in Hr. intuition (subst; reflexivity).
Qed.
Example exk_maps_ok : maps_ok (vec exq) (dim exq) (maps exk_p).
Proof.
  change (vec exq) with 2. change (dim exq) with 2. split; [|split].
  - intros tm [= <-] g g' iv H k j Hk Hj. now rewrite !H by auto.
  - intros mm [= <-] u u' x x' iv Hu Hx k Hk. now rewrite Hu, Hx by auto.
  - intros sms sm [= <-] [<-|[]] u u' x x' iv Hu Hx k Hk. now rewrite Hu, Hx by (auto; lia).
Qed.
Example exk_JxW : forall c q, c < p_num_cells exk_p -> q < num_quads exq -> get_JxW exq_pts exq c q <> zero.
Proof.
  intros c q Hc Hq. change (c < 2) in Hc. change (q < 1) in Hq. assert (q = 0) as -> by lia.
  destruct c as [|[|c]]; [apply exq_JxW|apply exq_JxW|lia].
Qed.
Example exk_symmetric : forall c q i k, stress exk_p exq exq_pts exk_sol c q i k = stress exk_p exq exq_pts exk_sol c q k i.
Proof. intros. unfold stress. cbn [exk_p maps exk_maps tensor_map]. apply Qcplus_comm. Qed.
(** All hypotheses of C18, C51-C53 hold together; C53 gives the moment identity for this problem. *)
Example exk_moment : exists res, compute_residual (fun x => x) exk_p [exq_pts] [exk_sol] = Ok [res] /\
  sum_n (K := Qcops) 6 (fun n => sub (mul (nth 0 (nth n exq_pts []) zero) (get2 zero res n 1))
                                     (mul (nth 1 (nth n exq_pts []) zero) (get2 zero res n 0))) <> zero.
Proof. eexists. split; [vm_compute; reflexivity|]. intros H. vm_compute in H. discriminate. Qed.
Example exk_C53 := fun res => C53_moment_balance Qcops Qcops_field Z (fun x => x) exk_p exq exq_pts exk_sol (proj1 exk_wf)
  (proj1 (proj2 exk_standard)) (proj1 exk_standard) (proj2 (proj2 exk_standard)) (proj2 exk_wf) exk_maps_ok "QUAD4"
  exq_element eq_refl exk_JxW res 0 1 ltac:(change (0 < 2); lia) ltac:(change (1 < 2); lia) ltac:(change (2 <= 2); lia)
  (fun c q _ _ => exk_symmetric c q 0 1).
(** C19: universal surface kernels missing beside the surface maps *)
Example exk_second : pre_jit_check (mkProblem [exq] [[(0, 1)]] (mkMaps (tensor_map exk_maps) None None (surface_maps exk_maps) (Some [])) ([] : list (list (nat -> Z))) [[]]) = Ok tt.
Proof. reflexivity. Qed.
(** C54: a moved solution *)
Example exk_moved : moved_by (vec exq) (fun k => qc (Z.of_nat k + 1) 2) exk_sol
  (map (fun r => [Qcplus (nth 0 r (qc 0 1)) (qc 1 2); Qcplus (nth 1 r (qc 0 1)) (qc 2 2)]) exk_sol).
Proof.
  split; [reflexivity|]. intros n k Hn Hk. change (vec exq) with 2 in Hk. rewrite (nth_map_in _ _ _ []) by auto.
  destruct k as [|[|k]]; [reflexivity|reflexivity|lia].
Qed.
