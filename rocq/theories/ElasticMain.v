(** C73, C74 for linear elasticity. *)
From Coq Require Import Reals List Arith Lia Lra Bool.
From Verif Require Import Num Arr ArrFacts Fe Problem SpecAssembly BatchFacts ProblemFacts AssemblyFacts DerivFacts FeFacts SpecWeak KernelFacts SpecEnergy EnergyFacts Elastic ElasticFacts SpecElastic.
Import ListNotations.

Section Elastic.
  Let KR : ring_laws Rops := Rops_ring.
  Context {V : Type}.
  Variables (lam mu : R) (sqrtK : Rops -> Rops) (p : problem Rops V) (f : fe Rops) (P sol : list (list Rops)).
  Hypothesis WF : wf_problem p.
  Hypothesis NC : 0 < p_num_cells p.
  Hypothesis EL : elastic_problem lam mu p f.
  Hypothesis SOL : sol_ok p [sol].
  Hypothesis IVS : ivs_ok p.
  Hypothesis MAPS : maps_ok (vec f) (dim f) (maps p).
  Lemma STD : standard_problem p f. Proof. exact (proj1 EL). Qed.
  Lemma VD : vec f = dim f. Proof. exact (proj1 (proj2 EL)). Qed.
  Lemma TM : tensor_map (maps p) = Some (elastic_stress lam mu (dim f)). Proof. exact (proj1 (proj2 (proj2 EL))). Qed.

  Lemma el_stress u c q k j : stress p f P u c q k j = elastic_stress lam mu (dim f) (sol_to_grad P f u c q) (iv_at p c q) k j.
  Proof. unfold stress. now rewrite TM. Qed.
  Lemma el_stress_dot u H c q : dot2 (K := Rops) (vec f) (dim f) (stress p f P u c q) H = ebil lam mu (dim f) (sol_to_grad P f u c q) H.
  Proof.
    rewrite VD. rewrite <- (stress_dot lam mu (dim f) _ H (iv_at p c q)). unfold dot2. apply Rsum_ext. intros k Hk. apply Rsum_ext. intros j Hj.
    now rewrite el_stress.
  Qed.
  Lemma source_dead u u' c q k : source p f P u c q k = source p f P u' c q k.
  Proof. unfold source. destruct (mass_map (maps p)) eqn:E; auto. destruct EL as (_ & _ & _ & H & _). now apply H. Qed.
  Lemma traction_dead u u' s e q k : traction p f P u s e q k = traction p f P u' s e q k.
  Proof.
    unfold traction. destruct (surface_maps (maps p)) as [sms|] eqn:E; auto. destruct (nth_error sms s) as [sm|] eqn:E2; auto.
    destruct EL as (_ & _ & _ & _ & H). apply (H sms sm); auto. now apply nth_error_In in E2.
  Qed.
  Lemma dot1_line m (a u v : nat -> Rops) t : dot1 (K := Rops) m a (fun k => (u k + t * v k)%R) = (dot1 (K := Rops) m a u + t * dot1 (K := Rops) m a v)%R.
  Proof. unfold dot1. rewrite <- Rsum_mul, <- Rsum_plus. apply Rsum_ext. intros k Hk. cbn. ring. Qed.
  Lemma dot1_ext m (a a' u u' : nat -> Rops) : (forall k, k < m -> a k = a' k) -> (forall k, k < m -> u k = u' k) -> dot1 (K := Rops) m a u = dot1 (K := Rops) m a' u'.
  Proof. intros H1 H2. unfold dot1. apply Rsum_ext. intros k Hk. now rewrite H1, H2. Qed.

  Lemma over_cells_ext (g h : nat -> nat -> R) : (forall c q, c < p_num_cells p -> q < num_quads f -> g c q = h c q) ->
    over_cells (K := Rops) p f P g = over_cells (K := Rops) p f P h.
  Proof. intros H. apply Rsum_ext. intros c Hc. apply Rsum_ext. intros q Hq. cbn. now rewrite H. Qed.
  Lemma over_cells_plus (g h : nat -> nat -> R) : over_cells (K := Rops) p f P (fun c q => (g c q + h c q)%R) = (over_cells (K := Rops) p f P g + over_cells (K := Rops) p f P h)%R.
  Proof.
    unfold over_cells. rewrite <- Rsum_plus. apply Rsum_ext. intros c Hc. rewrite <- Rsum_plus. apply Rsum_ext. intros q Hq. cbn. ring.
  Qed.
  Lemma over_faces_ext (g h : nat -> nat -> nat -> nat -> nat -> R) :
    (forall s e q, s < length (boundary_inds_list p) -> e < num_sel_faces p s -> q < num_face_quads f ->
      let c := fst (nth e (nth s (boundary_inds_list p) []) (0, 0)) in let fc := snd (nth e (nth s (boundary_inds_list p) []) (0, 0)) in
      c < p_num_cells p -> g s e c fc q = h s e c fc q) ->
    over_faces (K := Rops) sqrtK p f P g = over_faces (K := Rops) sqrtK p f P h.
  Proof.
    intros H. apply Rsum_ext. intros s Hs. apply Rsum_ext. intros e He. cbv zeta. apply Rsum_ext. intros q Hq. cbn.
    rewrite H; auto. now apply (face_cell_ok p WF).
  Qed.
  Lemma over_faces_plus (g h : nat -> nat -> nat -> nat -> nat -> R) :
    over_faces (K := Rops) sqrtK p f P (fun s e c fc q => (g s e c fc q + h s e c fc q)%R) = (over_faces (K := Rops) sqrtK p f P g + over_faces (K := Rops) sqrtK p f P h)%R.
  Proof.
    unfold over_faces. rewrite <- Rsum_plus. apply Rsum_ext. intros s Hs. rewrite <- Rsum_plus. apply Rsum_ext. intros e He. cbv zeta.
    rewrite <- Rsum_plus. apply Rsum_ext. intros q Hq. cbn. ring.
  Qed.

  Theorem elastic_expansion v res : sol_ok p [v] -> compute_residual sqrtK p [P] [sol] = Ok [res] ->
    potential_energy lam mu sqrtK p f P (along (K := Rops) sol v 1%R) =
    (potential_energy lam mu sqrtK p f P sol + work (K := Rops) (length (points f)) (vec f) v res + strain_energy lam mu p f P v)%R.
  Proof.
    intros SV CR. rewrite (any_work KR sqrtK p f P sol WF NC STD SOL IVS MAPS v res SV CR).
    assert (E1 : over_cells p f P (fun c q => (dot2 (vec f) (dim f) (stress p f P sol c q) (sol_to_grad P f v c q)
                               + dot1 (vec f) (source p f P sol c q) (convert_from_dof_to_quad f v c q))%num)
        = (over_cells (K := Rops) p f P (fun c q => dot2 (K := Rops) (vec f) (dim f) (stress p f P sol c q) (sol_to_grad P f v c q))
           + over_cells (K := Rops) p f P (fun c q => dot1 (K := Rops) (vec f) (source p f P sol c q) (convert_from_dof_to_quad f v c q)))%R)
      by exact (over_cells_plus (fun c q => dot2 (K := Rops) (vec f) (dim f) (stress p f P sol c q) (sol_to_grad P f v c q))
         (fun c q => dot1 (K := Rops) (vec f) (source p f P sol c q) (convert_from_dof_to_quad f v c q))).
    rewrite E1. clear E1.
    unfold potential_energy, strain_energy.
    set (u1 := along (K := Rops) sol v 1%R).
    transitivity ((over_cells (K := Rops) p f P (fun c q =>
       ((strain_energy_density lam mu (dim f) (sol_to_grad P f sol c q) + dot1 (K := Rops) (vec f) (source p f P sol c q) (convert_from_dof_to_quad f sol c q))
        + (dot2 (K := Rops) (vec f) (dim f) (stress p f P sol c q) (sol_to_grad P f v c q)
           + dot1 (K := Rops) (vec f) (source p f P sol c q) (convert_from_dof_to_quad f v c q))
        + strain_energy_density lam mu (dim f) (sol_to_grad P f v c q))%R)
      + over_faces (K := Rops) sqrtK p f P (fun s e c fc q =>
       (dot1 (K := Rops) (vec f) (traction p f P sol s e q) (convert_from_dof_to_face_quad f sol c fc q)
       + dot1 (K := Rops) (vec f) (traction p f P sol s e q) (convert_from_dof_to_face_quad f v c fc q))%R))%R).
    - f_equal.
      + apply over_cells_ext. intros c q Hc Hq. rewrite el_stress_dot, !density_ebil.
        rewrite (ebil_ext lam mu (dim f) (sol_to_grad P f u1 c q) (fun k j => sol_to_grad P f sol c q k j + 1 * sol_to_grad P f v c q k j)%R
                   (sol_to_grad P f u1 c q) (fun k j => sol_to_grad P f sol c q k j + 1 * sol_to_grad P f v c q k j)%R)
          by (intros; apply (grad_along KR p f P sol WF NC STD SOL); auto; now rewrite VD).
        rewrite ebil_line.
        rewrite (dot1_ext (vec f) (source p f P u1 c q) (source p f P sol c q) _ (fun k => convert_from_dof_to_quad f sol c q k + 1 * convert_from_dof_to_quad f v c q k)%R).
        * rewrite dot1_line. field.
        * intros; apply source_dead.
        * intros; now apply (value_along KR p f sol WF NC STD SOL).
      + apply over_faces_ext. intros s e q Hs He Hq c fc Hc.
        rewrite (dot1_ext (vec f) (traction p f P u1 s e q) (traction p f P sol s e q) _ (fun k => convert_from_dof_to_face_quad f sol c fc q k + 1 * convert_from_dof_to_face_quad f v c fc q k)%R).
        * rewrite dot1_line. ring.
        * intros; apply traction_dead.
        * intros; now apply (face_value_along KR p f sol WF NC STD SOL).
    - rewrite !over_cells_plus, over_faces_plus.
      change (@add Rops) with Rplus. ring.
  Qed.

  Lemma strain_energy_nonneg v : (0 <= lam)%R -> (0 <= mu)%R -> (forall c q, (c < p_num_cells p)%nat -> (q < num_quads f)%nat -> 0 <= get_JxW P f c q)%R ->
    (0 <= strain_energy lam mu p f P v)%R.
  Proof.
    intros HL HM HJ. apply Rsum_nonneg. intros c Hc. apply Rsum_nonneg. intros q Hq. apply Rmult_le_pos; [|now apply HJ].
    rewrite density_ebil. pose proof (ebil_nonneg lam mu (dim f) (sol_to_grad P f v c q) HL HM). lra.
  Qed.
  Theorem elastic_minimum v res : (0 <= lam)%R -> (0 <= mu)%R ->
    (forall c q, (c < p_num_cells p)%nat -> (q < num_quads f)%nat -> 0 <= get_JxW P f c q)%R ->
    sol_ok p [v] -> compute_residual sqrtK p [P] [sol] = Ok [res] ->
    (forall n k, n < length (points f) -> k < vec f -> get2 (@zero Rops) v n k = 0%R \/ get2 (@zero Rops) res n k = 0%R) ->
    (potential_energy lam mu sqrtK p f P sol <= potential_energy lam mu sqrtK p f P (along (K := Rops) sol v 1%R))%R.
  Proof.
    intros HL HM HJ SV CR HZ. rewrite (elastic_expansion v res SV CR).
    assert (work (K := Rops) (length (points f)) (vec f) v res = 0%R) as ->.
    { unfold work. apply (sum_n_zero_ext KR). intros n Hn. apply (sum_n_zero_ext KR). intros k Hk. destruct (HZ n k Hn Hk) as [E|E]; rewrite E; cbn; ring. }
    pose proof (strain_energy_nonneg v HL HM HJ). lra.
  Qed.

  Theorem elastic_derives : densities_ok (vec f) (dim f) (elastic_densities lam mu p f) /\
    derives_from p f P sol (elastic_densities lam mu p f) /\
    total_energy sqrtK p f P (elastic_densities lam mu p f) sol = potential_energy lam mu sqrtK p f P sol.
  Proof.
    split; [|split; [split; [|split]|]].
    - unfold densities_ok, elastic_densities. cbn [stored load pull]. split; [|split].
      + intros G G' iv H. rewrite !density_ebil. f_equal. apply ebil_ext; intros; apply H; auto; now rewrite VD.
      + intros u u' x iv H. destruct (mass_map (maps p)); auto. apply dot1_ext; auto.
      + intros s u u' x iv H. destruct (surface_maps (maps p)) as [sms|]; auto. destruct (nth_error sms s); auto. apply dot1_ext; auto.
    - intros c q Hc Hq. unfold elastic_densities. cbn [stored]. intros H. rewrite el_stress_dot.
      pose proof (density_gradient lam mu (dim f) (iv_at p c q) (sol_to_grad P f sol c q) H) as D. rewrite stress_dot in D. exact D.
    - intros c q Hc Hq. unfold elastic_densities. cbn [load]. intros h. unfold source.
      destruct (mass_map (maps p)) as [mm|] eqn:E.
      + set (x := get_physical_quad_points P f c q). set (iv := iv_at p c q).
        set (a := mm (fun _ => 0%R) x iv). set (u := convert_from_dof_to_quad f sol c q).
        apply (dlim_ext (fun t => dot1 (K := Rops) (vec f) a u + (dot1 (K := Rops) (vec f) a h * t + 0 * (t * t)))%R).
        * intros t. rewrite dot1_line. cbn; ring.
        * replace (dot1 (K := Rops) (vec f) (fun k => mm u x iv k) h) with (dot1 (K := Rops) (vec f) a h); [apply dlim_quad|].
          apply dot1_ext; auto. intros k Hk. unfold a. destruct EL as (_ & _ & _ & H & _). now apply H.
      + replace (dot1 (K := Rops) (vec f) (fun k => 0%num) h) with 0%R; [apply derivable_pt_lim_const|].
        symmetry. unfold dot1. apply (sum_n_zero_ext KR). intros k Hk. cbn. ring.
    - intros s e q Hs He Hq c fc. unfold elastic_densities. cbn [pull]. intros h. unfold traction. fold c fc.
      destruct (surface_maps (maps p)) as [sms|] eqn:E; [destruct (nth_error sms s) as [sm|] eqn:E2|].
      + set (x := get_physical_surface_quad_points P f c fc q). set (iv := iv_face_at p s e q).
        set (a := sm (fun _ => 0%R) x iv). set (u := convert_from_dof_to_face_quad f sol c fc q).
        apply (dlim_ext (fun t => dot1 (K := Rops) (vec f) a u + (dot1 (K := Rops) (vec f) a h * t + 0 * (t * t)))%R).
        * intros t. rewrite dot1_line. cbn; ring.
        * replace (dot1 (K := Rops) (vec f) (fun k => sm u x iv k) h) with (dot1 (K := Rops) (vec f) a h); [apply dlim_quad|].
          apply dot1_ext; auto. intros k Hk. unfold a. destruct EL as (_ & _ & _ & _ & H). apply (H sms sm); auto. now apply nth_error_In in E2.
      + replace (dot1 (K := Rops) (vec f) (fun k => 0%num) h) with 0%R; [apply derivable_pt_lim_const|].
        symmetry. unfold dot1. apply (sum_n_zero_ext KR). intros k Hk. cbn. ring.
      + replace (dot1 (K := Rops) (vec f) (fun k => 0%num) h) with 0%R; [apply derivable_pt_lim_const|].
        symmetry. unfold dot1. apply (sum_n_zero_ext KR). intros k Hk. cbn. ring.
    - assert (Z : forall u, dot1 (K := Rops) (vec f) (fun k => 0%num) u = 0%R) by (intros; unfold dot1; apply (sum_n_zero_ext KR); intros; cbn; ring).
      unfold total_energy, potential_energy, elastic_densities. cbn [stored load pull]. f_equal.
      + apply over_cells_ext. intros c q Hc Hq. f_equal. unfold source. destruct (mass_map (maps p)) as [mm|] eqn:E; [|now rewrite Z].
        apply dot1_ext; auto. intros k Hk. destruct EL as (_ & _ & _ & H & _). now apply H.
      + apply over_faces_ext. intros s e q Hs He Hq c fc Hc. unfold traction. fold c fc.
        destruct (surface_maps (maps p)) as [sms|] eqn:E; [|now rewrite Z]. destruct (nth_error sms s) as [sm|] eqn:E2; [|now rewrite Z].
        apply dot1_ext; auto. intros k Hk. destruct EL as (_ & _ & _ & _ & H). apply (H sms sm); auto. now apply nth_error_In in E2.
  Qed.

  Lemma elastic_stress_line (G H : nat -> nat -> Rops) iv t i j :
    elastic_stress (V := V) lam mu (dim f) (fun k l => G k l + t * H k l)%R iv i j = (elastic_stress (V := V) lam mu (dim f) G iv i j + t * elastic_stress (V := V) lam mu (dim f) H [] i j)%R.
  Proof. unfold elastic_stress. rewrite trace_line. unfold strain. cbn; field. Qed.
  Theorem elastic_tangents_ok : tangents_of p f P sol (elastic_tangents (V := V) lam mu (dim f)) /\ symmetric_tangents p f (elastic_tangents (V := V) lam mu (dim f)) /\
    ((0 <= lam)%R -> (0 <= mu)%R -> nonnegative_tangents p f (elastic_tangents (V := V) lam mu (dim f))).
  Proof.
    assert (Z : forall u, dot1 (K := Rops) (vec f) (fun k => 0%R) u = 0%R) by (intros; unfold dot1; apply (sum_n_zero_ext KR); intros; cbn; ring).
    split; [split; [|split]|split; [split; [|split]|]].
    - intros c q v k j Hc Hq Hk Hj SV. cbn [t_stress elastic_tangents].
      apply (dlim_ext (fun t => (stress p f P sol c q k j + (elastic_stress (V := V) lam mu (dim f) (sol_to_grad P f v c q) [] k j * t + 0 * (t * t)))%R)).
      + intros t. rewrite !el_stress.
        rewrite (elastic_ok lam mu (dim f) (sol_to_grad P f (along sol v t) c q) (fun k l => sol_to_grad P f sol c q k l + t * sol_to_grad P f v c q k l)%R).
        * rewrite elastic_stress_line. cbn; ring.
        * intros; apply (grad_along KR p f P sol WF NC STD SOL); auto; now rewrite VD.
        * now rewrite <- VD.
        * auto.
      + apply dlim_quad.
    - intros c q v k Hc Hq Hk SV. cbn [t_source elastic_tangents]. apply (dlim_ext (fun _ => source p f P sol c q k)).
      + intros t. apply source_dead.
      + apply derivable_pt_lim_const.
    - intros s e q v k Hs He Hq Hk SV c fc. cbn [t_traction elastic_tangents]. apply (dlim_ext (fun _ => traction p f P sol s e q k)).
      + intros t. apply traction_dead.
      + apply derivable_pt_lim_const.
    - intros c q G H. cbn [t_stress elastic_tangents]. rewrite VD, !stress_dot. apply ebil_sym.
    - intros c q g h. cbn [t_source elastic_tangents]. now rewrite !Z.
    - intros s e q g h. cbn [t_traction elastic_tangents]. now rewrite !Z.
    - intros HL HM. split; [|split].
      + intros c q G. cbn [t_stress elastic_tangents]. rewrite VD, stress_dot. now apply ebil_nonneg.
      + intros c q g. cbn [t_source elastic_tangents]. rewrite Z. lra.
      + intros s e q g. cbn [t_traction elastic_tangents]. rewrite Z. lra.
  Qed.
End Elastic.
