(** Facets and cell types of the nine elements, for C01 and C04. *)
From Coq Require Import List Arith Bool String ZArith Lia.
From Verif Require Import Num Arr Fe Basis SpecBasis SpecFe BasisFacts.
Import ListNotations.

Lemma elements_named s i : get_elements s = Ok i -> In s nine_names.
Proof. intros H. destruct (in_dec string_dec s nine_names) as [I|N]; [exact I|]. rewrite (get_elements_err s N) in H. discriminate. Qed.
Lemma meshio_cell_ok s i c : get_elements s = Ok i -> get_meshio_cell_type s = Ok c -> meshio_cell c = Some (element_dim s, node_count s).
Proof. intros H H'. pose proof (elements_named s i H) as I. cbn in I. repeat destruct I as [<-|I]; try destruct I; injection H' as <-; reflexivity. Qed.
Lemma face_cell_ok s i fc : get_elements s = Ok i -> fc < List.length (facets (basix_ele i)) ->
  S (cell_dim (basix_face_ele i)) = element_dim s /\ List.length (geometry (basix_face_ele i)) = List.length (nth fc (facets (basix_ele i)) []).
Proof.
  intros H Hf. pose proof (elements_named s i H) as I. cbn in I. repeat destruct I as [<-|I]; try destruct I; injection H as <-; (split; [reflexivity|]); cbn in Hf;
    do 7 (destruct fc as [|fc]; [first [reflexivity|exfalso; lia]|]); exfalso; lia.
Qed.
Section Facet.
  Context {K : ops} (KR : ring_laws K).
  Let Kth : ring_theory (@zero K) one add mul sub opp eq := KR.
  Add Ring KringFP : Kth.
  Lemma facet_points_ok s i fc (x : list K) j : get_elements s = Ok i -> fc < List.length (facets (basix_ele i)) -> j < element_dim s ->
    let v k := vertexK (K := K) (basix_ele i) (nth k (nth fc (facets (basix_ele i)) []) 0) j in
    nth j (facet_point i fc x) zero = (v 0%nat + sum_n (element_dim s - 1) (fun k => nth k x zero * (v (S k) - v 0%nat)))%num.
  Proof.
    intros H Hf Hj. pose proof (elements_named s i H) as I. cbn in I. repeat destruct I as [<-|I]; try destruct I; injection H as <-; cbn in Hf, Hj; cbv zeta;
      do 7 (try (destruct fc as [|fc]; [do 4 (try (destruct j as [|j]; [unfold facet_point, sum_n, sum_over, sumK, vertexK, pt; cbn; ring|])); exfalso; lia|])); exfalso; lia.
  Qed.
End Facet.
