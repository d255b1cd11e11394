(** Lemmas for C105: the elements of degree two contain every quadratic polynomial. *)
From Coq Require Import String List Arith Lia ZArith Ring.
From Verif Require Import Num Fe Basis SpecBasis SpecFe BasisFacts SpecSecond.
Import ListNotations.

Section Ring.
  Context {K : ops} (KR : ring_laws K).
  Open Scope num_scope.
  Let Kth : ring_theory (@zero K) one add mul sub opp eq := KR.
  Add Ring KringC : Kth.
  Ltac expand X := cbv -[add sub mul opp zero one X car].

  Lemma quarter n (f g h : nat -> K) (half b : K) : half + half = 1 ->
    sum_n n (fun a => f a * g a * h a) = (1 + 1) * (1 + 1) * b -> sum_n n (fun a => f a * half * (g a * half) * h a) = b.
  Proof.
    intros H E. rewrite (sum_n_ext n _ (fun a => (f a * g a * h a) * (half * half))) by (intros; ring).
    unfold sum_n in *. rewrite (sum_over_mul_r KR), E. transitivity ((half + half) * (half + half) * b); [ring|]. rewrite H. ring.
  Qed.

  Lemma shape_quadratic s i (half : K) (x : list K) k l : half + half = 1 -> In s quadratic_names -> get_elements s = Ok i -> (k < cell_dim (basix_ele i))%nat -> (l < cell_dim (basix_ele i))%nat ->
    sum_n (node_count s) (fun a => ref_coord half s a k * ref_coord half s a l * shape_value i x a) = pt x k * pt x l.
  Proof.
    intros Hh I H Hk Hl. unfold ref_coord. apply quarter; auto. unfold shape_value. set (X := pt x).
    cbn in I. destruct I as [<-|[<-|[<-|[]]]]; injection H as <-; cbn in Hk, Hl;
      (destruct k as [|[|[|k]]]; [| | |lia]); try lia; clear Hk;
      (destruct l as [|[|[|l]]]; [| | |lia]); try lia; clear Hl; expand X; ring.
  Qed.
  Lemma grad_quadratic s i (half : K) (x : list K) k l j : half + half = 1 -> In s quadratic_names -> get_elements s = Ok i ->
    (k < cell_dim (basix_ele i))%nat -> (l < cell_dim (basix_ele i))%nat -> (j < cell_dim (basix_ele i))%nat ->
    sum_n (node_count s) (fun a => ref_coord half s a k * ref_coord half s a l * shape_grad i x a j) = (if (k =? j)%nat then pt x l else 0) + (if (l =? j)%nat then pt x k else 0).
  Proof.
    intros Hh I H Hk Hl Hj. unfold ref_coord. apply quarter; auto. unfold shape_grad. set (X := pt x).
    cbn in I. destruct I as [<-|[<-|[<-|[]]]]; injection H as <-; cbn in Hk, Hl, Hj;
      (destruct k as [|[|[|k]]]; [| | |lia]); try lia; clear Hk;
      (destruct l as [|[|[|l]]]; [| | |lia]); try lia; clear Hl;
      (destruct j as [|[|[|j]]]; [| | |lia]); try lia; clear Hj; expand X; ring.
  Qed.
End Ring.
