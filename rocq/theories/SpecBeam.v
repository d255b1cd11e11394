(** Vocabulary for C112. *)
From Coq Require Import Reals List Arith Bool.
From Verif Require Import Num Arr Fe Problem SpecAssembly SpecBc.
Import ListNotations.
Local Open Scope R_scope.

(** the face fc of the cell c has all its vertices in the region *)
Definition face_in_region (f : fe Rops) (region : R -> R -> Prop) (c fc : nat) : Prop :=
  forall a, In a (nth fc (face_inds f) []) -> let x := nth (nth a (nth c (cells f) []) 0%nat) (points f) [] in region (nth 0 x 0) (nth 1 x 0).
Definition selects (f : fe Rops) (region : R -> R -> Prop) (b : list (nat * nat)) : Prop :=
  NoDup b /\ forall c fc, In (c, fc) b <-> (c < length (cells f))%nat /\ (fc < length (face_inds f))%nat /\ face_in_region f region c fc.
(** the ends and the middle of the lower side, up to the tolerances *)
Definition left_end (x y : R) : Prop := Rabs x <= / 10 ^ 5.
Definition right_end (x y : R) : Prop := Rabs (x - 50) <= 51 / 10 ^ 5.
Definition middle_below (x y : R) : Prop := Rabs y <= / 10 ^ 5 /\ 23 < x < 27.
(** the beam with stress S: a surface map (0, 1e-5) on the faces b1 and (T, 0) on the faces b2 *)
Definition loaded_beam (f : fe Rops) (S : (nat -> nat -> R) -> nat -> nat -> R) (b1 b2 : list (nat * nat)) (T : R) : problem Rops unit :=
  mkProblem [f] [b1; b2] (mkMaps (K := Rops) (Some (fun G _ => S G)) None None
    (Some [fun _ _ _ k => match k with 1%nat => / 10 ^ 5 | _ => 0 end; fun _ _ _ k => match k with 0%nat => T | _ => 0 end]) None) [] [[]; []].
(** the length of the faces b, as the surface quadrature measures it *)
Definition faces_length (P : list (list Rops)) (f : fe Rops) (b : list (nat * nat)) : R :=
  sum_n (K := Rops) (length b) (fun e => sum_n (K := Rops) (num_face_quads f) (nanson_scale sqrt P f (fst (nth e b (0, 0)%nat)) (snd (nth e b (0, 0)%nat)))).
(** the stress depends on the four entries only *)
Definition plane_map (S : (nat -> nat -> R) -> nat -> nat -> R) : Prop :=
  forall G G', (forall i j, (i < 2)%nat -> (j < 2)%nat -> G i j = G' i j) -> forall i j, (i < 2)%nat -> (j < 2)%nat -> S G i j = S G' i j.
