(** Model of periodic_boundary_conditions, applications/periodic_bc/example.py:49-115. *)
From Coq Require Import List Arith Bool ZArith Reals.
From Verif Require Import Num Arr Fe Problem SolverBc LinSolve.
Import ListNotations.

Section Periodic.
  Context {X : Type} {K : ops}.
  (** example.py:69-70: the Euclidean distance of two points is below 1e-5 *)
  Variable near : list X -> list X -> bool.

  (** periodic_bc_info *)
  Record periodic_info := mkPeriodic {
    pb_locs_A : list (list X -> bool);
    pb_locs_B : list (list X -> bool);
    pb_mappings : list (list X -> list X);
    pb_vecs : list nat
  }.

  (** argwhere(vmap(f)(points)).reshape(-1) *)
  Definition argwhere (f : list X -> bool) (pts : list (list X)) : list nat :=
    filter (fun n => f (nth n pts [])) (seq 0 (length pts)).
  (** example.py:66-73: the nodes of side B near the image of node [n]; mappings[i] is looked up for every node.
      Simplification: a mapping returns a point of the right dimension. *)
  Definition partners (pts : list (list X)) (mapping : option (list X -> list X)) (inds_B : list nat) (n : nat) : result (list nat) :=
    match mapping with
    | None => Err IndexErr
    | Some m => Ok (filter (fun nB => near (m (nth n pts [])) (nth nB pts [])) inds_B)
    end.
  (** onp.array(list of index arrays).reshape(-1): arrays of different lengths raise *)
  Definition stack (l : list (list nat)) : result (list nat) :=
    if forallb (fun x => length x =? length (hd [] l))%nat l then Ok (concat l) else Err ValueErr.
  (** example.py:59-79, one turn of the loop: node_inds_A, node_inds_B_ordered, vecs[i] *)
  Definition periodic_group (pts : list (list X)) (info : periodic_info) (i : nat) : result (list nat * list nat * nat) :=
    match nth_error (pb_locs_A info) i, nth_error (pb_locs_B info) i with
    | Some fA, Some fB =>
        let inds_A := argwhere fA pts in
        let inds_B := argwhere fB pts in
        bind (mapM (partners pts (nth_error (pb_mappings info) i) inds_B) inds_A) (fun found =>
        bind (stack found) (fun ordered =>
        match nth_error (pb_vecs info) i with
        | None => Err IndexErr
        | Some c => if (length inds_A =? length ordered)%nat then Ok (inds_A, ordered, c) else Err AssertionErr
        end))
    | _, _ => Err IndexErr
    end.
  (** example.py:81-90: p_node_inds_list[i] * vec + p_vec_inds_list[i] + offset (offset = 0), then hstack, which raises on an empty list *)
  Definition dof_inds (vec : nat) (nodes : list nat) (c : nat) : list nat := map (fun n => n * vec + c)%nat nodes.
  Definition hstack (l : list (list nat)) : result (list nat) := match l with [] => Err ValueErr | _ => Ok (concat l) end.

  (** example.py:98-99: reduced_inds_map[inds_B] = -(inds_A + 1); the last of repeated indices counts, an index out of range raises *)
  Fixpoint set_at (l : list Z) (i : nat) (v : Z) : list Z :=
    match l, i with
    | [], _ => []
    | _ :: t, O => v :: t
    | a :: t, S i' => a :: set_at t i' v
    end.
  Definition mark (N : nat) (inds_A inds_B : list nat) : result (list Z) :=
    if forallb (fun b => b <? N)%nat inds_B
    then Ok (fold_left (fun l ba => set_at l (fst ba) (- (Z.of_nat (snd ba) + 1))) (combine inds_B inds_A) (repeat 1%Z N))
    else Err IndexErr.
  (** example.py:100: reduced_inds_map[reduced_inds_map == 1] = arange(M); a single value is broadcast, any other mismatch of the sizes raises *)
  Fixpoint fill (l : list Z) (next : Z) : list Z :=
    match l with
    | [] => []
    | v :: t => if (v =? 1)%Z then next :: fill t (next + 1) else v :: fill t next
    end.
  Definition number_free (l : list Z) (M : nat) : result (list Z) :=
    let ones := length (filter (fun v => v =? 1)%Z l) in
    if (M =? ones)%nat then Ok (fill l 0)
    else if (M =? 1)%nat then Ok (map (fun v => if (v =? 1)%Z then 0%Z else v) l)
    else Err ValueErr.
  (** example.py:102-111: the column of dof i *)
  Definition column (l : list Z) (i : nat) : result Z :=
    let v := nth i l 0%Z in
    if (v <? 0)%Z then match nth_error l (Z.to_nat (- v - 1)) with Some w => Ok w | None => Err IndexErr end else Ok v.
  (** csr_array((V, (I, J)), shape=(N, M)): negative and too large column indices raise; repeated entries are summed *)
  Definition csr_ones (N M : nat) (J : list Z) : result (mat K) :=
    if forallb (fun j => (0 <=? j)%Z && (j <? Z.of_nat M)%Z) J
    then Ok (mkMat N M (set_values_coo (seq 0 N) (map Z.to_nat J) (repeat one N)))
    else Err ValueErr.

  (** example.py:49-115.  arange(M) of a negative M is empty. *)
  Definition periodic_boundary_conditions (info : periodic_info) (pts : list (list X)) (vec : nat) : result (mat K) :=
    bind (mapM (periodic_group pts info) (seq 0 (length (pb_locs_A info)))) (fun groups =>
    bind (hstack (map (fun g => dof_inds vec (fst (fst g)) (snd g)) groups)) (fun inds_A =>
    bind (hstack (map (fun g => dof_inds vec (snd (fst g)) (snd g)) groups)) (fun inds_B =>
    let N := (length pts * vec)%nat in
    let M := (N - length inds_B)%nat in
    bind (mark N inds_A inds_B) (fun marked =>
    bind (number_free marked M) (fun reduced_inds_map =>
    bind (mapM (column reduced_inds_map) (seq 0 N)) (fun J => csr_ones N M J)))))).
End Periodic.
Arguments periodic_info : clear implicits.
Arguments mkPeriodic {X}.

(** the test on points with real coordinates: norm(a - b) < 1e-5 *)
Definition near_R (a b : list R) : bool :=
  if Rlt_dec (sqrt (fold_right Rplus 0%R (map2 (fun x y => (x - y) * (x - y))%R a b))) (1 / 100000) then true else false.
