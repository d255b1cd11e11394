(** The filters and the optimization loop of mma.py. *)
From Coq Require Import List Arith Bool Reals.
From Verif Require Import Num Arr Fe Problem XNum Newton Mma.
Import ListNotations.
Local Open Scope R_scope.

(** v ** (1./dim) of numpy *)
Definition xroot (dim : nat) (v : xr) : xr :=
  match v with
  | Fin a => if Rlt_dec a 0 then NaN else if Req_EM_T a 0 then Fin 0 else Fin (Rpower a (1 / INR dim))
  | PInf => PInf
  | _ => NaN
  end.
(** np.take(l, i, axis=0) of numpy: an index outside raises *)
Definition np_take {A} (l : list A) (i : nat) : result A := match nth_error l i with Some a => Ok a | None => Err IndexErr end.
Fixpoint seq_result {A} (l : list (result A)) : result (list A) :=
  match l with [] => Ok [] | r :: l => bind r (fun a => bind (seq_result l) (fun l => Ok (a :: l))) end.
Definition np_takes {A} (l : list A) (inds : list nat) : result (list A) := seq_result (map (np_take l) inds).

(** The filter: for every row the stored entries (weight, column) of H, and Hs. *)
Record filter := mkFilter { f_rows : list (list (xr * nat)); f_Hs : list xr }.

Section Filter.
  Variable dim : nat.
  Variable points : list (list xr).
  Variable cells : list (list nat).
  Variable JxW : list (list xr).
  Variable flex_inds : list nat.
  (** scipy.spatial.KDTree(centroids).query(centroids[i], 20): distances and indices *)
  Variable query : list (list xr) -> nat -> list (xr * nat).

  (** mma.py:31: np.mean over the nodes of a cell *)
  Definition centroid (pts : list (list xr)) : list xr :=
    map (fun c => xdiv (sumK (map (fun p => nth c p NaN : Xops) pts)) (Fin (INR (length pts)))) (seq 0 dim).
  Definition cell_centroids : result (list (list xr)) :=
    seq_result (map (fun c => bind (np_takes points c) (fun pts => Ok (centroid pts))) cells).
  (** mma.py:35-39 *)
  Definition total_volume : xr := sumK (map (fun w => sumK (w : list Xops) : Xops) JxW).
  Definition rmin : xr := xmul (Fin (15 / 10)) (xroot dim (xdiv total_volume (Fin (INR (length cells))))).
  (** mma.py:49: np.where(rmin - dd > 0., rmin - dd, 0.) *)
  Definition weight (dd : xr) : xr := if xltb (Fin 0) (xsub rmin dd) then xsub rmin dd else Fin 0.
  (** mma.py:45-52: one row; np.take(flex_cell_centroids, ii) raises for the index that pads a short answer *)
  Definition filter_row (cs : list (list xr)) (i : nat) : result (list (xr * nat)) :=
    let q := query cs i in
    bind (np_takes cs (map snd q)) (fun _ => Ok (map (fun di => (weight (fst di), snd di)) q)).
  (** mma.py:27-57; duplicates of a column are kept as separate entries (they are summed by csc_array) *)
  Definition compute_filter_kd_tree : result filter :=
    bind cell_centroids (fun cc =>
    bind (np_takes cc flex_inds) (fun fcc =>
    bind (seq_result (map (filter_row fcc) (seq 0 (length flex_inds)))) (fun rows =>
    Ok (mkFilter rows (map (fun row => sumK (map fst row : list Xops)) rows))))).
End Filter.

(** H @ v: the sum of weight times v over the stored entries of row i *)
Definition H_apply (ft : filter) (v : nat -> xr) (i : nat) : xr :=
  sumK (map (fun wj => xmul (fst wj) (v (snd wj)) : Xops) (nth i (f_rows ft) [])).
Definition Hs (ft : filter) (i : nat) : xr := nth i (f_Hs ft) NaN.
(** mma.py:64-65; rho has n entries, a different number of rows of H raises *)
Definition applyDensityFilter (ft : filter) (n : nat) (rho : nat -> xr) : result (nat -> xr) :=
  if (n =? length (f_rows ft))%nat then Ok (fun i => xdiv (H_apply ft rho i) (Hs ft i)) else Err TypeErr.
(** mma.py:60-61 for one gradient *)
Definition filtered (ft : filter) (rho g : nat -> xr) (i : nat) : xr :=
  H_apply ft (fun j => xdiv (xdiv (xmul (rho j) (g j)) (xmax (Fin (1 / 1000)) (rho j))) (Hs ft j)) i.
(** mma.py:59-62 *)
Definition applySensitivityFilter (ft : filter) (n : nat) (rho dJ : nat -> xr) (dvc : nat -> nat -> xr) : result ((nat -> xr) * (nat -> nat -> xr)) :=
  if (n =? length (f_rows ft))%nat then Ok (filtered ft rho dJ, fun k => filtered ft rho (dvc k)) else Err TypeErr.

Section Optimize.
  (** mma.py:23-24: the module switches *)
  Variables density_filtering sensitivity_filtering : bool.
  Variable solve : nat -> (nat -> nat -> XF) -> (nat -> XF) -> result (nat -> XF).
  Variable fuel : nat.
  (** numConstraints, number of densities *)
  Variables m n : nat.
  (** the value and gradient at a density; the objective may also depend on how often it was called *)
  Variable objectiveHandle : nat -> (nat -> xr) -> result (xr * (nat -> xr)).
  Variable consHandle : (nat -> xr) -> nat -> result ((nat -> xr) * (nat -> nat -> xr)).
  Variable ft : filter.

  (** mma.py:470-483: the object before the loop; epoch 1 since the first design is registered *)
  Definition initial_mma (rho : nat -> xr) (movelimit : xr) : mma XF :=
    mkMma (F := XF) 1 rho rho (fun _ => Fin 1) (fun _ => Fin 1) (fun _ => Fin 0) (fun _ => Fin 1) movelimit
      (Fin 1) (fun _ => Fin 0) (fun _ => xmul (Fin 10000) (Fin 1)) (fun _ => Fin 0).

  (** mma.py:490-499: what the handles and the filters give in one iteration; the density they were given *)
  Definition physical (rho : nat -> xr) : result (nat -> xr) := if density_filtering then applyDensityFilter ft n rho else Ok rho.
  Definition gradients (loop : nat) (rho rho_physical : nat -> xr) : result ((nat -> xr) * (nat -> xr) * (nat -> nat -> xr)) :=
    bind (objectiveHandle loop rho_physical) (fun JdJ =>
    bind (consHandle rho_physical loop) (fun vdv =>
    if sensitivity_filtering then
      bind (applySensitivityFilter ft n rho (snd JdJ) (snd vdv)) (fun g => Ok (fst g, fst vdv, snd g))
    else Ok (snd JdJ, fst vdv, snd vdv))).

  (** mma.py:485-528: [k] more iterations; the densities given to the handles (most recent last), and the result *)
  Fixpoint opt_loop (k loop : nat) (M : mma XF) (xval : nat -> xr) : list (nat -> xr) * outcome (nat -> xr) :=
    match k with
    | 0 => ([], Done (Ok xval))
    | S k =>
        let loop := S loop in
        match physical xval with
        | Err e => ([], Done (Err e))
        | Ok rho_physical =>
            match gradients loop xval rho_physical with
            | Err e => ([rho_physical], Done (Err e))
            | Ok (dJ, vc, dvc) =>
                match mmasub solve fuel m n M xval dJ vc dvc with
                | Running => ([rho_physical], Running)
                | Done (Err e) => ([rho_physical], Done (Err e))
                | Done (Ok (st, M')) =>
                    let M'' := mkMma (F := XF) (S (epoch M')) xval (xold1 M') (lowAsymp M') (upAsymp M') (x_min M') (x_max M') (moveLimit M')
                      (zconst M') (zscale M') (ylinscale M') (yquadscale M') in
                    let (tr, r) := opt_loop k loop M'' (vx st) in (rho_physical :: tr, r)
                end
            end
        end
    end.
  (** mma.py:464-528, after the filter was computed *)
  Definition optimize_with (rho_ini : nat -> xr) (movelimit : xr) (maxIters : nat) : list (nat -> xr) * outcome (nat -> xr) :=
    opt_loop maxIters 0 (initial_mma rho_ini movelimit) rho_ini.
End Optimize.

(** mma.py:415-528 *)
Definition optimize (density_filtering sensitivity_filtering : bool) solve fuel dim points cells JxW flex_inds query m n objectiveHandle consHandle rho_ini movelimit maxIters
    : list (nat -> xr) * outcome (nat -> xr) :=
  match compute_filter_kd_tree dim points cells JxW flex_inds query with
  | Err e => ([], Done (Err e))
  | Ok ft => optimize_with density_filtering sensitivity_filtering solve fuel m n objectiveHandle consHandle ft rho_ini movelimit maxIters
  end.
