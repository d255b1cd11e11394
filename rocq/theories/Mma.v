(** Model of the MMA optimizer, jax_fem/mma.py:68-412 (filters and optimize are in MmaOpt.v).
    Arrays of shape (n,1), (m,1), (m,n) are functions of their indices, used at indices in range only.
    Simplification: shapes are as documented (an array of another shape is not modelled); rounding is
    not modelled.  The text is over any numbers with comparison; XF are extended reals with NaN and
    infinities (what the code computes), RF are the reals (used in the proofs). *)
From Coq Require Import List Arith Bool Reals.
From Verif Require Import Num Arr Fe Problem XNum Newton.
Import ListNotations.

Record nums := mkNums {
  n_ops :> ops;
  ltb : n_ops -> n_ops -> bool;
  maximum : n_ops -> n_ops -> n_ops;   (* np.maximum *)
  minimum : n_ops -> n_ops -> n_ops;   (* np.minimum *)
  absn : n_ops -> n_ops;
  sqrtn : n_ops -> n_ops;
  lit : R -> n_ops                     (* a literal *)
}.
Arguments ltb {n}. Arguments maximum {n}. Arguments minimum {n}. Arguments absn {n}. Arguments sqrtn {n}. Arguments lit {n}.
Definition XF : nums := mkNums Xops xltb xmax xmin xabs xsqrt Fin.
Definition RF : nums := mkNums Rops Rltb Rmax Rmin Rabs sqrt (fun r => r).

Section Mma.
  Context {F : nums}.
  Open Scope num_scope.

  (** np.dot of two vectors of n entries *)
  Definition dot (n : nat) (u v : nat -> F) : F := sum_n n (fun i => u i * v i).
  (** np.max of the entries of an array; an empty array raises *)
  Definition np_max (l : list F) : result F :=
    match l with [] => Err ValueErr | x :: l => Ok (fold_left maximum l x) end.
  (** max(a, b) of Python: b only if it is larger *)
  Definition py_max (a b : F) : F := if ltb a b then b else a.
  (** max(l) of Python *)
  Definition py_maxl (l : list F) : result F :=
    match l with [] => Err ValueErr | x :: l => Ok (fold_left py_max l x) end.
  Definition entries (n : nat) (u : nat -> F) : list F := map u (seq 0 n).

  (** The sub-problem that mmasub hands to subsolv. *)
  Record subproblem := mkSub {
    low : nat -> F; upp : nat -> F; alfa : nat -> F; beta : nat -> F;
    p0 : nat -> F; q0 : nat -> F; PP : nat -> nat -> F; QQ : nat -> nat -> F;
    a0 : F; aa : nat -> F; bb : nat -> F; cc : nat -> F; dd : nat -> F
  }.

  (** mma.py:140-143: factor *)
  Definition factor (z : F) : F := if ltb z 0 then lit (7 / 10) else if ltb 0 z then lit (12 / 10) else 1.
  (** mma.py:136-153: the new asymptote of one variable; epoch is the number of registered designs *)
  Definition new_low (epoch : nat) (xval xold1 xold2 xmin xmax low : F) : F :=
    if (epoch <=? 2)%nat then xval - lit (5 / 10) * (xmax - xmin)
    else
      let low := xval - factor ((xval - xold1) * (xold1 - xold2)) * (xold1 - low) in
      let lowmin := xval - lit 10 * (xmax - xmin) in
      let lowmax := xval - lit (1 / 100) * (xmax - xmin) in
      minimum (maximum low lowmin) lowmax.
  Definition new_upp (epoch : nat) (xval xold1 xold2 xmin xmax upp : F) : F :=
    if (epoch <=? 2)%nat then xval + lit (5 / 10) * (xmax - xmin)
    else
      let upp := xval + factor ((xval - xold1) * (xold1 - xold2)) * (upp - xold1) in
      let uppmin := xval + lit (1 / 100) * (xmax - xmin) in
      let uppmax := xval + lit 10 * (xmax - xmin) in
      maximum (minimum upp uppmax) uppmin.
  (** mma.py:155-158 and 159-162 *)
  Definition new_alfa (xval low xmin xmax move : F) : F :=
    maximum (maximum (low + lit (1 / 10) * (xval - low)) (xval - move * (xmax - xmin))) xmin.
  Definition new_beta (xval upp xmin xmax move : F) : F :=
    minimum (minimum (upp - lit (1 / 10) * (upp - xval)) (xval + move * (xmax - xmin))) xmax.
  (** mma.py:164-167 *)
  Definition xmamiinv (xmin xmax : F) : F := 1 / maximum (xmax - xmin) (lit (1 / 100000) * 1).
  (** mma.py:168-182 (objective) and 185-194 (a constraint): the coefficients for the derivative g *)
  Definition coef_p (g upp xval xmin xmax : F) : F :=
    let p := maximum g 0 in let q := maximum (- g) 0 in
    (upp - xval) * (upp - xval) * (p + (lit (1 / 1000) * (p + q) + lit (1 / 100000) * xmamiinv xmin xmax)).
  Definition coef_q (g low xval xmin xmax : F) : F :=
    let p := maximum g 0 in let q := maximum (- g) 0 in
    (xval - low) * (xval - low) * (q + (lit (1 / 1000) * (p + q) + lit (1 / 100000) * xmamiinv xmin xmax)).

  (** What an MMA object holds (mma.py:71-111). *)
  Record mma := mkMma {
    epoch : nat;
    xold1 : nat -> F; xold2 : nat -> F;
    lowAsymp : nat -> F; upAsymp : nat -> F;
    x_min : nat -> F; x_max : nat -> F;
    moveLimit : F;
    zconst : F; zscale : nat -> F; ylinscale : nat -> F; yquadscale : nat -> F
  }.

  (** mma.py:114-196: the sub-problem at xval; fval, dfdx: constraints and their gradients, df0dx: gradient
      of the objective.  n: number of design variables (eeem is all ones, so np.dot(eeem, xmamiinv.T) repeats
      xmamiinv in every row). *)
  Definition mma_problem (n : nat) (M : mma) (xval df0dx fval : nat -> F) (dfdx : nat -> nat -> F) : subproblem :=
    let low i := new_low (epoch M) (xval i) (xold1 M i) (xold2 M i) (x_min M i) (x_max M i) (lowAsymp M i) in
    let upp i := new_upp (epoch M) (xval i) (xold1 M i) (xold2 M i) (x_min M i) (x_max M i) (upAsymp M i) in
    let p0 j := coef_p (df0dx j) (upp j) (xval j) (x_min M j) (x_max M j) in
    let q0 j := coef_q (df0dx j) (low j) (xval j) (x_min M j) (x_max M j) in
    let P i j := coef_p (dfdx i j) (upp j) (xval j) (x_min M j) (x_max M j) in
    let Q i j := coef_q (dfdx i j) (low j) (xval j) (x_min M j) (x_max M j) in
    mkSub low upp
      (fun i => new_alfa (xval i) (low i) (x_min M i) (x_max M i) (moveLimit M))
      (fun i => new_beta (xval i) (upp i) (x_min M i) (x_max M i) (moveLimit M))
      p0 q0 P Q (zconst M) (zscale M)
      (fun i => dot n (P i) (fun j => 1 / (upp j - xval j)) + dot n (Q i) (fun j => 1 / (xval j - low j)) - fval i)
      (ylinscale M) (yquadscale M).

  (** The variables of subsolv. *)
  Record state := mkSt {
    vx : nat -> F; vy : nat -> F; vz : F; vlam : nat -> F; vxsi : nat -> F; veta : nat -> F; vmu : nat -> F;
    vzet : F; vs : nat -> F
  }.
  (** old + t * d *)
  Definition move_by (old d : state) (t : F) : state :=
    mkSt (fun i => vx old i + t * vx d i) (fun i => vy old i + t * vy d i) (vz old + t * vz d)
      (fun i => vlam old i + t * vlam d i) (fun i => vxsi old i + t * vxsi d i) (fun i => veta old i + t * veta d i)
      (fun i => vmu old i + t * vmu d i) (vzet old + t * vzet d) (fun i => vs old i + t * vs d i).

  Variables m n : nat.
  Variable S : subproblem.

  (** mma.py:213-223 *)
  Definition start : state :=
    let x i := lit (5 / 10) * (alfa S i + beta S i) in
    mkSt x (fun _ => 1) (lit 1) (fun _ => 1)
      (fun i => maximum (1 / (x i - alfa S i)) 1) (fun i => maximum (1 / (beta S i - x i)) 1)
      (fun i => maximum 1 (lit (5 / 10) * cc S i)) (lit 1) (fun _ => 1).

  Section At.
    Variable epsi : F.
    Variable st : state.
    Let x := vx st. Let y := vy st. Let z := vz st. Let lam := vlam st. Let xsi := vxsi st. Let eta := veta st.
    Let mu := vmu st. Let zet := vzet st. Let s := vs st.

    (** mma.py:229-238, 258-270, 368-377 *)
    Definition ux1 i := upp S i - x i.
    Definition xl1 i := x i - low S i.
    Definition ux2 i := ux1 i * ux1 i.
    Definition xl2 i := xl1 i * xl1 i.
    Definition ux3 i := ux1 i * ux2 i.
    Definition xl3 i := xl1 i * xl2 i.
    Definition plam i := p0 S i + dot m (fun k => PP S k i) lam.
    Definition qlam i := q0 S i + dot m (fun k => QQ S k i) lam.
    Definition gvec k := dot n (PP S k) (fun i => 1 / ux1 i) + dot n (QQ S k) (fun i => 1 / xl1 i).
    Definition dpsidx i := plam i / ux2 i - qlam i / xl2 i.

    (** mma.py:239-251 and 378-391: the residual of the optimality conditions relaxed by epsi *)
    Definition rex i := dpsidx i - xsi i + eta i.
    Definition rey k := cc S k + dd S k * y k - mu k - lam k.
    Definition rez := a0 S - zet - dot m (aa S) lam.
    Definition relam k := gvec k - aa S k * z - y k + s k - bb S k.
    Definition rexsi i := xsi i * (x i - alfa S i) - epsi * 1.
    Definition reeta i := eta i * (beta S i - x i) - epsi * 1.
    Definition remu k := mu k * y k - epsi * 1.
    Definition rezet := zet * z - epsi.
    Definition res k := lam k * s k - epsi * 1.
    Definition residu : list F :=
      entries n rex ++ entries m rey ++ [rez] ++ entries m relam ++ entries n rexsi ++ entries n reeta
      ++ entries m remu ++ [rezet] ++ entries m res.
    Definition residunorm : F := sqrtn (sumK (map (fun r => r * r) residu)).

    (** mma.py:274-287 *)
    Definition GG k i := 1 / ux2 i * PP S k i - 1 / xl2 i * QQ S k i.
    Definition delx i := dpsidx i - epsi * 1 / (x i - alfa S i) + epsi * 1 / (beta S i - x i).
    Definition dely k := cc S k + dd S k * y k - lam k - epsi * 1 / y k.
    Definition delz := a0 S - dot m (aa S) lam - epsi / z.
    Definition dellam k := gvec k - aa S k * z - y k - bb S k + epsi * 1 / lam k.
    Definition diagx i := lit 2 * (plam i / ux3 i + qlam i / xl3 i) + xsi i / (x i - alfa S i) + eta i / (beta S i - x i).
    Definition diagxinv i := 1 / diagx i.
    Definition diagy k := dd S k + mu k / y k.
    Definition diagyinv k := 1 / diagy k.
    Definition diaglam k := s k / lam k.
    Definition diaglamyi k := diaglam k + diagyinv k.

    (** np.linalg.solve of a system of the given size; raises LinAlgError if the matrix is singular *)
    Variable solve : nat -> (nat -> nat -> F) -> (nat -> F) -> result (nat -> F).

    (** mma.py:290-303, m < n *)
    Definition Alam k l := (if k =? l then diaglamyi k else 0) + sum_n n (fun i => diagxinv i * GG k i * GG l i).
    Definition AA_few k l : F :=
      if (k <? m)%nat then if (l <? m)%nat then Alam k l else aa S k
      else if (l <? m)%nat then aa S l else - vzet st / z.
    Definition bb_few k : F :=
      if (k <? m)%nat then dellam k + dely k / diagy k - dot n (GG k) (fun i => delx i / diagx i) else delz.
    Definition few : result ((nat -> F) * F * (nat -> F)) :=
      bind (solve (m + 1) AA_few bb_few) (fun solut =>
      let dlam := solut in
      let dz := solut m in
      let dx i := - delx i / diagx i - dot m (fun k => GG k i) dlam / diagx i in
      Ok (dx, dz, dlam)).
    (** mma.py:305-321, m >= n *)
    Definition diaglamyiinv k := 1 / diaglamyi k.
    Definition dellamyi k := dellam k + dely k / diagy k.
    Definition Axx i j := (if i =? j then diagx i else 0) + sum_n m (fun k => diaglamyiinv k * GG k i * GG k j).
    Definition azz := zet / z + dot m (aa S) (fun k => aa S k / diaglamyi k).
    Definition axz i := dot m (fun k => - GG k i) (fun k => aa S k / diaglamyi k).
    Definition bx i := delx i + dot m (fun k => GG k i) (fun k => dellamyi k / diaglamyi k).
    Definition bz := delz - dot m (aa S) (fun k => dellamyi k / diaglamyi k).
    Definition AA_many i j : F :=
      if (i <? n)%nat then if (j <? n)%nat then Axx i j else axz i
      else if (j <? n)%nat then axz j else azz.
    Definition bb_many i : F := if (i <? n)%nat then - bx i else - bz.
    Definition many : result ((nat -> F) * F * (nat -> F)) :=
      bind (solve (n + 1) AA_many bb_many) (fun solut =>
      let dx := solut in
      let dz := solut n in
      let dlam k := dot n (GG k) dx / diaglamyi k - dz * (aa S k / diaglamyi k) + dellamyi k / diaglamyi k in
      Ok (dx, dz, dlam)).
    (** mma.py:289-328: the direction *)
    Definition direction : result state :=
      bind (if (m <? n)%nat then few else many) (fun r =>
      let '(dx, dz, dlam) := r in
      let dy k := - dely k / diagy k + dlam k / diagy k in
      Ok (mkSt dx dy dz dlam
        (fun i => - xsi i + epsi * 1 / (x i - alfa S i) - xsi i * dx i / (x i - alfa S i))
        (fun i => - eta i + epsi * 1 / (beta S i - x i) + eta i * dx i / (beta S i - x i))
        (fun k => - mu k + epsi * 1 / y k - mu k * dy k / y k)
        (- zet + epsi / z - zet * dz / z)
        (fun k => - s k + epsi * 1 / lam k - s k * dlam k / lam k))).
    (** mma.py:329-341: the first step length.  xx and dxx are y, z, lam, xsi, eta, mu, zet, s. *)
    Definition steps (d : state) : list F :=
      let r d v := - lit (101 / 100) * d / v in
      entries m (fun k => r (vy d k) (y k)) ++ [r (vz d) z] ++ entries m (fun k => r (vlam d k) (lam k))
      ++ entries n (fun i => r (vxsi d i) (xsi i)) ++ entries n (fun i => r (veta d i) (eta i))
      ++ entries m (fun k => r (vmu d k) (mu k)) ++ [r (vzet d) zet] ++ entries m (fun k => r (vs d k) (s k)).
    Definition first_steg (d : state) : result F :=
      bind (np_max (steps d)) (fun stmxx =>
      bind (np_max (entries n (fun i => - lit (101 / 100) * vx d i / (x i - alfa S i)))) (fun stmalfa =>
      bind (np_max (entries n (fun i => lit (101 / 100) * vx d i / (beta S i - x i)))) (fun stmbeta =>
      Ok (lit 1 / py_max (py_max (py_max stmalfa stmbeta) stmxx) (lit 1))))).
  End At.

  (** The point, its residual (as last computed), the norm it is compared with. *)
  Record iterate := mkIt { it_st : state; it_residu : list F; it_norm : F }.

  (** mma.py:354-395: at most [k] more trial steps; resinew and the current point and residual so far *)
  Fixpoint search (k : nat) (epsi : F) (old d : state) (residunorm0 steg resinew : F) (cur : state) (r : list F)
    : iterate :=
    match k with
    | 0 => mkIt cur r resinew
    | Datatypes.S k =>
        if ltb residunorm0 resinew then
          let cur := move_by old d steg in
          let r := residu epsi cur in
          search k epsi old d residunorm0 (steg / lit 2) (residunorm epsi cur) cur r
        else mkIt cur r resinew
    end.

  Variable solve : nat -> (nat -> nat -> F) -> (nat -> F) -> result (nat -> F).

  (** mma.py:256-397, one round of the loop over ittt *)
  Definition inner_step (epsi : F) (it : iterate) : result iterate :=
    bind (direction epsi (it_st it) solve) (fun d =>
    bind (first_steg (it_st it) d) (fun steg =>
    Ok (search 50 epsi (it_st it) d (it_norm it) steg (lit 2 * it_norm it) (it_st it) (it_residu it)))).
  (** mma.py:253-398: at most [k] more rounds *)
  Fixpoint inner (k : nat) (epsi : F) (residumax : F) (it : iterate) : result iterate :=
    if ltb (lit (9 / 10) * epsi) residumax then
      match k with
      | 0 => Ok it
      | Datatypes.S k =>
          bind (inner_step epsi it) (fun it =>
          bind (py_maxl (map absn (it_residu it))) (fun residumax => inner k epsi residumax it))
      end
    else Ok it.
  (** mma.py:227-400: one round of the loop over epsi *)
  Definition outer_step (epsi : F) (st : state) : result state :=
    bind (np_max (map absn (residu epsi st))) (fun residumax =>
    bind (inner 200 epsi residumax (mkIt st (residu epsi st) (residunorm epsi st))) (fun it => Ok (it_st it))).
  (** mma.py:226-400 *)
  Fixpoint outer (fuel : nat) (epsimin epsi : F) (st : state) : outcome state :=
    if ltb epsimin epsi then
      match fuel with
      | 0 => Running
      | Datatypes.S fuel =>
          match outer_step epsi st with
          | Err e => Done (Err e)
          | Ok st => outer fuel epsimin (lit (1 / 10) * epsi) st
          end
      end
    else Done (Ok st).
  (** mma.py:207-412 *)
  Definition subsolv (fuel : nat) (epsimin : F) : outcome state := outer fuel epsimin (lit 1) start.
End Mma.
Arguments subproblem : clear implicits. Arguments mma : clear implicits. Arguments state : clear implicits. Arguments iterate : clear implicits.

(** mma.py:114-204: the new design (and the new asymptotes) *)
Definition mmasub {F : nums} (solve : nat -> (nat -> nat -> F) -> (nat -> F) -> result (nat -> F)) (fuel m n : nat) (M : mma F)
    (xval df0dx fval : nat -> F) (dfdx : nat -> nat -> F) : outcome (state F * mma F) :=
  let S := mma_problem n M xval df0dx fval dfdx in
  match subsolv m n S solve fuel (lit (1 / 10000000)) with
  | Running => Running
  | Done (Err e) => Done (Err e)
  | Done (Ok st) => Done (Ok (st, mkMma (epoch M) (xold1 M) (xold2 M) (low S) (upp S) (x_min M) (x_max M) (moveLimit M)
      (zconst M) (zscale M) (ylinscale M) (yquadscale M)))
  end.
