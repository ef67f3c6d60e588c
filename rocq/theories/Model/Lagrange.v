(* Model of qmat/lagrange.py, class LagrangeApproximation (lines 87-537).
   Exact arithmetic over an ordered field F extended with inf/nan (Base.Ext).
   Simplifications, valid for the whole file:
   - input arrays are one-dimensional lists of finite numbers (the ndim / shape
     assertions at lines 336, 405, 406 are enforced by the types);
   - no rounding; the only effect of floating point kept is the underflow
     fallback of 'AUTO' (line 217), driven by the parameter [underflow]. *)

From Verif.Base Require Import Str.
From mathcomp Require Import all_ssreflect all_algebra.
From Verif.Base Require Import Outcome Arr Ext.
Set Implicit Arguments.
Unset Strict Implicit.
Unset Printing Implicit Defensive.
Import GRing.Theory Num.Theory Order.TTheory.
Local Open Scope ring_scope.

Section Lagrange.
Variable F : realFieldType.
(* np.log on positive numbers, np.exp *)
Variables (flog fexp : F -> F).
(* whether the float64 evaluation of 'FAST' raises FloatingPointError (line 217)
   for the given distinct points *)
Variable underflow : seq F -> bool.
(* np.polynomial.legendre.leggauss (line 410), scipy roots_legendre (line 413),
   computeFejerRule (line 416, lines 33-84, modelled over R in Model.Fejer) *)
Variables (leggauss roots_legendre fejer : nat -> outcome (seq F * seq F)).

Notation ext := (ext F).

(* np.log and np.exp with their IEEE limits *)
Definition elog (a : ext) : ext :=
  match a with
  | Fin x => if 0 < x then Fin (flog x) else if x == 0 then NInf else NaN
  | PInf => PInf
  | _ => NaN
  end.
Definition eexp (a : ext) : ext :=
  match a with Fin x => Fin (fexp x) | PInf => PInf | NInf => Fin 0 | NaN => NaN end.

(* np.unique(points): sorted distinct values (line 169) *)
Definition np_unique (points : seq F) : seq F := undup (sort <=%O points).

(* lines 180-181: pairwise differences, diagonal replaced by 1 *)
Definition diffs (pts : seq F) : seq (seq ext) :=
  let n := size pts in
  mkseq (fun i => mkseq (fun j =>
     Fin (if i == j then 1 else nth 0 pts i - nth 0 pts j)) n) n.

(* lines 183-187 *)
Definition analytic (ds : seq (seq ext)) : seq ext :=
  [seq ediv (Fin 1) (eprod r) | r <- ds].

(* np.argmin(np.abs(points)): first index of the smallest modulus *)
Definition argmin_abs (pts : seq F) : nat :=
  let m := foldr Num.min `|head 0 pts| [seq `|a| | a <- pts] in
  index m [seq `|a| | a <- pts].

(* lines 189-201; argmin and max of an empty array raise ValueError *)
Definition logScale (pts : seq F) (scaleRef : string) (ds : seq (seq ext)) :
    outcome (seq ext) :=
  let sign := [seq eprod (map (@esign F) r) | r <- ds] in
  let wLog := [seq eopp (esum [seq elog (eabs d) | d <- r]) | r <- ds] in
  dop wScale <-
    (if scaleRef == "ZERO"%string then
       if pts is [::] then Raise ValueError else Ok (nth NaN wLog (argmin_abs pts))
     else if scaleRef == "MAX"%string then
       if pts is [::] then Raise ValueError else Ok (emax wLog)
     else Raise NotImplementedError);
  Ok [seq emul (eexp (esub p.1 wScale)) p.2 | p <- zip wLog sign].

(* lines 203-211; points is sorted so max/min are last/first;
   max of an empty array raises ValueError *)
Definition chebfun (pts : seq F) (ds : seq (seq ext)) : outcome (seq ext) :=
  if pts is [::] then Raise ValueError else
  let c := ediv (Fin 4%:R) (Fin (last 0 pts - head 0 pts)) in
  let ds := [seq [seq emul d c | d <- r] | r <- ds] in
  let sign := [seq eprod (map (@esign F) r) | r <- ds] in
  let vv := [seq eexp (esum [seq elog (eabs d) | d <- r]) | r <- ds] in
  let invProd := [seq ediv (Fin 1) (emul p.1 p.2) | p <- zip sign vv] in
  let nrm := emax (map (@eabs F) invProd) in
  Ok [seq ediv a nrm | a <- invProd].

(* lines 213-230; np.max of an empty array raises ValueError *)
Definition compute_weights (pts : seq F) (weightComputation : string)
    (scaleWeights : bool) (scaleRef : string) : outcome (seq ext) :=
  let ds := diffs pts in
  dop invProd <-
    (if weightComputation == "AUTO"%string then
       if underflow pts then logScale pts scaleRef ds else Ok (analytic ds)
     else if weightComputation == "FAST"%string then Ok (analytic ds)
     else if weightComputation == "STABLE"%string then logScale pts scaleRef ds
     else if weightComputation == "CHEBFUN"%string then chebfun pts ds
     else Raise NotImplementedError);
  if scaleWeights then
    if invProd is [::] then Raise ValueError
    else let m := emax (map (@eabs F) invProd) in Ok [seq ediv a m | a <- invProd]
  else Ok invProd.

(* indices kept by _setupDuplicates (lines 254-270): _invIdx and _zerIdx *)
Record dupinfo := DupInfo { invIdx : seq nat; zerIdx : seq nat }.

(* np.max(np.where(points == v)) *)
Definition last_index (v : F) (pts : seq F) : nat :=
  (size pts - 1 - index v (rev pts))%N.

Definition setupDuplicates (duplicates : string) (points uniques : seq F) : outcome dupinfo :=
  if ~~ ((duplicates == "USE_LEFT"%string) || (duplicates == "USE_RIGHT"%string)) then
    Raise NotImplementedError
  else
    let nnzIdx :=
      if duplicates == "USE_LEFT"%string then [seq index v points | v <- uniques]
      else [seq last_index v points | v <- uniques] in
    Ok {| invIdx := [seq index p uniques | p <- points];
          zerIdx := [seq i <- iota 0 (size points) | i \notin nnzIdx] |}.

(* instance attributes *)
Record lagr := Lagr {
  points : seq F; uniquePoints : seq F; weights : seq ext;
  dup : option dupinfo; fVals : option (seq F) }.

(* __init__, lines 164-241.  Without duplicates, self.uniquePoints is the array as
   given (line 175) while the weights are computed from the sorted one (line 178). *)
Definition lagrange_init (pts : seq F) (weightComputation : string) (scaleWeights : bool)
    (scaleRef duplicates : string) (fValues : option (seq F)) : outcome lagr :=
  let uniques := np_unique pts in
  dop d <-
    (if size pts != size uniques then
       omapo Some (setupDuplicates duplicates pts uniques)
     else Ok None);
  let upts := if size pts != size uniques then uniques else pts in
  dop w <- compute_weights uniques weightComputation scaleWeights scaleRef;
  let self := {| points := pts; uniquePoints := upts; weights := w;
                 dup := d; fVals := fValues |} in
  match fValues with
  | Some f => if size f != size pts then Raise ValueError else Ok self
  | None => Ok self
  end.

(* _handleDuplicates / _passThrough, lines 272-280, on one row *)
Definition handleDup (self : lagr) (row : seq ext) : seq ext :=
  match dup self with
  | None => row
  | Some d =>
    mkseq (fun j => if j \in zerIdx d then Fin 0 else nth NaN row (nth 0%N (invIdx d) j))
          (size (invIdx d))
  end.

(* getInterpolationMatrix, lines 301-354, one row *)
Definition interp_row (self : lagr) (t : F) : seq ext :=
  let iDiff := [seq ediv (Fin 1) (Fin (t - x)) | x <- uniquePoints self] in
  let concom := map (@is_inf F) iDiff in
  let iDiff := if has id concom then [seq Fin (c : bool)%:R | c <- concom] else iDiff in
  let P := [seq emul p.1 p.2 | p <- zip iDiff (weights self)] in
  let s := esum P in
  [seq ediv a s | a <- P].

Definition getInterpolationMatrix (self : lagr) (times : seq F) (duplicates : bool) :
    seq (seq ext) :=
  [seq (if duplicates then handleDup self (interp_row self t) else interp_row self t)
  | t <- times].

(* getIntegrationMatrix, lines 404-438.  numQuad selection: (n+1)//2 Gauss points or
   n - (n+1)%2 Fejer points, n = number of given points. *)
Definition quad_rule (self : lagr) (numQuad : string) : outcome (seq F * seq F) :=
  let n := size (points self) in
  if numQuad == "LEGENDRE_NUMPY"%string then leggauss ((n + 1) %/ 2)
  else if numQuad == "LEGENDRE_SCIPY"%string then roots_legendre ((n + 1) %/ 2)
  else if numQuad == "FEJER"%string then fejer (n - (n + 1) %% 2)
  else Raise NotImplementedError.

Definition integ_row (self : lagr) (iNodes iWeights : seq F) (ab : F * F) : seq ext :=
  let: (a, b) := ab in
  let tEval := [seq (b - a) / 2%:R * tau + (b + a) / 2%:R | tau <- iNodes] in
  let rows := [seq interp_row self t | t <- tEval] in
  mkseq (fun j =>
    esum [seq emul (emul (nth NaN p.1 j) (Fin p.2)) (Fin ((b - a) / 2%:R))
         | p <- zip rows iWeights]) (size (uniquePoints self)).

Definition getIntegrationMatrix (self : lagr) (intervals : seq (F * F)) (numQuad : string)
    (duplicates : bool) : outcome (seq (seq ext)) :=
  dop rule <- quad_rule self numQuad;
  Ok [seq (let row := integ_row self rule.1 rule.2 ab in
           if duplicates then handleDup self row else row) | ab <- intervals].

(* getDerivativeMatrix, lines 440-532 *)
Inductive ordarg := OInt of int | OStr of string.
Inductive derivres := DOne of seq (seq ext) | DBoth of seq (seq ext) & seq (seq ext).

Definition deriv_iDiff (self : lagr) : seq (seq ext) :=
  let x := uniquePoints self in
  [seq [seq (let d := ediv (Fin 1) (Fin (xi - xj)) in if is_inf d then Fin 0 else d)
       | xj <- x] | xi <- x].

Definition deriv_base (self : lagr) : seq (seq ext) :=
  let w := weights self in
  [seq [seq emul (ediv q.1 p.1) q.2 | q <- zip w p.2]
  | p <- zip w (deriv_iDiff self)].

(* np.fill_diagonal(D, -D.sum(axis=-1)) *)
Definition fill_diag (D : seq (seq ext)) : seq (seq ext) :=
  mkseq (fun i => let r := nth [::] D i in set_nth NaN r i (eopp (esum r))) (size D).

Definition deriv_D1 (self : lagr) : seq (seq ext) := fill_diag (deriv_base self).

Definition deriv_D2 (self : lagr) : seq (seq ext) :=
  fill_diag [seq (let s := esum p.1 in
                  [seq emul (emul (Fin (- 2%:R)) q.1) (eadd q.2 s) | q <- zip p.1 p.2])
            | p <- zip (deriv_base self) (deriv_iDiff self)].

Definition getDerivativeMatrix (self : lagr) (order : ordarg) (duplicates : bool) :
    outcome derivres :=
  let fin D := if duplicates then map (handleDup self) D else D in
  match order with
  | OInt (Posz 1) => Ok (DOne (fin (deriv_D1 self)))
  | OInt (Posz 2) => Ok (DOne (fin (deriv_D2 self)))
  | OStr s => if s == "ALL"%string then Ok (DBoth (fin (deriv_D1 self)) (fin (deriv_D2 self)))
              else Raise NotImplementedError
  | OInt _ => Raise NotImplementedError
  end.

(* getDerivationMatrix, lines 534-537: deprecated alias (warning not modelled) *)
Definition getDerivationMatrix := getDerivativeMatrix.

(* __call__, lines 244-251, on a list of times; fValues of the wrong length make
   .dot raise ValueError *)
Definition call (self : lagr) (ts : seq F) (fValues : option (seq F)) : outcome (seq ext) :=
  match (if fValues is Some f then Some f else fVals self) with
  | None => Raise AssertionError
  | Some f =>
    if size f != size (points self) then Raise ValueError
    else Ok [seq esum [seq emul p.1 (Fin p.2) | p <- zip row f]
            | row <- getInterpolationMatrix self ts true]
  end.

End Lagrange.
