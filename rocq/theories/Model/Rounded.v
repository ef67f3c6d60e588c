(* Model of qmat/lagrange.py in rounded arithmetic: weights by differences (lines 180-187,
   213-230), getInterpolationMatrix (335-354), __call__ (244-251), getIntegrationMatrix (404-438)
   and getDerivativeMatrix (501-532).
   Every arithmetic operation returns the rounding [rnd] of the exact result; the special values
   inf and nan are as in Base.Ext.  The order in which numpy adds or multiplies the entries of an
   array is a parameter: for each number of entries, a binary tree of operations.
   Simplifications: no overflow and no underflow (rnd is a function on the exact results); only
   the weights 'FAST', and 'AUTO' when no FloatingPointError is raised, are modelled here. *)
From Verif.Base Require Import Str.
From mathcomp Require Import all_ssreflect all_algebra.
From Verif.Base Require Import Outcome Arr Ext.
From Verif.Model Require Import Lagrange.
Set Implicit Arguments.
Unset Strict Implicit.
Unset Printing Implicit Defensive.
Import GRing.Theory Num.Theory Order.TTheory.
Local Open Scope ring_scope.

(* an order of evaluation of a sum or a product of the entries of an array *)
Inductive stree := Leaf of nat | Node of stree & stree.
Fixpoint leaves (t : stree) : seq nat :=
  match t with Leaf i => [:: i] | Node l r => leaves l ++ leaves r end.

Section Rounded.
Variable F : realFieldType.
(* rounding to the nearest float64 *)
Variable rnd : F -> F.
(* order of the additions in np.sum and ndarray.dot, of the multiplications in np.prod *)
Variables (sumt prodt : nat -> stree).

Notation ext := (ext F).
Definition rext (a : ext) : ext := if a is Fin x then Fin (rnd x) else a.
Definition radd (a b : ext) : ext := rext (eadd a b).
Definition rmul (a b : ext) : ext := rext (emul a b).
Definition rdiv (a b : ext) : ext := rext (ediv a b).
Fixpoint teval (op : ext -> ext -> ext) (s : seq ext) (t : stree) : ext :=
  match t with
  | Leaf i => nth NaN s i
  | Node l r => op (teval op s l) (teval op s r)
  end.
(* s.sum() and s.prod() *)
Definition rsum (s : seq ext) : ext := if s is [::] then Fin 0 else teval radd s (sumt (size s)).
Definition rprod (s : seq ext) : ext := if s is [::] then Fin 1 else teval rmul s (prodt (size s)).

(* lines 180-181 *)
Definition r_diffs (pts : seq F) : seq (seq ext) :=
  let n := size pts in
  mkseq (fun i => mkseq (fun j =>
     Fin (if i == j then 1 else rnd (nth 0 pts i - nth 0 pts j))) n) n.

(* lines 183-187: x ** -1 is the rounded reciprocal *)
Definition r_analytic (ds : seq (seq ext)) : seq ext := [seq rdiv (Fin 1) (rprod r) | r <- ds].

(* lines 213-230, for 'FAST' and for 'AUTO' without FloatingPointError *)
Definition r_weights (pts : seq F) (scaleWeights : bool) : outcome (seq ext) :=
  let invProd := r_analytic (r_diffs pts) in
  if scaleWeights then
    if invProd is [::] then Raise ValueError
    else let m := emax (map (@eabs F) invProd) in Ok [seq rdiv a m | a <- invProd]
  else Ok invProd.

(* __init__, lines 164-241 *)
Definition r_init (pts : seq F) (scaleWeights : bool) (duplicates : string)
    (fValues : option (seq F)) : outcome (lagr F) :=
  let uniques := np_unique pts in
  dop d <-
    (if size pts != size uniques then
       omapo Some (setupDuplicates duplicates pts uniques)
     else Ok None);
  let upts := if size pts != size uniques then uniques else pts in
  dop w <- r_weights uniques scaleWeights;
  let self := {| points := pts; uniquePoints := upts; weights := w;
                 dup := d; fVals := fValues |} in
  match fValues with
  | Some f => if size f != size pts then Raise ValueError else Ok self
  | None => Ok self
  end.

(* getInterpolationMatrix, lines 335-354, one row *)
Definition r_interp_row (self : lagr F) (t : F) : seq ext :=
  let iDiff := [seq rdiv (Fin 1) (Fin (rnd (t - x))) | x <- uniquePoints self] in
  let concom := map (@is_inf F) iDiff in
  let iDiff := if has id concom then [seq Fin (c : bool)%:R | c <- concom] else iDiff in
  let P := [seq rmul p.1 p.2 | p <- zip iDiff (weights self)] in
  let s := rsum P in
  [seq rdiv a s | a <- P].

Definition r_interpM (self : lagr F) (times : seq F) (duplicates : bool) : seq (seq ext) :=
  [seq (if duplicates then handleDup self (r_interp_row self t) else r_interp_row self t)
  | t <- times].

(* __call__, lines 244-251 *)
Definition r_call (self : lagr F) (ts : seq F) (fValues : option (seq F)) : outcome (seq ext) :=
  match (if fValues is Some f then Some f else fVals self) with
  | None => Raise AssertionError
  | Some f =>
    if size f != size (points self) then Raise ValueError
    else Ok [seq rsum [seq rmul p.1 (Fin p.2) | p <- zip row f]
            | row <- r_interpM self ts true]
  end.

(* getIntegrationMatrix, lines 421-438, one interval; the rule is given.  Division by 2 of a
   rounded number is exact in binary arithmetic, but rounded here like the others. *)
Definition r_teval (ab : F * F) (tau : F) : F :=
  let: (a, b) := ab in
  rnd (rnd (rnd (rnd (b - a) / 2%:R) * tau) + rnd (rnd (b + a) / 2%:R)).
Definition r_integ_row (self : lagr F) (iNodes iWeights : seq F) (ab : F * F) : seq ext :=
  let: (a, b) := ab in
  let rows := [seq r_interp_row self (r_teval ab tau) | tau <- iNodes] in
  mkseq (fun j =>
    rsum [seq rmul (rmul (nth NaN p.1 j) (Fin p.2)) (Fin (rnd (rnd (b - a) / 2%:R)))
         | p <- zip rows iWeights]) (size (uniquePoints self)).

(* the rules of lines 404-419 are computed elsewhere *)
Definition r_integM (leggauss roots_legendre fejer : nat -> outcome (seq F * seq F))
    (self : lagr F) (intervals : seq (F * F)) (numQuad : string) (duplicates : bool) :
    outcome (seq (seq ext)) :=
  dop rule <- quad_rule leggauss roots_legendre fejer self numQuad;
  Ok [seq (let row := r_integ_row self rule.1 rule.2 ab in
           if duplicates then handleDup self row else row) | ab <- intervals].

(* getDerivativeMatrix, lines 501-532 *)
Definition r_iDiff (self : lagr F) : seq (seq ext) :=
  let x := uniquePoints self in
  [seq [seq (let d := rdiv (Fin 1) (Fin (rnd (xi - xj))) in if is_inf d then Fin 0 else d)
       | xj <- x] | xi <- x].
Definition r_base (self : lagr F) : seq (seq ext) :=
  let w := weights self in
  [seq [seq rmul (rdiv q.1 p.1) q.2 | q <- zip w p.2]
  | p <- zip w (r_iDiff self)].
Definition r_fill_diag (D : seq (seq ext)) : seq (seq ext) :=
  mkseq (fun i => let r := nth [::] D i in set_nth NaN r i (eopp (rsum r))) (size D).
Definition r_D1 (self : lagr F) : seq (seq ext) := r_fill_diag (r_base self).
Definition r_D2 (self : lagr F) : seq (seq ext) :=
  r_fill_diag [seq (let s := rsum p.1 in
                    [seq rmul (rmul (Fin (- 2%:R)) q.1) (radd q.2 s) | q <- zip p.1 p.2])
              | p <- zip (r_base self) (r_iDiff self)].
Definition r_derivM (self : lagr F) (order : ordarg) (duplicates : bool) : outcome (derivres F) :=
  let fin D := if duplicates then map (handleDup self) D else D in
  match order with
  | OInt (Posz 1) => Ok (DOne (fin (r_D1 self)))
  | OInt (Posz 2) => Ok (DOne (fin (r_D2 self)))
  | OStr s => if s == "ALL"%string then Ok (DBoth (fin (r_D1 self)) (fin (r_D2 self)))
              else Raise NotImplementedError
  | OInt _ => Raise NotImplementedError
  end.
End Rounded.
