(* Vocabulary used to state the properties of LagrangeApproximation. *)
From Verif.Base Require Import Str.
From mathcomp Require Import all_ssreflect all_algebra.
From Verif.Base Require Import Outcome Arr Ext.
Set Implicit Arguments.
Unset Strict Implicit.
Unset Printing Implicit Defensive.
Import GRing.Theory Num.Theory Order.TTheory.
Local Open Scope ring_scope.

Section Spec.
Variable F : realFieldType.
Implicit Types (pts : seq F) (d wc sr : string).

(* a matrix of finite numbers, as returned by the code *)
Definition fmat (M : seq (seq F)) : seq (seq (ext F)) := map (map (@Fin F)) M.
(* values of a polynomial on a list of points *)
Definition pvals (p : {poly F}) (s : seq F) : seq F := [seq p.[x] | x <- s].
(* the distinct points in increasing order, and how many there are *)
Definition dpts pts : seq F := undup (sort <=%O pts).
Definition ndist pts : nat := size (undup pts).

(* strictly increasing points, or any list with at least one repetition together
   with a known strategy *)
Definition points_ok pts d : Prop :=
  (0 < size pts)%N /\
  (sorted <%O pts \/ ~~ uniq pts /\ (d = "USE_LEFT" \/ d = "USE_RIGHT"))%string.

(* the documented weight settings *)
Definition setting_ok pts wc sr : Prop :=
  wc = "FAST"%string \/
  (wc = "AUTO" \/ wc = "STABLE")%string /\ (sr = "ZERO" \/ sr = "MAX")%string \/
  wc = "CHEBFUN"%string /\ (1 < ndist pts)%N.

(* functional equations of the exponential and logarithm *)
Definition exp_log (flog fexp : F -> F) : Prop :=
  (forall x y, fexp (x + y) = fexp x * fexp y) /\ (forall x, 0 < x -> fexp (flog x) = x).

(* settings that evaluate np.log / np.exp need these equations *)
Definition logs_ok (flog fexp : F -> F) (underflow : seq F -> bool) pts wc : Prop :=
  wc = "FAST"%string \/ (wc = "AUTO"%string /\ underflow (dpts pts) = false) \/
  exp_log flog fexp.

(* position j holds the value used for its point: the first occurrence, or the last
   one with USE_RIGHT *)
Definition used d pts (j : nat) : Prop :=
  (j < size pts)%N /\
  if d == "USE_RIGHT"%string
  then forall k, (j < k < size pts)%N -> nth 0 pts k <> nth 0 pts j
  else forall k, (k < j)%N -> nth 0 pts k <> nth 0 pts j.

(* a quadrature rule (nodes, weights) on [-1,1] exact up to degree deg *)
Definition exact_rule (r : seq F * seq F) (deg : nat) : Prop :=
  size r.2 = size r.1 /\
  forall P : {poly F}, (size P <= deg.+2)%N ->
    \sum_(q < size r.1) nth 0 r.2 q * P^`().[nth 0 r.1 q] = P.[1] - P.[-1].

(* the three quadrature options, with what is required from each rule on n points:
   Gauss rules are exact to degree 2m-1, Fejer rules with an odd number m of nodes
   to degree m *)
Definition rules_ok (leggauss roots_legendre fejer : nat -> outcome (seq F * seq F))
    (n : nat) (numQuad : string) : Prop :=
  (numQuad = "LEGENDRE_NUMPY"%string /\
     exists2 r, leggauss (n.+1 %/ 2)%N = Ok r & exact_rule r (2 * (n.+1 %/ 2) - 1)) \/
  (numQuad = "LEGENDRE_SCIPY"%string /\
     exists2 r, roots_legendre (n.+1 %/ 2)%N = Ok r & exact_rule r (2 * (n.+1 %/ 2) - 1)) \/
  (numQuad = "FEJER"%string /\
     exists2 r, fejer (if odd n then n else n.-1) = Ok r &
       exact_rule r (if odd n then n else n.-1)).

End Spec.
