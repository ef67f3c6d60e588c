(* Contract of scipy.linalg.eigh_tridiagonal, and the three-term recurrence. *)
From Verif.Base Require Import Str.
From mathcomp Require Import all_ssreflect all_algebra.
From Verif.Base Require Import Outcome Arr.
From Verif.Model Require Import Nodes.
Set Implicit Arguments.
Unset Strict Implicit.
Unset Printing Implicit Defensive.
Import GRing.Theory Num.Theory Order.TTheory.
Local Open Scope ring_scope.

(* node types with an orthogonal family; end points required by a quadrature type *)
Definition ORTHO : seq string := [:: "LEGENDRE"; "CHEBY-1"; "CHEBY-2"; "CHEBY-3"; "CHEBY-4"]%string.
Definition has_left (qt : string) : bool := qt \in [:: "LOBATTO"; "RADAU-LEFT"]%string.
Definition has_right (qt : string) : bool := qt \in [:: "LOBATTO"; "RADAU-RIGHT"]%string.
Definition least_nodes (qt : string) : nat := if has_left qt then 2%N else 1%N.
(* mirror image x -> -x *)
Definition mirror_nt (nt : string) : string := if nt == "CHEBY-3"%string then "CHEBY-4"%string
  else if nt == "CHEBY-4"%string then "CHEBY-3"%string else nt.
Definition mirror_qt (qt : string) : string := if qt == "RADAU-LEFT"%string then "RADAU-RIGHT"%string
  else if qt == "RADAU-RIGHT"%string then "RADAU-LEFT"%string else qt.

Section Spec.
Variable F : fieldType.
(* symmetric tridiagonal matrix with diagonal d and off-diagonal e *)
Definition tri_mx (n : nat) (d e : seq F) : 'M[F]_n :=
  \matrix_(i, j) if (i : nat) == j then nth 0 d i
                 else if (j : nat) == i.+1 then nth 0 e i
                 else if (i : nat) == j.+1 then nth 0 e j else 0.
(* w holds the eigenvalues: for some basis V of eigenvectors, T V = V diag(w).  (scipy even
   promises an orthonormal basis.) *)
Definition eig_ok (d e w : seq F) : Prop := size w = size d /\
  exists V : 'M[F]_(size d), V \in unitmx /\
    tri_mx (size d) d e *m V = V *m diag_mx (rvl (size d) w).

(* Legendre and Chebyshev polynomials of the first to fourth kind, by their usual recurrences *)
Definition clas1 (nt : string) : {poly F} :=
  if nt == "CHEBY-2"%string then 2%:R *: 'X
  else if nt == "CHEBY-3"%string then 2%:R *: 'X - 1
  else if nt == "CHEBY-4"%string then 2%:R *: 'X + 1 else 'X.
Fixpoint clasp (nt : string) (k : nat) : {poly F} * {poly F} :=
  match k with
  | 0 => (0, 1)
  | k'.+1 => let: (p, q) := clasp nt k' in
    (q, if k' == 0%N then clas1 nt
        else if nt == "LEGENDRE"%string then
          (k%:R)^-1 *: ((2 * k' + 1)%:R *: ('X * q) - k'%:R *: p)
        else 2%:R *: ('X * q) - p)
  end.
Definition clas nt k := (clasp nt k).2.

(* monic polynomials of the recurrence p_{k+1} = (x - a_k) p_k - b_k p_{k-1} *)
Fixpoint opp (a b : nat -> F) (k : nat) : {poly F} * {poly F} :=
  if k is k'.+1 then let: (p, q) := opp a b k' in (q, ('X - (a k')%:P) * q - (b k')%:P * p)
  else (0, 1).
Definition op (a b : nat -> F) (k : nat) : {poly F} := (opp a b k).2.
End Spec.

(* contract of the eigenvalue solver and the square root for one set of coefficients *)
Section Contract.
Variable F : realFieldType.
Definition eig_contract (fpi : F) (eigh : seq F -> seq F -> seq F) (fsqrt : F -> F)
    (self : nodesgen) (n : nat) : Prop := forall alpha beta,
  getTridiagCoefficients fpi self n = Ok (alpha, beta) ->
  (forall x, x \in behead beta -> fsqrt x ^+ 2 = x) /\
  eig_ok alpha (map fsqrt (behead beta)) (eigh alpha (map fsqrt (behead beta))).
End Contract.
