(* Vocabulary for the properties of qmat/utils/num.py. *)
From Verif.Base Require Import Str.
From mathcomp Require Import all_ssreflect all_algebra.
From Verif.Base Require Import Outcome Arr Ext.
Set Implicit Arguments.
Unset Strict Implicit.
Unset Printing Implicit Defensive.
Import GRing.Theory Num.Theory Order.TTheory.
Local Open Scope ring_scope.

Section Spec.
Variable F : realFieldType.

(* log is the inverse of an exponential function, sqrt the non-negative square root *)
Definition log_laws (flog fexp : F -> F) : Prop :=
  [/\ forall x y, fexp (x + y) = fexp x * fexp y, forall x, 0 < x -> fexp (flog x) = x
    & forall y, 0 < fexp y /\ flog (fexp y) = y].
Definition sqrt_laws (fsqrt : F -> F) : Prop := forall x, 0 <= x -> 0 <= fsqrt x /\ fsqrt x ^+ 2 = x.

(* real powers of positive numbers *)
Definition rpow (flog fexp : F -> F) (x p : F) : F := fexp (p * flog x).

(* sum of the squared deviations of the points (x_i, y_i) from the line y = a + b x *)
Definition deviation (x y : seq F) (a b : F) : F :=
  \sum_(i < size x) (nth 0 y i - (a + b * nth 0 x i)) ^+ 2.

(* sum of the squared deviations of a polynomial from values at nodes *)
Definition misfit (nodes v : seq F) (q : {poly F}) : F :=
  \sum_(i < size nodes) (nth 0 v i - q.[nth 0 nodes i]) ^+ 2.

(* positive numbers, not all equal *)
Definition steps_ok (nSteps : seq F) : Prop :=
  all (fun n => 0 < n) nSteps /\ exists i j, [/\ (i < size nSteps)%N, (j < size nSteps)%N & nth 0 nSteps i <> nth 0 nSteps j].
End Spec.
