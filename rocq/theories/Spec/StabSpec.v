(* Vocabulary used to state the stability properties of collocation methods. *)
From Verif.Base Require Import Str.
From mathcomp Require Import all_ssreflect all_algebra.
From Verif.Base Require Import Outcome Arr Ext.
From Verif.Model Require Import QGen.
Set Implicit Arguments.
Unset Strict Implicit.
Unset Printing Implicit Defensive.
Import GRing.Theory Num.Theory Order.TTheory.
Local Open Scope ring_scope.

Section Spec.
Variable K : fieldType.
(* the polynomial that vanishes at the given points *)
Definition node_poly (xs : seq K) : {poly K} := \prod_(x <- xs) ('X - x%:P).
(* sum_{k<=M} N^(k)(t) z^(M-k), N the polynomial of the M points *)
Definition stab_sum (xs : seq K) (z t : K) : K :=
  \sum_(k < (size xs).+1) z ^+ (size xs - k) * (node_poly xs)^`(k).[t].
(* every step of the solver of u' = lam u with lam dt = z multiplies the solution by R *)
Definition step_factor (nodes w : seq K) (Q : seq (seq K)) (z R : K) : Prop :=
  forall we lam u0 tEnd (N : nat), lam * (tEnd / N.+1%:R) = z ->
    solveDahlquist nodes w we Q lam u0 tEnd (Posz N.+1) false =
    Ok (mkseq (fun i => R ^+ i * u0) N.+2).
(* no step can be computed *)
Definition step_fails (nodes w : seq K) (Q : seq (seq K)) (z : K) : Prop :=
  forall we lam u0 tEnd (N : nat), lam * (tEnd / N.+1%:R) = z ->
    solveDahlquist nodes w we Q lam u0 tEnd (Posz N.+1) false = Raise LinAlgError.
End Spec.
