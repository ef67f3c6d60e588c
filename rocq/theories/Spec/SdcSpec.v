(* Vocabulary used to state the properties of spectral deferred corrections on u' = lam u. *)
From Verif.Base Require Import Str.
From mathcomp Require Import all_ssreflect all_algebra.
From Verif.Base Require Import Arr.
From Verif.Spec Require Import QCoeffSpec.
Set Implicit Arguments.
Unset Strict Implicit.
Unset Printing Implicit Defensive.
Import GRing.Theory Num.Theory Order.TTheory.
Local Open Scope ring_scope.

Section Spec.
Variables (K : fieldType) (n : nat) (Q : seq (seq K)).

(* v solves the collocation problem v = u + z Q v *)
Definition collocation (z u : K) (v : 'cV[K]_n) : Prop := v = const_mx u + z *: (mxl n n Q *m v).
(* what is missing for it *)
Definition residual (z u : K) (v : 'cV[K]_n) : 'cV[K]_n := const_mx u + z *: (mxl n n Q *m v) - v.

(* QD i is the matrix of sweep i *)
Variable QD : nat -> seq (seq K).

(* node values after k sweeps from the initial value 1 copied to the nodes:
   (I - z QD_k) v_{k+1} = 1 + z (Q - QD_k) v_k *)
Fixpoint sdcv (z : K) (k : nat) : 'cV[K]_n :=
  if k is j.+1 then
    invmx (stagemx n (QD j) z) *m
      (const_mx 1 + z *: ((mxl n n Q - mxl n n (QD j)) *m sdcv z j))
  else const_mx 1.

(* amplification factor of one time-step: update with weights or value at the last node *)
Definition sdcR (w : option (seq K)) (z : K) (k : nat) : K :=
  if w is Some w then 1 + z * (rvl n w *m sdcv z k) 0 0 else last 0 (lcv (sdcv z k)).

(* coefficients of the expansion of the node values in powers of z *)
Fixpoint sdc_row (D : 'M[K]_n) (prev : nat -> 'cV[K]_n) (d : nat) : 'cV[K]_n :=
  if d is e.+1 then D *m sdc_row D prev e + (mxl n n Q - D) *m prev e else const_mx 1.
Fixpoint sdc_coef (k : nat) : nat -> 'cV[K]_n :=
  if k is j.+1 then sdc_row (mxl n n (QD j)) (sdc_coef j)
  else fun d => if d is 0%N then const_mx 1 else 0.
(* and of the amplification factor *)
Definition step_coef (w : option (seq K)) (k d : nat) : K :=
  if w is Some w then if d is e.+1 then (rvl n w *m sdc_coef k e) 0 0 else 1
  else last 0 (lcv (sdc_coef k d)).
End Spec.

(* f agrees with g up to degree p at zero *)
Definition agrees (K : numFieldType) (f g : K -> K) (p : nat) : Prop :=
  exists C delta, 0 < delta /\ forall z, `|z| <= delta -> `|f z - g z| <= C * `|z| ^+ p.+1.
