(* Vocabulary for the effect of inexact coefficients on the Dahlquist problem. *)
From mathcomp Require Import all_ssreflect all_algebra.
From Verif.Base Require Import Arr.
From Verif.Spec Require Import QCoeffSpec RoundSolveSpec.
Set Implicit Arguments.
Unset Strict Implicit.
Unset Printing Implicit Defensive.
Import GRing.Theory Num.Theory Order.TTheory.
Local Open Scope ring_scope.

Section Spec.
Variable K : numFieldType.
(* the coefficients differ by at most eQ and ew in the sum of the moduli of the entries *)
Definition coeffs_near (n : nat) (eQ ew : K) (Q Q' : seq (seq K)) (w w' : option (seq K)) : Prop :=
  [/\ is_shape Q n n, is_shape Q' n n, mnorm (msub Q' Q) <= eQ &
      match w, w' with
      | Some b, Some b' => [/\ size b = n, size b' = n & vnorm1 (vsub b' b) <= ew]
      | None, None => (0 < n)%N
      | _, _ => False
      end].
(* bound of the inverse of the perturbed stage matrix, from the bound beta of the original one *)
Definition pert_beta (eQ beta z : K) : K := beta / (1 - beta * `|z| * eQ).
(* change of the amplification factor; W the sum of the moduli of the weights *)
Definition factor_err (eQ ew beta z : K) (W : option K) (n : nat) : K :=
  let x := pert_beta eQ beta z * n%:R in
  if W is Some W then `|z| * (ew + W * (beta * `|z| * eQ)) * x else beta * `|z| * eQ * x.
End Spec.
