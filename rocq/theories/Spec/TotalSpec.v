(* Vocabulary for the total error of the Dahlquist solver. *)
From mathcomp Require Import all_ssreflect all_algebra.
From Verif.Base Require Import Arr.
From Verif.Spec Require Import QCoeffSpec RoundSolveSpec.
Set Implicit Arguments.
Unset Strict Implicit.
Unset Printing Implicit Defensive.
Import GRing.Theory Num.Theory Order.TTheory.
Local Open Scope ring_scope.

(* an arithmetic of accuracy e: the operations, the inner products and the solver *)
Record arith (K : numFieldType) := Arith {
  ar_add : K -> K -> K; ar_sub : K -> K -> K; ar_mul : K -> K -> K; ar_div : K -> K -> K;
  ar_dot : seq K -> seq K -> K; ar_solve : seq (seq K) -> seq K -> option (seq K) }.
Definition accurate (K : numFieldType) (e : K) (a : arith K) : Prop :=
  [/\ op_near e (ar_add a) +%R, op_near e (ar_sub a) (fun x y => x - y),
      op_near e (ar_mul a) *%R /\ op_near e (ar_div a) (fun x y => x / y),
      dot_near e (ar_dot a) & backward_stable e (ar_solve a)].
