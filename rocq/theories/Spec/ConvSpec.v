(* Vocabulary used to state convergence: the complex numbers over R and their exponential. *)
From Coq Require Import Reals.
From Verif.Base Require Import Str.
From mathcomp Require Import all_ssreflect all_algebra complex.
From Verif.Base Require Import RField RRcf Outcome.
Set Implicit Arguments.
Unset Strict Implicit.
Unset Printing Implicit Defensive.
Import GRing.Theory Num.Theory Order.TTheory.
Local Open Scope ring_scope.

Notation CC := (complex_numClosedFieldType r_rcfType).
(* exp(a + i b) = exp a (cos b + i sin b) *)
Definition cexp (z : CC) : CC :=
  let: Complex a b := z in Complex (exp a * cos b : R) (exp a * sin b).
(* a real number as a complex one *)
Notation toC := (ComplexField.real_complex_rmorphism r_realFieldType : {rmorphism _ -> CC}).

(* err N is the outcome with N steps: defined for large N and at most a constant times 1/N^p *)
Definition converges (err : nat -> outcome CC) (p : nat) : Prop := exists (hi : R) (N0 : nat),
  forall N, (N0 <= N)%N -> exists2 e, err N = Ok e & e <= toC (hi / N%:R ^+ p).
(* ... and, moreover, at least a positive constant times 1/N^p *)
Definition exact_rate (err : nat -> outcome CC) (p : nat) : Prop := exists (lo hi : R) (N0 : nat),
  0 < lo /\ forall N, (N0 <= N)%N -> exists2 e, err N = Ok e & toC (lo / N%:R ^+ p) <= e <= toC (hi / N%:R ^+ p).
