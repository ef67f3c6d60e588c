(* Vocabulary used to state the properties of the QDelta matrices. *)
From mathcomp Require Import all_ssreflect all_algebra.
From Verif.Base Require Import Arr.
Set Implicit Arguments.
Unset Strict Implicit.
Unset Printing Implicit Defensive.
Import GRing.Theory Num.Theory Order.TTheory.
Local Open Scope ring_scope.

(* powers of a square matrix of any size *)
Definition mpow (R : ringType) n (N : 'M[R]_n) (k : nat) : 'M[R]_n := iter k (mulmx N) 1%:M.

Section Spec.
Variable F : realFieldType.
Implicit Types (A : seq (seq F)) (v : seq F).

(* length of the step that ends at node j *)
Definition step (nodes : seq F) (tLeft : F) (j : nat) : F :=
  nth 0 nodes j - (if j is k.+1 then nth 0 nodes k else tLeft).

(* A is the diagonal matrix with diagonal v *)
Definition is_diag A v : Prop := is_shape A (size v) (size v) /\
  forall i j, (i < size v)%N -> (j < size v)%N -> ent A i j = if i == j then nth 0 v i else 0.

(* applied to the constant 1, QDelta and dTau together integrate from tLeft to each node *)
Definition consistent A (dTau nodes : seq F) (tLeft : F) : Prop :=
  size dTau = size nodes /\ is_shape A (size nodes) (size nodes) /\
  forall i, (i < size nodes)%N -> vsum (nth [::] A i) + nth 0 dTau i = nth 0 nodes i - tLeft.
End Spec.
