(* Vocabulary used to state the properties of sweeps from node to node. *)
From mathcomp Require Import all_ssreflect all_algebra.
From Verif.Base Require Import Arr.
Set Implicit Arguments.
Unset Strict Implicit.
Unset Printing Implicit Defensive.
Import GRing.Theory.
Local Open Scope ring_scope.

Section Spec.
Variable K : fieldType.
(* the value at the node before node m, the value u at the start of the step for the first one *)
Definition before (u : K) (v : seq K) (m : nat) : K := if m is j.+1 then nth 0 v j else u.

(* v' is computed from v node after node, by the coefficients S from node to node and SD:
   v'_m = v'_{m-1} + z sum_j SD_mj (v'_j - v_j) + z sum_j S_mj v_j *)
Definition node_sweep (n : nat) (S SD : seq (seq K)) (z u : K) (v v' : seq K) : Prop :=
  size v' = n /\ forall m, (m < n)%N ->
  nth 0 v' m = before u v' m + z * (\sum_(j < n) ent SD m j * (nth 0 v' j - nth 0 v j))
                             + z * (\sum_(j < n) ent S m j * nth 0 v j).
End Spec.

(* coefficients in a larger field: lam is complex, the matrices are real *)
Definition embed (F K : fieldType) (f : F -> K) (A : seq (seq F)) : seq (seq K) :=
  [seq [seq f x | x <- r] | r <- A].
