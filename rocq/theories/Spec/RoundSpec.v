(* Vocabulary for rounded arithmetic. *)
From mathcomp Require Import all_ssreflect all_algebra.
From Verif.Model Require Import Rounded.
Set Implicit Arguments.
Unset Strict Implicit.
Unset Printing Implicit Defensive.
Import GRing.Theory Num.Theory Order.TTheory.
Local Open Scope ring_scope.

Section Spec.
Variable F : realFieldType.

(* the standard model of floating-point arithmetic: relative error at most u, and 1 and
   numbers already rounded are not changed *)
Definition std_model (u : F) (rnd : F -> F) : Prop :=
  [/\ 0 <= u < 1, forall x, `|rnd x - x| <= u * `|x|, rnd 1 = 1 & forall x, rnd (rnd x) = rnd x].

(* every entry is used exactly once, in any order *)
Definition any_order (tr : nat -> stree) : Prop :=
  forall n, (0 < n)%N -> perm_eq (leaves (tr n)) (iota 0 n).

(* the usual bound of k relative errors of size u *)
Definition gam (u : F) (k : nat) : F := k%:R * u / (1 - k%:R * u).

(* Lagrange basis polynomials and the Lebesgue function of a list of points *)
Definition lbasis (pts : seq F) (j : nat) (t : F) : F :=
  \prod_(k < size pts | k != j :> nat) ((t - nth 0 pts k) / (nth 0 pts j - nth 0 pts k)).
Definition lebesgue (pts : seq F) (t : F) : F := \sum_(j < size pts) `|lbasis pts j t|.

(* the basis polynomials as polynomials, and their derivatives at the points *)
Definition lpoly (pts : seq F) (j : nat) : {poly F} :=
  \prod_(k < size pts | k != j :> nat) ((nth 0 pts j - nth 0 pts k)^-1 *: ('X - (nth 0 pts k)%:P)).
Definition ld1 (pts : seq F) (i j : nat) : F := (lpoly pts j)^`().[nth 0 pts i].
Definition ld2 (pts : seq F) (i j : nat) : F := (lpoly pts j)^`()^`().[nth 0 pts i].
(* magnitude of the terms that are added up in row i of the derivative matrices *)
Definition dmag1 (pts : seq F) (i : nat) : F := \sum_(j < size pts | j != i :> nat) `|ld1 pts i j|.
Definition dmag2 (pts : seq F) (i j : nat) : F :=
  2%:R * `|ld1 pts i j| * (`|nth 0 pts i - nth 0 pts j|^-1 + dmag1 pts i).
End Spec.
