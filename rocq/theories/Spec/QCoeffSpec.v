(* Vocabulary used to state the properties of the Q-coefficient generators:
   stability function, rooted trees and order conditions. *)
From mathcomp Require Import all_ssreflect all_algebra.
From Verif.Base Require Import Arr.
Set Implicit Arguments.
Unset Strict Implicit.
Unset Printing Implicit Defensive.
Import GRing.Theory Num.Theory Order.TTheory.
Local Open Scope ring_scope.

Section Stability.
Variable K : fieldType.
(* I - z A *)
Definition stagemx (n : nat) (A : seq (seq K)) (z : K) : 'M[K]_n := 1%:M - z *: mxl n n A.
(* R(z) = 1 + z b^T (I - z A)^{-1} 1 *)
Definition stabf (n : nat) (A : seq (seq K)) (b : seq K) (z : K) : K :=
  1 + z * (rvl n b *m invmx (stagemx n A z) *m const_mx 1 : 'M_1) 0 0.
(* b^T A^k 1 *)
Definition moment (n : nat) (A : seq (seq K)) (b : seq K) (k : nat) : K :=
  (rvl n b *m (iter k (mulmx (mxl n n A)) (const_mx 1 : 'cV_n))) 0 0.
(* truncated exponential series of degree p *)
Definition expser (p : nat) (z : K) : K := \sum_(k < p.+1) z ^+ k / (k`!)%:R.
End Stability.

(* sum of the moduli of all entries, of a matrix or of a vector *)
Definition mnorm (K : numFieldType) (A : seq (seq K)) : K :=
  \sum_(r <- A) \sum_(a <- r) `|a|.
Definition vnorm1 (K : numFieldType) (b : seq K) : K := \sum_(a <- b) `|a|.

(* Rooted trees: a node with the list of its subtrees *)
Inductive tree := Node of seq tree.

Fixpoint tsize (t : tree) : nat :=
  let: Node s := t in (foldr addn 0%N (map tsize s)).+1.
(* density: product of the sizes of all subtrees *)
Fixpoint tdens (t : tree) : nat :=
  let: Node s := t in ((foldr addn 0%N (map tsize s)).+1 * foldr muln 1%N (map tdens s))%N.

Section OrderConditions.
Variable R : ringType.
(* stage weights of a tree: for the root with subtrees t1..tk the componentwise product
   of A Phi(t1), ..., A Phi(tk) *)
Fixpoint stagew (n : nat) (A : seq (seq R)) (t : tree) : seq R :=
  let: Node s := t in
  foldr (fun v acc => [seq p.1 * p.2 | p <- zip v acc]) (nseq n 1)
        (map (fun t' => mv A (stagew n A t')) s).
(* elementary weight *)
Definition elemw (A : seq (seq R)) (b : seq R) (t : tree) : R := dot b (stagew (size b) A t).
End OrderConditions.

(* the method (A, b) satisfies the order conditions up to order p within eps *)
Definition order_cond (K : numFieldType) (A : seq (seq K)) (b : seq K) (p : nat) (eps : K) : Prop :=
  forall t : tree, (tsize t <= p)%N -> `|elemw A b t - ((tdens t)%:R)^-1| <= eps.
