(* Vocabulary for the solution of the Dahlquist problem in rounded arithmetic. *)
From mathcomp Require Import all_ssreflect all_algebra.
From Verif.Base Require Import Arr.
From Verif.Spec Require Import QCoeffSpec.
Set Implicit Arguments.
Unset Strict Implicit.
Unset Printing Implicit Defensive.
Import GRing.Theory Num.Theory Order.TTheory.
Local Open Scope ring_scope.

Section Spec.
Variable K : numFieldType.

(* the relative error of an operation is at most u *)
Definition op_near (u : K) (op exact : K -> K -> K) : Prop :=
  forall a b, `|op a b - exact a b| <= u * `|exact a b|.

(* an inner product computed in any order, with or without fused operations *)
Definition dot_near (ed : K) (cdot : seq K -> seq K -> K) : Prop :=
  forall a b, size a = size b ->
    `|cdot a b - dot a b| <= ed * \sum_(i < size a) `|nth 0 a i * nth 0 b i|.

(* a backward stable solver: the result solves a system whose matrix differs by at most es in
   the norm of the entries, and it succeeds when all these matrices are invertible *)
Definition backward_stable (es : K) (csolve : seq (seq K) -> seq K -> option (seq K)) : Prop :=
  forall n A b, is_shape A n n -> size b = n ->
  (forall s, csolve A b = Some s -> size s = n /\
     exists E, [/\ is_shape E n n, mnorm E <= es * mnorm A &
                   (mxl n n A + mxl n n E) *m cvl n s = cvl n b]) /\
  ((forall E, is_shape E n n -> mnorm E <= es * mnorm A -> mxl n n A + mxl n n E \in unitmx) ->
     csolve A b <> None).

(* beta bounds the inverse of A in the sum norm *)
Definition inverse_bound n (A : 'M[K]_n) (beta : K) : Prop :=
  forall x : 'cV_n, \sum_i `|x i 0| <= beta * \sum_i `|(A *m x) i 0|.

(* error of one step relative to its initial value: u unit roundoff, ed and es as above,
   a = n + |z| |Q| the size of the stage matrix, W the sum of the moduli of the weights *)
Definition stage_err (u es a beta : K) : K := beta * (((1 + es) * (1 + u) ^+ 4 - 1) * a).
Definition step_err (u ed es a beta W z : K) (n : nat) : K :=
  let q := stage_err u es a beta in
  u + `|z| * W * (beta * n%:R / (1 - q)) * ((1 + u) ^+ 4 * (1 + ed) - 1 + q).
End Spec.
