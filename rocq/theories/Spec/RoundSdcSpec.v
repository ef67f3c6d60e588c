(* Vocabulary for SDC in rounded arithmetic. *)
From mathcomp Require Import all_ssreflect all_algebra.
From Verif.Base Require Import Arr.
From Verif.Spec Require Import QCoeffSpec RoundSolveSpec.
Set Implicit Arguments.
Unset Strict Implicit.
Unset Printing Implicit Defensive.
Import GRing.Theory Num.Theory Order.TTheory.
Local Open Scope ring_scope.

Section Spec.
Variable K : numFieldType.
(* u unit roundoff, ed and es errors of inner products and of the solver, n + g bounds the size of
   the matrices I - z QDelta, beta their inverses, m bounds |z| |Q - QDelta| *)
(* error of the right-hand side relative to the moduli of its terms *)
Definition rhs_err (u ed : K) : K := (1 + u) ^+ 5 * (1 + ed) - 1.
(* rounding error of one sweep relative to the same *)
Definition sweep_err (u ed es g beta : K) (n : nat) : K :=
  let q := stage_err u es (n%:R + g) beta in beta * (rhs_err u ed + q) / (1 - q).
(* factor of the error by one exact and by one computed sweep *)
Definition sweep_rate (m beta : K) : K := m * beta.
Definition rounded_rate (u ed es g beta m : K) (n : nat) : K :=
  m * (beta + sweep_err u ed es g beta n).
(* distance of the node values to the collocation solution after k computed sweeps, relative to
   the initial value: the initial distance decreases with the power of the rate, the rounding
   errors stay below a bound independent of k *)
Definition nodes_err (u ed es g beta m : K) (n k : nat) : K :=
  let r := sweep_rate m beta in let r' := rounded_rate u ed es g beta m n in
  n%:R * (r' ^+ k * (1 + beta / (1 - r)) + sweep_err u ed es g beta n / ((1 - r) * (1 - r'))).
(* error of a step: value at the last node, or update with weights of sum W of moduli *)
Definition sdc_step_err (u ed es g beta m z : K) (W : option K) (n k : nat) : K :=
  let e := nodes_err u ed es g beta m n k in
  if W is Some W then
    let c := beta * n%:R / (1 - sweep_rate m beta) in
    u + `|z| * W * (((1 + u) ^+ 4 * (1 + ed) - 1) * (c + e) + e)
  else e.
(* amplification factor of the collocation method: with weights, or value at the last node *)
Definition coll_factor (n : nat) (Q : seq (seq K)) (w : option (seq K)) (z : K) : K :=
  if w is Some w then stabf n Q w z else last 0 (lcv (invmx (stagemx n Q z) *m const_mx 1 : 'cV_n)).
(* a sweep matrix with the bounds above *)
Definition sweep_bounds (n : nat) (z beta g m : K) (Q QD : seq (seq K)) : Prop :=
  [/\ is_shape QD n n, inverse_bound (stagemx n QD z) beta, `|z| * mnorm QD <= g &
      `|z| * mnorm (msub Q QD) <= m].
(* rounding errors alone after any number of sweeps *)
Definition sweeps_round (u ed es g beta m : K) (n : nat) : K :=
  let r := sweep_rate m beta in let r' := rounded_rate u ed es g beta m n in
  n%:R * sweep_err u ed es g beta n * ((1 - r')^-1 + m) / (1 - r).
End Spec.
