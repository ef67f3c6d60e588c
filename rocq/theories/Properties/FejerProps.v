(* Property C07: computeFejerRule (qmat/lagrange.py), and what it gives for LagrangeApproximation
   on real numbers. *)
From Coq Require Import Reals.
From Verif.Base Require Import Str.
From mathcomp Require Import all_ssreflect all_algebra ring zify.
From Verif.Base Require Import RField Outcome Arr Ext PolyInterp PolyInt.
From Verif.Model Require Import Lagrange Fejer.
From Verif.Spec Require Import LagrangeSpec.
From Verif.Proofs Require Import LagrangeP LagrangeInit LagrangeThms ChebP FejerP.
From Verif.Properties Require Import LagrangeProps.
Set Implicit Arguments.
Unset Strict Implicit.
Unset Printing Implicit Defensive.
Import GRing.Theory Num.Theory Order.TTheory.
Local Open Scope ring_scope.
Bind Scope ring_scope with R.
Notation RF := r_realFieldType.

(* never raises for n >= 1; exact for degree < n, and for degree n when n is odd *)
Theorem C07_exact n : (0 < n)%N ->
  exists2 r, computeFejerRule n = Ok r &
    [/\ size r.1 = n, exact_rule (F := RF) r n.-1 & odd n -> exact_rule (F := RF) r n].
Proof.
move=> n0; exists (fejer_nodes n, mkseq (wt n) n); first exact: fejer_ok.
have ex d : (d.+1 <= n + odd n)%N -> exact_rule (F := RF) (fejer_nodes n, mkseq (wt n) n) d.
  move=> dn; split; first by rewrite size_mkseq size_nodes.
  move=> P sP; rewrite [size _]size_nodes -pint_deriv -(fejer_quad n0); last first.
    apply: leq_trans dn; case: (P =P 0) => [->|/eqP nz]; first by rewrite deriv0 size_poly0.
    by rewrite -ltnS (leq_trans (lt_size_deriv nz)).
  by apply: eq_bigr => i _; rewrite nth_mkseq.
split; first exact: size_nodes.
- by apply: ex; rewrite prednK // leq_addr.
by move=> on; apply: ex; rewrite on addn1.
Qed.

Theorem C07_nodes n : (0 < n)%N ->
  exists2 r, computeFejerRule n = Ok r &
    [/\ sorted <%O r.1, all (fun x : RF => -1 < x < 1) r.1 &
        forall i, (i < n)%N -> nth 0 r.1 (n - i.+1) = - nth 0 r.1 i].
Proof.
move=> n0; exists (fejer_nodes n, mkseq (wt n) n); first exact: fejer_ok.
split; first exact: nodes_sorted.
  by apply/(all_nthP 0) => i; rewrite size_nodes => il; apply: nodes_range.
by move=> i il; apply: nodes_sym.
Qed.

Theorem C07_weights n : (0 < n)%N ->
  exists2 r, computeFejerRule n = Ok r &
    [/\ size r.2 = n, vsum r.2 = (2%:R : RF), all (fun w : RF => 0 < w) r.2 & rev r.2 = r.2].
Proof.
move=> n0; exists (fejer_nodes n, mkseq (wt n) n); first exact: fejer_ok.
split; first exact: size_mkseq.
- rewrite (vsum_mkseq (wt n) n).
  have := @fejer_quad n n0 1; rewrite size_poly1 addn_gt0 n0 => /(_ isT) e.
  rewrite (eq_bigr (fun i : 'I_n => wt n i * (1 : {poly RF}).[nth 0 (fejer_nodes n) i])); last first.
    by move=> i _; rewrite hornerC mulr1.
  by rewrite e (@pintE _ _ 'X) ?derivX // !hornerX; ring.
- by apply/(all_nthP 0) => i; rewrite size_mkseq => il; rewrite nth_mkseq //; apply: wt_gt0.
apply: (@eq_from_nth _ 0); rewrite size_rev size_mkseq // => i il.
rewrite nth_rev ?size_mkseq // !nth_mkseq //; last by lia.
exact: wt_rev.
Qed.

Theorem C07_no_points n : n <= 0 -> exists e, computeFejerRule n = Raise e.
Proof. by case: n => [[|n]|n] //= _; eexists. Qed.

(* the FEJER option of getIntegrationMatrix needs no assumption on the rule *)
Theorem C07_meets_contract lg rl n : (0 < n)%N ->
  rules_ok (F := RF) lg rl (fun k => computeFejerRule k) n "FEJER".
Proof.
move=> n0; right; right; split=> //.
set k := if odd n then n else n.-1.
have ok : odd k by rewrite /k; case: ifP => // on; case: n n0 on {k} => //= n _ /negbFE.
have k0 : (0 < k)%N by case: (k) ok.
by have [r e [_ _ h]] := C07_exact k0; exists r => //; apply: h.
Qed.

Lemma r_exp_log : exp_log (F := RF) ln exp.
Proof.
split; first by move=> x y; rewrite -[x + y]/(Rplus x y) exp_plus.
by move=> x /rltE x0; apply: exp_ln.
Qed.

(* LagrangeApproximation on real numbers, with the real log and exp and the Fejer rule: the only
   hypotheses left are on the points and the settings *)
Theorem C07_lagrange_integration lg rl (underflow : seq RF -> bool) (pts : seq RF) wc sw sr d ivs :
  points_ok pts d -> setting_ok pts wc sr ->
  exists2 self, lagrange_init ln exp underflow pts wc sw sr d None = Ok self &
  exists2 M, getIntegrationMatrix lg rl (fun k => computeFejerRule k) self ivs "FEJER" true = Ok (fmat M) &
    is_shape M (size ivs) (size pts) /\
    forall P : {poly RF}, (size P <= (ndist pts).+1)%N ->
      mv M (pvals P^`() pts) = [seq P.[ab.2] - P.[ab.1] | ab <- ivs].
Proof.
move=> hp hs; have ok : points_ok pts d /\ setting_ok pts wc sr /\ logs_ok (F := RF) ln exp underflow pts wc.
  by split=> //; split=> //; right; right; apply: r_exp_log.
have [self e _] := C01_interpolation_exact sw [::] ok; exists self => //.
apply: (C05_integration_exact _ ok e); apply: C07_meets_contract.
by case: hp.
Qed.

Lemma fejer_facts (n : nat) : (0 < n)%N -> exists x w : seq RF, [/\ computeFejerRule n = Ok (x, w),
  size x = n, size w = n /\ vsum w = 2%:R, rev w = w &
  forall i, (i < n)%N -> nth 0 x (n - i.+1) = - nth 0 x i].
Proof.
move=> n0; have [r e [sz s _ rv]] := C07_weights n0.
have [r1 e1 [_ _ sym]] := C07_nodes n0; have [r2 e2 [sz2 _ _]] := C07_exact n0.
move: e1 e2; rewrite {}e => -[er1] [er2].
by exists r.1, r.2; rewrite -surjective_pairing; split=> //; [rewrite er2|move=> i; rewrite er1; apply: sym].
Qed.

Lemma double0 (x : RF) : x = - x -> x = 0.
Proof. by move=> /eqP; rewrite -addr_eq0 -mulr2n mulrn_eq0 /= => /eqP. Qed.

Example C07_one : computeFejerRule 1 = Ok ([:: 0], [:: 2%:R]).
Proof.
have [x [w [-> sx [sw s] _ sym]]] := fejer_facts (isT : (0 < 1)%N).
case: x sx sym => [|x [|//]] //= _ /(_ 0%N isT) /= /double0 ->.
by case: w sw s => [|a [|//]] //= _; rewrite /vsum /= addr0 => ->.
Qed.

Example C07_two : exists x : RF, computeFejerRule 2 = Ok ([:: - x; x], [:: 1; 1]).
Proof.
have [x [w [-> sx [sw s] rv sym]]] := fejer_facts (isT : (0 < 2)%N).
case: x sx sym => [|x [|y [|//]]] //= _ /(_ 1%N isT) /= ->; exists y.
case: w sw s rv => [|a [|b [|//]]] //= _; rewrite /vsum /= addr0 => s [ba _].
move: s; rewrite ba -mulr2n => /eqP.
by rewrite -subr_eq0 -mulrnBl mulrn_eq0 /= subr_eq0 => /eqP ->.
Qed.

Example C07_integration_instance : points_ok (F := RF) [:: 0; 1; 2%:R] "USE_LEFT" /\
  setting_ok (F := RF) [:: 0; 1; 2%:R] "AUTO" "MAX".
Proof.
split; first by split=> //; left; rewrite /= ltr01 ltr1n.
by right; left; split; [left|right].
Qed.

Print Assumptions C07_exact.
Print Assumptions C07_nodes.
Print Assumptions C07_weights.
Print Assumptions C07_no_points.
Print Assumptions C07_meets_contract.
Print Assumptions C07_lagrange_integration.
