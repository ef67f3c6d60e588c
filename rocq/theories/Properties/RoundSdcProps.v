(* Property C85: spectral deferred corrections in rounded arithmetic. *)
From Coq Require Import Reals Lra.
From Verif.Base Require Import Str.
From mathcomp Require Import all_ssreflect all_algebra ring zify.
From Verif.Base Require Import Outcome Arr LinSolve RField Float64.
From Verif.Model Require Import QGen Sdc RoundedSolve RoundedSdc.
From Verif.Spec Require Import QCoeffSpec SdcSpec RoundSpec RoundSolveSpec RoundSdcSpec.
From Verif.Proofs Require Import StabP SdcP RoundSolveP RoundSdcP RoundSdc2P.
From Verif.Properties Require Import RKProps RoundProps RoundSolveProps.
Set Implicit Arguments.
Unset Strict Implicit.
Unset Printing Implicit Defensive.
Import GRing.Theory Num.Theory Order.TTheory.
Local Open Scope ring_scope.

Lemma nat55 n : (55 * n.+1 * 3 <= 2 * (100 * n.+1))%N. Proof. lia. Qed.

Section Sdc.
Variable K : numFieldType.
Variables (u ed es : K).
Variables cadd csub cmul cdiv : K -> K -> K.
Variable cdot : seq K -> seq K -> K.
Variable csolve : seq (seq K) -> seq K -> option (seq K).
Hypotheses (u0 : 0 <= u) (ed0 : 0 <= ed) (es0 : 0 <= es).
Hypotheses (hadd : op_near u cadd +%R) (hsub : op_near u csub (fun a b => a - b)).
Hypotheses (hmul : op_near u cmul *%R) (hdiv : op_near u cdiv (fun a b => a / b)).
Hypotheses (hdot : dot_near ed cdot) (hsol : backward_stable es csolve).
Variables (n : nat) (Q : seq (seq K)) (lam T : K) (N : nat) (w : option (seq K)).
Hypotheses (sQ : is_shape Q n n) (sw : if w is Some w then size w = n else True) (n0 : (0 < n)%N).
Let z := lam * (T / N.+1%:R).
Let z' := cmul lam (cdiv T N.+1%:R).
(* computed node values after the sweeps of a step with initial value v *)
Let nodal v qds := r_sweeps cadd csub cmul cdot csolve n z' v Q qds (nseq n v).
Let run v0 nS QDelta := r_solveDahlquistSDC cadd csub cmul cdiv cdot csolve lam v0 T N.+1%:Z nS Q QDelta w.
Let Rc := coll_factor n Q w z.

Section General.
Variables (qds : seq (seq (seq K))) (beta g m : K).
Hypotheses (b0 : 0 <= beta) (g0 : 0 <= g) (m0 : 0 <= m).
Hypothesis q1 : stage_err u es (n%:R + g) beta < 1.
Hypothesis hq : forall D, D \in qds -> sweep_bounds n z beta g m Q D.
Hypothesis r1 : rounded_rate u ed es g beta m n < 1.

(* rounding errors alone: independent of the number of sweeps *)
Theorem C85_rounding v : exists2 y, nodal v qds = Ok y & size y = n /\
  \sum_i `|(cvl n y - v *: sdcv n Q (nth [::] qds) z (size qds)) i 0| <= sweeps_round u ed es g beta m n * `|v|.
Proof. exact: (sweeps_rounding u0 ed0 es0 hadd hsub hmul hdiv hdot hsol sQ b0 g0 m0 q1 v hq r1). Qed.

Hypothesis s0 : (0 < size qds)%N.
(* distance to the solution of the collocation problem, which exists *)
Theorem C85_nodes v : exists c : 'cV[K]_n, collocation Q z v c /\ (forall d, collocation Q z v d -> d = c) /\
  exists2 y, nodal v qds = Ok y & size y = n /\
  \sum_i `|(cvl n y - c) i 0| <= nodes_err u ed es g beta m n (size qds) * `|v|.
Proof.
have un := Qunit u0 ed0 es0 sQ b0 g0 m0 q1 hq s0 r1.
have ce := c1E u0 ed0 es0 sQ b0 g0 m0 q1 hq s0 r1 v.
exists (v *: (invmx (stagemx n Q z) *m const_mx 1)); split; first exact/collocation_stage.
split=> [d /collocation_stage e|]; first by rewrite -[d](mulKmx un) e -ce mulKmx.
exact: (nodes_near u0 ed0 es0 hadd hsub hmul hdiv hdot hsol sQ b0 g0 m0 q1 hq s0 r1 v).
Qed.

(* the solution against the collocation method *)
Theorem C85_solution v0 (nS : int) QDelta : qd_sweeps n nS QDelta = Ok qds ->
  let kap := sdc_step_err u ed es g beta m z (omap (@vnorm1 K) w) n (size qds) in
  exists2 us, run v0 nS QDelta = Ok us & size us = N.+2 /\ forall i, (i < N.+2)%N ->
    `|nth 0 us i - Rc ^+ i * v0| <= ((`|Rc| + kap) ^+ i - `|Rc| ^+ i) * `|v0|.
Proof.
move=> eq kap; have sz : size Q = n by case/is_shapeP: sQ.
have [us e [su h]] := steps_near u0 ed0 es0 hadd hsub hmul hdiv hdot hsol sQ b0 g0 m0 q1 hq s0 r1 sw n0 v0 N.+1.
exists (v0 :: us); first by rewrite /run /r_solveDahlquistSDC sz eq; move: e; rewrite /= => ->.
split=> [|[|i] il] /=; first by rewrite su.
  by rewrite !expr0 mul1r !subrr mul0r normr0.
exact: h.
Qed.
End General.

(* small steps, all errors at most e *)
Section Small.
Variables (e : K) (qds : seq (seq (seq K))).
Hypotheses (ue : u <= e) (ede : ed <= e) (ese : es <= e) (small : e * (100 * n.+1)%:R <= 1).
Hypothesis hz : forall D, D \in qds -> [/\ is_shape D n n, `|z| * mnorm D <= 2%:R^-1 &
   `|z| * mnorm (msub Q D) <= 8%:R^-1].
Hypothesis s0 : (0 < size qds)%N.
Let k := size qds.
Let E := n%:R * (4%:R / 3%:R ^+ k + 110%:R * n.+1%:R * e).
Let e0 : 0 <= e. Proof. exact: le_trans ue. Qed.
Let e10 : e * 100%:R <= 1.
Proof. by apply: le_trans small; rewrite ler_wpmul2l // ler_nat leq_pmulr. Qed.
Let p j (x y : K) : (2 * j.+1 <= 100)%N -> 0 <= x -> x <= e -> 0 <= y -> y <= e ->
  (1 + x) ^+ j * (1 + y) - 1 <= (2 * j.+1)%:R * e.
Proof.
move=> hj x0 xe y0 ye; apply: le_trans (_ : (1 + e) ^+ j.+1 - 1 <= _).
  rewrite ler_add2r exprSr; apply: ler_pmul; rewrite ?exprn_ge0 ?addr_ge0 ?ler01 ?ler_add2l //.
  by apply: ler_expn2r; rewrite ?nnegrE ?addr_ge0 ?ler01 ?ler_add2l.
apply: (@pw_lin2 K e j.+1) => //; apply: le_trans e10; rewrite mulrC ler_wpmul2l // ler_nat.
by [].
Qed.
Let q := stage_err u es (n%:R + 2%:R^-1) 2%:R.
Let h2 : 0 <= 2%:R^-1 :> K. Proof. by rewrite invr_ge0 ler0n. Qed.
Let h8 : 0 <= 8%:R^-1 :> K. Proof. by rewrite invr_ge0 ler0n. Qed.
Let q20 : q <= e * (20 * n + 10)%:R.
Proof.
apply: le_trans (_ : 2%:R * (10%:R * e * (n%:R + 2%:R^-1)) <= _).
  rewrite /q /stage_err; apply: ler_wpmul2l; first exact: ler0n.
  apply: ler_wpmul2r; first by rewrite addr_ge0 ?ler0n.
  by rewrite [(1 + es) * _]mulrC; apply: (@p 4).
by rewrite le_eqVlt; apply/orP; left; apply/eqP; rewrite natrD natrM; field.
Qed.
Let q5 : q <= 5%:R^-1.
Proof.
apply: (le_trans q20); rewrite -[X in _ <= X]mul1r ler_pdivl_mulr ?ltr0n // -mulrA -natrM.
apply: le_trans small; apply: ler_wpmul2l => //; rewrite ler_nat; exact: nat100.
Qed.
Let q1 : q < 1. Proof. by apply: (le_lt_trans q5); rewrite invf_lt1 ?ltr0n // ltr1n. Qed.
Let q0 : 0 <= q. Proof. by apply: RoundSdcP.q0 => //; rewrite ler0n. Qed.
Let hb D : D \in qds -> sweep_bounds n z 2%:R 2%:R^-1 8%:R^-1 Q D.
Proof.
move=> /hz [sD h1 h3]; split=> // x; apply: (small_bound sD h1).
by rewrite /stagemx mulmxBl mul1mx -scalemxAl subrK.
Qed.
Let del := sweep_err u ed es 2%:R^-1 2%:R n.
Let del0 : 0 <= del. Proof. by apply: RoundSdcP.del0 => //; rewrite ler0n. Qed.
Let del55 : del <= 55%:R * n.+1%:R * e.
Proof.
have g12 : rhs_err u ed <= 12%:R * e by apply: (@p 5).
have p1 : 0 < 1 - q by rewrite subr_gt0.
have i54 : (1 - q)^-1 <= 5%:R / 4%:R.
  rewrite -[X in _ <= X]invrK lef_pinv ?posrE ?invr_gt0 ?divr_gt0 ?ltr0n // invf_div ler_subr_addr.
  have e1 : 4%:R / 5%:R + 5%:R^-1 = 1 :> K by field.
  by rewrite -[X in _ <= X]e1 ler_add2l.
apply: le_trans (_ : 2%:R * (12%:R * e + e * (20 * n + 10)%:R) * (5%:R / 4%:R) <= _).
  rewrite /del /sweep_err -/q; apply: ler_pmul => //; last 1 first.
  - by apply: ler_wpmul2l; [exact: ler0n|exact: ler_add].
  - by apply: mulr_ge0; [exact: ler0n|apply: addr_ge0 => //; exact: gam0].
  by rewrite invr_ge0 ltW.
rewrite natrD natrM -[n.+1]addn1 natrD -subr_ge0.
have -> : 55%:R * (n%:R + 1%:R) * e - 2%:R * (12%:R * e + e * (20%:R * n%:R + 10%:R)) * (5%:R / 4%:R) =
  5%:R * n%:R * e :> K by field.
by rewrite mulr_ge0 // mulr_ge0 ?ler0n.
Qed.
Let rE : sweep_rate 8%:R^-1 2%:R = 4%:R^-1 :> K. Proof. by rewrite /sweep_rate; field. Qed.
Let r' := rounded_rate u ed es 2%:R^-1 2%:R 8%:R^-1 n.
Let r'0 : 0 <= r'. Proof. by apply: RoundSdcP.r'0 => //; rewrite ler0n. Qed.
Let r'3 : r' <= 3%:R^-1.
Proof.
have d23 : del <= 2%:R / 3%:R.
  apply: (le_trans del55); rewrite ler_pdivl_mulr ?ltr0n //.
  apply: le_trans (_ : 2%:R * (e * (100 * n.+1)%:R) <= _); last first.
    by rewrite -[X in _ <= X]mulr1; apply: ler_wpmul2l => //; exact: ler0n.
  have -> : 55%:R * n.+1%:R * e * 3%:R = e * (55 * n.+1 * 3)%:R by rewrite !natrM; move: (n.+1%:R : K) => x; ring.
  have -> : 2%:R * (e * (100 * n.+1)%:R) = e * (2 * (100 * n.+1))%:R by rewrite (natrM _ 2); move: (_%:R) => x; ring.
  by apply: ler_wpmul2l => //; rewrite ler_nat nat55.
rewrite /r' /rounded_rate -/del; apply: le_trans (_ : 8%:R^-1 * (2%:R + 2%:R / 3%:R) <= _).
  by rewrite ler_wpmul2l // ler_add2l.
by rewrite le_eqVlt; apply/orP; left; apply/eqP; field.
Qed.
Let r'1 : r' < 1. Proof. by apply: (le_lt_trans r'3); rewrite invf_lt1 ?ltr0n // ltr1n. Qed.
Let err := nodes_err u ed es 2%:R^-1 2%:R 8%:R^-1 n k.
Let errE : err <= E.
Proof.
rewrite /err /nodes_err rE -/r' -/del /E; apply: ler_wpmul2l; first exact: ler0n.
have -> : 1 + 2%:R / (1 - 4%:R^-1) = 11%:R / 3%:R :> K by field.
apply: ler_add.
  rewrite [X in _ <= X]mulrC; apply: ler_pmul; rewrite ?exprn_ge0 ?divr_ge0 ?ler0n //.
    by rewrite -exprVn; apply: ler_expn2r; rewrite ?nnegrE ?invr_ge0 ?ler0n.
  by rewrite ler_pdivr_mulr ?ltr0n // -natrM ler_nat.
have p1 : 0 < 1 - r' by rewrite subr_gt0.
have i2 : ((1 - 4%:R^-1) * (1 - r'))^-1 <= 2%:R.
  rewrite -[X in _ <= X]invrK lef_pinv ?posrE ?invr_gt0 ?ltr0n //; last first.
    by rewrite mulr_gt0 // subr_gt0 invf_lt1 ?ltr0n // ltr1n.
  have -> : 2%:R^-1 = (1 - 4%:R^-1) * (1 - 3%:R^-1) :> K by field.
  by apply: ler_wpmul2l; [rewrite subr_ge0 invf_le1 ?ltr0n // ler1n|rewrite ler_add2l ler_opp2].
have -> : 110%:R * n.+1%:R * e = 55%:R * n.+1%:R * e * 2%:R by ring.
by apply: ler_pmul => //; rewrite invr_ge0 mulr_ge0 ?(ltW p1) // subr_ge0 invf_le1 ?ltr0n // ler1n.
Qed.
Theorem C85_small_nodes v : exists c : 'cV[K]_n, collocation Q z v c /\
  exists2 y, nodal v qds = Ok y & size y = n /\ \sum_i `|(cvl n y - c) i 0| <= E * `|v|.
Proof.
have [c [h1 [_ [y e1 [sy h]]]]] := C85_nodes (ler0n K 2) h2 h8 q1 hb r'1 s0 v.
exists c; split=> //; exists y => //; split=> //; apply: (le_trans h).
by apply: ler_wpmul2r.
Qed.

Let kap := if w is Some w then e + `|z| * vnorm1 w * (10%:R * e * (3%:R * n%:R + E) + E) else E.
Let kap_le : sdc_step_err u ed es 2%:R^-1 2%:R 8%:R^-1 z (omap (@vnorm1 K) w) n k <= kap.
Proof.
rewrite /kap; case: (w) => [b|] /=; last exact: errE.
rewrite -/err rE; apply: ler_add => //; apply: ler_wpmul2l; first by rewrite mulr_ge0 ?vnorm1_ge0.
have er0 : 0 <= err by exact: (err0 u0 ed0 es0 (ler0n K 2) h2 h8 q1 qds r'1).
apply: ler_add; last exact: errE.
apply: ler_pmul; last 1 first.
- apply: ler_add; last exact: errE.
  have -> : 2%:R * n%:R / (1 - 4%:R^-1) = 8%:R / 3%:R * n%:R :> K by field.
  by apply: ler_wpmul2r; rewrite ?ler0n // ler_pdivr_mulr ?ltr0n // -natrM ler_nat.
- by rewrite subr_ge0 mulr_ege1 ?ler_addl // exprn_ege1 // ler_addl.
- by rewrite addr_ge0 // divr_ge0 ?mulr_ge0 ?ler0n // subr_ge0 invf_le1 ?ltr0n // ler1n.
exact: (@p 4).
Qed.
Theorem C85_small v0 (nS : int) QDelta : qd_sweeps n nS QDelta = Ok qds ->
  exists2 us, run v0 nS QDelta = Ok us & size us = N.+2 /\ forall i, (i < N.+2)%N ->
    `|nth 0 us i - Rc ^+ i * v0| <= ((`|Rc| + kap) ^+ i - `|Rc| ^+ i) * `|v0|.
Proof.
move=> eq; have [us eu [su h]] := C85_solution (ler0n K 2) h2 h8 q1 hb r'1 s0 v0 eq.
exists us => //; split=> // i il; apply: (le_trans (h i il)); apply: ler_wpmul2r => //.
apply: pow_diff => //; exact: (kapS0 u0 ed0 es0 lam T N.+1 (ler0n K 2) h2 h8 q1 qds r'1).
Qed.
(* the same sweeps in exact arithmetic: rounding errors alone *)
Let c := sdcv n Q (nth [::] qds) z k.
Let c3 : nrm1 c <= 3%:R * n%:R.
Proof.
rewrite /c; have: (k <= size qds)%N by [].
elim: (k) => [_|j ih jk] /=.
  by rewrite nrm1_constc normr1 mulr1 ler_pemull ?ler0n // ler1n.
have hD := hb (mem_nth [::] jk); have := sweep_size sQ (ler0n K 2) hD 1 (sdcv n Q (nth [::] qds) z j).
rewrite normr1 mulr1 => h; apply: (le_trans h).
apply: le_trans (_ : 2%:R * (n%:R + 8%:R^-1 * (3%:R * n%:R)) <= _).
  by rewrite ler_wpmul2l ?ler0n // ler_add2l ler_wpmul2l // ih // ltnW.
rewrite -subr_ge0; have -> : 3%:R * n%:R - 2%:R * (n%:R + 8%:R^-1 * (3%:R * n%:R)) = 4%:R^-1 * n%:R :> K by field.
by rewrite mulr_ge0 ?invr_ge0 ?ler0n.
Qed.
Let sr := sweeps_round u ed es 2%:R^-1 2%:R 8%:R^-1 n.
Let m0' : 0 <= n%:R * n.+1%:R :> K. Proof. by rewrite mulr_ge0 ?ler0n. Qed.
Let p1 : 0 < 1 - r'. Proof. by rewrite subr_gt0. Qed.
Let sr0 : 0 <= sr.
Proof.
rewrite /sr /sweeps_round rE -/r' -/del; apply: divr_ge0; last by rewrite subr_ge0 invf_le1 ?ltr0n // ler1n.
by apply: mulr_ge0; [rewrite mulr_ge0 ?ler0n|rewrite addr_ge0 // invr_ge0 ltW].
Qed.
Let sr120 : sr <= 120%:R * (n%:R * n.+1%:R) * e.
Proof.
have i32 : (1 - r')^-1 <= 3%:R / 2%:R.
  rewrite -[X in _ <= X]invrK lef_pinv ?posrE ?invr_gt0 ?divr_gt0 ?ltr0n // invf_div ler_subr_addr.
  have e1 : 2%:R / 3%:R + 3%:R^-1 = 1 :> K by field.
  by rewrite -[X in _ <= X]e1 ler_add2l.
rewrite /sr /sweeps_round rE -/r' -/del.
apply: le_trans (_ : n%:R * (55%:R * n.+1%:R * e) * (3%:R / 2%:R + 8%:R^-1) / (1 - 4%:R^-1) <= _).
  apply: ler_wpmul2r; first by rewrite invr_ge0 subr_ge0 invf_le1 ?ltr0n // ler1n.
  apply: ler_pmul.
  - by rewrite mulr_ge0 ?ler0n.
  - by rewrite addr_ge0 // invr_ge0 ltW.
  - by apply: ler_wpmul2l => //; exact: ler0n.
  by rewrite ler_add2r.
rewrite -subr_ge0; have -> : 120%:R * (n%:R * n.+1%:R) * e -
  n%:R * (55%:R * n.+1%:R * e) * (3%:R / 2%:R + 8%:R^-1) / (1 - 4%:R^-1) = 5%:R / 6%:R * (n%:R * n.+1%:R * e).
  by move: (n.+1%:R : K) => x; field.
by rewrite !mulr_ge0 ?invr_ge0 ?ler0n.
Qed.
Let kapr := if w is Some w then e * (1 + 170%:R * (n%:R * n.+1%:R) * (`|z| * vnorm1 w)) else 120%:R * (n%:R * n.+1%:R) * e.
Let kapr_le : stepk u ed lam T N.+1 w sr (3%:R * n%:R) <= kapr.
Proof.
rewrite /stepk /kapr -/z; case: (w) => [b|] //; rewrite [X in _ <= X]mulrDr mulr1; apply: ler_add => //.
have -> : e * (170%:R * (n%:R * n.+1%:R) * (`|z| * vnorm1 b)) = `|z| * vnorm1 b * (170%:R * (n%:R * n.+1%:R) * e).
  by move: `|z| (vnorm1 b) (n.+1%:R : K) => x y v; ring.
apply: ler_wpmul2l; first by rewrite mulr_ge0 ?vnorm1_ge0.
have -> : 170%:R * (n%:R * n.+1%:R) * e = 10%:R * e * (5%:R * (n%:R * n.+1%:R)) + 120%:R * (n%:R * n.+1%:R) * e.
  by move: (n.+1%:R : K) => x; ring.
apply: ler_add => //; apply: ler_pmul => //.
- by rewrite subr_ge0 mulr_ege1 ?ler_addl // exprn_ege1 // ler_addl.
- by rewrite addr_ge0 // mulr_ge0 ?ler0n.
- exact: (@p 4).
apply: le_trans (_ : 3%:R * n%:R + 2%:R * n%:R <= _); last first.
  rewrite -mulrDl -natrD ler_wpmul2l ?ler0n // ler_pemulr ?ler0n // ler1n //.
rewrite ler_add2l; apply: (le_trans sr120).
have -> : 120%:R * (n%:R * n.+1%:R) * e = 120%:R / 100%:R * n%:R * (e * (100 * n.+1)%:R).
  by rewrite natrM; move: (n.+1%:R : K) => x; field.
apply: le_trans (_ : 120%:R / 100%:R * n%:R * 1 <= _).
  by rewrite ler_wpmul2l // mulr_ge0 ?divr_ge0 ?ler0n.
by rewrite mulr1 ler_wpmul2r ?ler0n // ler_pdivr_mulr ?ltr0n // -natrM ler_nat.
Qed.
Let S := sdcR n Q (nth [::] qds) w z k.
Theorem C85_small_rounding v0 (nS : int) QDelta : qd_sweeps n nS QDelta = Ok qds ->
  exists2 us, run v0 nS QDelta = Ok us & size us = N.+2 /\ forall i, (i < N.+2)%N ->
    `|nth 0 us i - S ^+ i * v0| <= ((`|S| + kapr) ^+ i - `|S| ^+ i) * `|v0|.
Proof.
move=> eq; have sz : size Q = n by case/is_shapeP: sQ.
have near v : exists2 x, r_sweeps cadd csub cmul cdot csolve n z' v Q qds (nseq n v) = Ok x &
  size x = n /\ nrm1 (cvl n x - v *: c) <= sr * `|v|.
  exact: (C85_rounding (ler0n K 2) h2 h8 q1 hb r'1 v).
have B0 : 0 <= 3%:R * n%:R :> K by rewrite mulr_ge0 ?ler0n.
have [us eu [su h]] := steps_gen u0 ed0 hadd hmul hdiv hdot sw n0 sr0 B0 near c3 v0 N.+1.
exists (v0 :: us); first by rewrite /run /r_solveDahlquistSDC sz eq; move: eu; rewrite /= => ->.
split=> [|[|i] il] /=; first by rewrite su.
  by rewrite !expr0 mul1r !subrr mul0r normr0.
apply: (le_trans (h i il)); apply: ler_wpmul2r => //; apply: pow_diff => //.
exact: stepk0.
Qed.
End Small.
End Sdc.
Print Assumptions C85_rounding.
Print Assumptions C85_nodes.
Print Assumptions C85_solution.
Print Assumptions C85_small_nodes.
Print Assumptions C85_small.
Print Assumptions C85_small_rounding.

(* arguments: the same exceptions as in exact arithmetic *)
Theorem C85_bad_arguments (K : numFieldType) cadd csub cmul cdiv cdot csolve cexp lam v0 T (nSteps nS : int) Q
    (QDelta : qdarg K) w : (nSteps <= 0) || (if qd_sweeps (size Q) nS QDelta is Ok _ then false else true) ->
  r_solveDahlquistSDC cadd csub cmul cdiv cdot csolve lam v0 T nSteps nS Q QDelta w =
  omapo fst (solveDahlquistSDC cexp lam v0 T nSteps nS Q QDelta w [::]) /\
  exists ex, r_solveDahlquistSDC cadd csub cmul cdiv cdot csolve lam v0 T nSteps nS Q QDelta w = Raise ex.
Proof.
rewrite /r_solveDahlquistSDC /solveDahlquistSDC; case: nSteps => [[|N]|[|N]] //=.
- by move=> _; split=> //; exists ZeroDivisionError.
- by case: (qd_sweeps _ _ _) => [//|x] _ /=; split=> //; exists x.
- by case: (qd_sweeps _ _ _) => [a|x] _ /=; split=> //; [exists IndexError|exists x].
by move=> _; split=> //; exists ValueError.
Qed.
Print Assumptions C85_bad_arguments.

(* ten steps for u' = -u in float64, four backward Euler sweeps for the trapezoidal rule *)
Section Example85.
Notation RF := r_realFieldType.
Let Q : seq (seq RF) := [:: [:: 0; 0]; [:: 2%:R^-1; 2%:R^-1]].
Let D : seq (seq RF) := [:: [:: 0; 0]; [:: 0; 1]].
Let op (f : RF -> RF -> RF) x y : RF := f64 (f x y).
Let cdot (x y : seq RF) : RF := f64 (dot x y).
Let run := r_solveDahlquistSDC (op +%R) (op (fun x y => x - y)) (op *%R) (op (fun x y => x / y)) cdot
             (@solve RF) (- 1) 1 1 10 4 Q (QD2 D) None.
Let z : RF := - 1 * (1 / 10%:R).
Let x : RF := 19%:R / 21%:R.
Lemma trap_factor : coll_factor 2 Q None z = 19%:R / 21%:R.
Proof.
have sQ : is_shape Q 2 2 by [].
have zE : z = - (10%:R^-1) by rewrite /z; field.
pose c : 'cV[RF]_2 := cvl 2 [:: 1; 19%:R / 21%:R].
have e : stagemx 2 Q z *m c = const_mx 1.
  apply/matrixP => i j; rewrite zE !mxE !big_ord_recl big_ord0 !mxE /ent /= .
  by case: i => [[|[|//]]] /= _; field.
have un : stagemx 2 Q z \in unitmx.
  apply: small_unit => //; rewrite zE normrN ger0_norm ?invr_ge0 ?ler0n //.
  rewrite /mnorm !big_cons !big_nil !normr0 ger0_norm ?invr_ge0 ?ler0n // !addr0 !add0r.
  have -> : 10%:R^-1 * (2%:R^-1 + 2%:R^-1) = 10%:R^-1 :> RF by field.
  by rewrite lef_pinv ?posrE ?ltr0n // ler_nat.
rewrite /coll_factor -e mulKmx //.
have -> : last 0 (lcv c) = nth 0 (lcv c) (1 : 'I_2) by rewrite -nth_last size_lcv.
by rewrite nth_lcv mxE.
Qed.
Example C85_nonvacuous : exists2 us, run = Ok us & size us = 11%N /\
  forall i, (i < 11)%N -> `|nth 0 us i - x ^+ i| <= (x + 1 / 10%:R) ^+ i - x ^+ i.
Proof.
have [u0 _ _] := u64_facts; have u0' := ltW u0.
have sQ : is_shape Q 2 2 by [].
have zE : z = - (10%:R^-1) by rewrite /z; field.
have nz : `|z| = 10%:R^-1 by rewrite zE normrN ger0_norm // invr_ge0 ler0n.
have nD : mnorm D = 1 by rewrite /mnorm !big_cons !big_nil !normr0 normr1 !addr0 !add0r.
have nM : mnorm (msub Q D) = 1.
  rewrite /mnorm /msub /= !big_cons !big_nil !subrr !normr0 subr0.
  have -> : 2%:R^-1 - 1 = - 2%:R^-1 :> RF by field.
  rewrite normrN ger0_norm ?invr_ge0 ?ler0n // !addr0 !add0r /=.
  by field.
have sm : u64 * (100 * 3)%:R <= 1 :> RF.
  by apply/rleE; rewrite rnatE u64E -[1]/R1 -[_ * _]/(Rmult _ _) /=; lra.
have hz : forall E, E \in nseq 4 D -> [/\ is_shape E 2 2, `|z| * mnorm E <= 2%:R^-1 &
   `|z| * mnorm (msub Q E) <= 8%:R^-1].
  move=> E; rewrite mem_nseq => /= /eqP ->; rewrite nD nM nz mulr1; split=> //;
  by rewrite lef_pinv ?posrE ?ltr0n // ler_nat.
have eq : qd_sweeps 2 4 (QD2 D) = Ok (nseq 4 D) by [].
have [us eu [su h]] := C85_small u0' u0' (lexx 0) (op64 _) (op64 _) (op64 _) (op64 _) dot64
   (@solve_stable RF) (w := None) sQ I isT (lexx _) (lexx _) u0' sm hz isT 1 eq.
exists us; first exact: eu.
split=> // i il; move: (h i il); rewrite -/z trap_factor -/x mulr1 normr1 mulr1.
have x0 : 0 <= x by rewrite divr_ge0 ?ler0n.
rewrite (ger0_norm x0) => h1; apply: (le_trans h1); apply: pow_diff => //.
  by rewrite mulr_ge0 ?ler0n // addr_ge0 ?divr_ge0 ?exprn_ge0 ?ler0n // mulr_ge0 // mulr_ge0 ?ler0n.
have -> : size (nseq 4 D) = 4%N by [].
have -> : 2%:R * (4%:R / 3%:R ^+ 4 + 110%:R * 3%:R * u64) = 8%:R / 81%:R + 660%:R * u64 :> RF by field.
have k1 : (8%:R / 81%:R : RF) = Rdiv (IZR 8) (IZR 81) by rewrite rdivE ?pnatr_eq0 // !rnatE !INR_IZR_INZ.
have k2 : (1 / 10%:R : RF) = Rdiv (IZR 1) (IZR 10) by rewrite rdivE ?pnatr_eq0 // !rnatE !INR_IZR_INZ.
have k3 : (660%:R : RF) = IZR 660 by rewrite rnatE INR_IZR_INZ.
by apply/rleE; rewrite k1 k2 k3 u64E -[_ * _]/(Rmult _ _) -[_ + _]/(Rplus _ _); lra.
Qed.
End Example85.
