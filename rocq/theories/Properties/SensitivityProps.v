(* Property C86: inexact coefficients in the Dahlquist solvers. *)
From Coq Require Import Reals Lra.
From Verif.Base Require Import Str.
From mathcomp Require Import all_ssreflect all_algebra ring zify.
From Verif.Base Require Import Outcome Arr LinSolve RField Float64.
From Verif.Model Require Import QGen Sdc RoundedSolve RoundedSdc Butcher.
From Verif.Spec Require Import QCoeffSpec SdcSpec RoundSpec RoundSolveSpec RoundSdcSpec StoredSpec SensitivitySpec.
From Verif.Proofs Require Import StabP RoundSolveP RoundSdcP SensitivityP.
From Verif.Properties Require Import RKProps RoundProps StoredProps RoundSolveProps RoundSdcProps.
Set Implicit Arguments.
Unset Strict Implicit.
Unset Printing Implicit Defensive.
Import GRing.Theory Num.Theory Order.TTheory.
Local Open Scope ring_scope.

Section Sens.
Variable K : numFieldType.

(* amplification factor: update with weights or value at the last node *)
Theorem C86_sensitivity n (Q Q' : seq (seq K)) w w' eQ ew z beta :
  coeffs_near n eQ ew Q Q' w w' -> 0 <= beta -> inverse_bound (stagemx n Q z) beta -> beta * `|z| * eQ < 1 ->
  [/\ inverse_bound (stagemx n Q' z) (pert_beta eQ beta z), stagemx n Q' z \in unitmx &
      `|coll_factor n Q' w' z - coll_factor n Q w z| <= factor_err eQ ew beta z (omap (@vnorm1 K) w) n].
Proof.
move=> hc b0 hb p1; have h := pert_inverse hc b0 hb p1.
by split=> //; [exact: ib_unit h|exact: factor_near].
Qed.

Section Run.
Variables (u ed es : K).
Variables cadd csub cmul cdiv : K -> K -> K.
Variable cdot : seq K -> seq K -> K.
Variable csolve : seq (seq K) -> seq K -> option (seq K).
Hypotheses (u0 : 0 <= u) (ed0 : 0 <= ed) (es0 : 0 <= es).
Hypotheses (hadd : op_near u cadd +%R) (hsub : op_near u csub (fun a b => a - b)).
Hypotheses (hmul : op_near u cmul *%R) (hdiv : op_near u cdiv (fun a b => a / b)).
Hypotheses (hdot : dot_near ed cdot) (hsol : backward_stable es csolve).
Variables (n N : nat) (Q Q' : seq (seq K)) (eQ ew beta lam T v0 : K).
Let z := lam * (T / N.+1%:R).
Hypotheses (b0 : 0 <= beta) (hb : inverse_bound (stagemx n Q z) beta) (p1 : beta * `|z| * eQ < 1).

(* Q and w exact, Q' and w' the coefficients in the memory of the solver *)
Theorem C86_solver nodes (b b' b1 : seq K) we be : coeffs_near n eQ ew Q Q' (Some b) (Some b') ->
  size nodes = n -> chosen b1 we be b' ->
  let beta' := pert_beta eQ beta z in
  stage_err u es (n%:R + `|z| * mnorm Q') beta' < 1 ->
  let kap := factor_err eQ ew beta z (Some (vnorm1 b)) n +
             step_err u ed es (n%:R + `|z| * mnorm Q') beta' (vnorm1 b') z n in
  let R := stabf n Q b z in
  exists2 us, r_solveDahlquist cadd csub cmul cdiv cdot csolve nodes b1 we Q' lam v0 T N.+1%:Z be = Ok us &
    size us = N.+2 /\ forall i, (i < N.+2)%N ->
    `|nth 0 us i - R ^+ i * v0| <= ((`|R| + kap) ^+ i - `|R| ^+ i) * `|v0|.
Proof.
move=> hc sn ch beta' q1 kap R; have [sQ sQ' _ [sb sb' _]] := hc.
have hb' := pert_inverse hc b0 hb p1.
have bp := pert_beta0 b0 p1.
have [us [vs [eu _ [su _] h]]] := C84_solution u0 ed0 es0 hadd hsub hmul hdiv hdot hsol v0 sQ' sn sb' ch bp hb' q1.
exists us => //; split=> // i il; have [e h2] := h i il; rewrite e in h2.
apply: (pow_compose _ _ h2); first exact: (factor_near hc b0 hb p1).
exact: (RoundSolveP.kap0 u0 ed0 es0 _ bp q1).
Qed.

Theorem C86_sdc (w w' : option (seq K)) (nS : int) QDelta qds g m beta2 : coeffs_near n eQ ew Q Q' w w' -> (0 < n)%N ->
  qd_sweeps n nS QDelta = Ok qds -> (0 < size qds)%N -> 0 <= beta2 -> 0 <= g -> 0 <= m ->
  stage_err u es (n%:R + g) beta2 < 1 ->
  (forall D, D \in qds -> sweep_bounds n z beta2 g m Q' D) ->
  rounded_rate u ed es g beta2 m n < 1 ->
  let kap := factor_err eQ ew beta z (omap (@vnorm1 K) w) n +
             sdc_step_err u ed es g beta2 m z (omap (@vnorm1 K) w') n (size qds) in
  let R := coll_factor n Q w z in
  exists2 us, r_solveDahlquistSDC cadd csub cmul cdiv cdot csolve lam v0 T N.+1%:Z nS Q' QDelta w' = Ok us &
    size us = N.+2 /\ forall i, (i < N.+2)%N ->
    `|nth 0 us i - R ^+ i * v0| <= ((`|R| + kap) ^+ i - `|R| ^+ i) * `|v0|.
Proof.
move=> hc n0 eq s0 b2 g0 m0 q1 hq r1 kap R; have [sQ sQ' _ hw] := hc.
have [us eu [su h]] : exists2 us, r_solveDahlquistSDC cadd csub cmul cdiv cdot csolve lam v0 T N.+1%:Z nS Q' QDelta w' = Ok us &
    size us = N.+2 /\ forall i, (i < N.+2)%N ->
    `|nth 0 us i - coll_factor n Q' w' z ^+ i * v0| <= ((`|coll_factor n Q' w' z| +
      sdc_step_err u ed es g beta2 m z (omap (@vnorm1 K) w') n (size qds)) ^+ i - `|coll_factor n Q' w' z| ^+ i) * `|v0|.
  apply: (C85_solution u0 ed0 es0 hadd hsub hmul hdiv hdot hsol sQ' _ n0 b2 g0 m0 q1 hq r1 s0 v0 eq).
  by move: hw; case: (w) (w') => [?|] [?|] // [].
exists us => //; split=> // i il.
apply: (pow_compose _ _ (h i il)); first exact: (factor_near hc b0 hb p1).
exact: (kapS0 u0 ed0 es0 lam T N.+1 b2 g0 m0 q1 qds r1).
Qed.
End Run.
End Sens.
Print Assumptions C86_sensitivity.
Print Assumptions C86_solver.
Print Assumptions C86_sdc.

Lemma nat126 n : (60 * n * n.+1 * 2 + 6 * n <= 126 * n * n.+1)%N. Proof. nia. Qed.

(* stored tables *)
Section Stored.
Variable K : numFieldType.
Variable e : K.
Lemma stored_vnorm v v' : stored_vec e v v' -> vnorm1 (vsub v' v) <= e * vnorm1 v.
Proof.
rewrite /vnorm1; elim=> [|a a' l l' h _ ih] /=; first by rewrite !big_nil mulr0.
by rewrite !big_cons mulrDr ler_add.
Qed.
Lemma stored_mnorm A A' : stored_mat e A A' -> mnorm (msub A' A) <= e * mnorm A.
Proof.
rewrite /mnorm; elim=> [|a a' l l' h _ ih] /=; first by rewrite !big_nil mulr0.
by rewrite !big_cons mulrDr ler_add //; exact: stored_vnorm.
Qed.
Lemma stored_shape A A' n m : stored_mat e A A' -> is_shape A n m -> is_shape A' n m.
Proof.
move=> h /is_shapeP [s1 s2]; apply/is_shapeP; split; first by rewrite (stored_msize h).
move=> i il; rewrite -(s2 i il); apply: (@stored_size _ e); exact: stored_row.
Qed.
Theorem C86_stored (t t' : table K) n : stored e t t' -> is_shape (tA t) n n -> size (tb t) = n ->
  coeffs_near n (e * mnorm (tA t)) (e * vnorm1 (tb t)) (tA t) (tA t') (Some (tb t)) (Some (tb t')).
Proof.
move=> [hA hb _ _ _] sA sb; split=> //; [exact: stored_shape hA sA|exact: stored_mnorm|].
by split=> //; [rewrite (stored_size hb)|exact: stored_vnorm].
Qed.
Hypothesis e0 : 0 <= e.
Lemma stored_vle v v' : stored_vec e v v' -> vnorm1 v' <= (1 + e) * vnorm1 v.
Proof.
rewrite /vnorm1; elim=> [|a a' l l' h _ ih] /=; first by rewrite !big_nil mulr0.
rewrite !big_cons mulrDr ler_add // mulrDl mul1r -{1}[a'](subrK a) addrC.
by apply: (le_trans (ler_norm_add _ _)); rewrite ler_add2l.
Qed.
Lemma stored_mle A A' : stored_mat e A A' -> mnorm A' <= (1 + e) * mnorm A.
Proof.
rewrite /mnorm; elim=> [|a a' l l' h _ ih] /=; first by rewrite !big_nil mulr0.
by rewrite !big_cons mulrDr ler_add //; exact: stored_vle.
Qed.

Section Small.
Variables (u ed es : K).
Variables cadd csub cmul cdiv : K -> K -> K.
Variable cdot : seq K -> seq K -> K.
Variable csolve : seq (seq K) -> seq K -> option (seq K).
Hypotheses (u0 : 0 <= u) (ed0 : 0 <= ed) (es0 : 0 <= es).
Hypotheses (hadd : op_near u cadd +%R) (hsub : op_near u csub (fun a b => a - b)).
Hypotheses (hmul : op_near u cmul *%R) (hdiv : op_near u cdiv (fun a b => a / b)).
Hypotheses (hdot : dot_near ed cdot) (hsol : backward_stable es csolve).
Variables (n N : nat) (t t' : table K) (lam T v0 : K) (we : outcome (seq K)).
Let z := lam * (T / N.+1%:R).
Let W := vnorm1 (tb t).
Hypotheses (ht : stored e t t') (sA : is_shape (tA t) n n) (sb : size (tb t) = n) (sc : size (tc t) = n).
Hypotheses (ue : u <= e) (ede : ed <= e) (ese : es <= e) (small : e * (100 * n.+1)%:R <= 1).
Hypothesis hz : `|z| * mnorm (tA t) <= 4%:R^-1.
Let e1 : e <= 1.
Proof.
apply: le_trans small; rewrite -{1}[e]mulr1; apply: ler_wpmul2l => //.
by rewrite -[X in X <= _]/(1%:R) ler_nat muln_gt0.
Qed.
Let a := `|z| * mnorm (tA t).
Let a0 : 0 <= a. Proof. by rewrite mulr_ge0 ?mnorm_ge0. Qed.
Let ha : a <= 2%:R^-1.
Proof. by apply: (le_trans hz); rewrite lef_pinv ?posrE ?ltr0n // ler_nat. Qed.
Let hz' : `|z| * mnorm (tA t') <= 2%:R^-1.
Proof.
have [hA _ _ _ _] := ht.
apply: le_trans (_ : `|z| * ((1 + e) * mnorm (tA t)) <= _); first by rewrite ler_wpmul2l // stored_mle.
rewrite mulrCA -/a; apply: le_trans (_ : 2%:R * 4%:R^-1 <= _).
  apply: ler_pmul => //; first by rewrite addr_ge0 ?ler01.
  by rewrite -[2%:R]/(1 + 1) ler_add2l.
by rewrite le_eqVlt; apply/orP; left; apply/eqP; field.
Qed.
Let sA' : is_shape (tA t') n n. Proof. by have [hA _ _ _ _] := ht; exact: stored_shape hA sA. Qed.
Let sb' : size (tb t') = n. Proof. by have [_ h _ _ _] := ht; rewrite (stored_size h). Qed.
Let sc' : size (tc t') = n. Proof. by have [_ _ h _ _] := ht; rewrite (stored_size h). Qed.
Let hb : inverse_bound (stagemx n (tA t) z) 2%:R.
Proof. by move=> x; apply: (small_bound sA ha); rewrite /stagemx mulmxBl mul1mx -scalemxAl subrK. Qed.
Let p := 2%:R * `|z| * (e * mnorm (tA t)).
Let pE : p = e * (2%:R * a). Proof. by rewrite /p /a; move: `|z| (mnorm _) => x y; ring. Qed.
Let a2 : 2%:R * a <= 2%:R^-1.
Proof.
apply: le_trans (_ : 2%:R * 4%:R^-1 <= _); first by apply: ler_wpmul2l => //; exact: ler0n.
by rewrite le_eqVlt; apply/orP; left; apply/eqP; field.
Qed.
Let p2 : p <= 2%:R^-1.
Proof.
rewrite pE -[X in _ <= X]mul1r; apply: ler_pmul => //.
by rewrite mulr_ge0 ?ler0n.
Qed.
Let p1 : p < 1. Proof. by apply: (le_lt_trans p2); rewrite invf_lt1 ?ltr0n // ltr1n. Qed.
Let W0 : 0 <= W. Proof. exact: vnorm1_ge0. Qed.
Let sig : factor_err (e * mnorm (tA t)) (e * W) 2%:R z (Some W) n <= e * ((6 * n)%:R * `|z| * W).
Proof.
rewrite /factor_err /pert_beta -/p.
have i2 : 2%:R / (1 - p) <= 4%:R.
  rewrite ler_pdivr_mulr ?subr_gt0 // mulrBr mulr1 ler_subr_addr.
  apply: le_trans (_ : 2%:R + 4%:R * 2%:R^-1 <= _).
    by rewrite ler_add2l; apply: ler_wpmul2l => //; exact: ler0n.
  by rewrite le_eqVlt; apply/orP; left; apply/eqP; field.
have h32 : e * W + W * p <= e * W * (3%:R / 2%:R).
  have -> : e * W * (3%:R / 2%:R) = e * W + W * (e * 2%:R^-1) by field.
  by rewrite ler_add2l; apply: ler_wpmul2l => //; rewrite pE; apply: ler_wpmul2l.
apply: le_trans (_ : `|z| * (e * W * (3%:R / 2%:R)) * (4%:R * n%:R) <= _).
  apply: ler_pmul.
  - apply: mulr_ge0 => //; apply: addr_ge0; first exact: mulr_ge0.
    apply: mulr_ge0 => //; rewrite pE; apply: mulr_ge0 => //.
    by apply: mulr_ge0 => //; exact: ler0n.
  - by rewrite mulr_ge0 ?ler0n // divr_ge0 ?ler0n // subr_ge0 ltW.
  - by apply: ler_wpmul2l.
  by apply: ler_wpmul2r => //; exact: ler0n.
rewrite natrM; move: `|z| W => x y.
by rewrite le_eqVlt; apply/orP; left; apply/eqP; field.
Qed.
(* the result for the stored table against the powers of the factor of the exact table *)
Theorem C86_small : let R := stabf n (tA t) (tb t) z in
  let kap := e * (1 + 126%:R * n%:R * n.+1%:R * `|z| * W) in
  exists2 us, r_solveDahlquist cadd csub cmul cdiv cdot csolve (tc t') (tb t') we (tA t') lam v0 T N.+1%:Z false = Ok us &
    size us = N.+2 /\ forall i, (i < N.+2)%N ->
    `|nth 0 us i - R ^+ i * v0| <= ((`|R| + kap) ^+ i - `|R| ^+ i) * `|v0|.
Proof.
move=> R kap; have ch : chosen (tb t') we false (tb t') by [].
have [us [vs [eu _ [su _] h]]] := C84_small_steps u0 ed0 es0 hadd hsub hmul hdiv hdot hsol v0 sA' sc' sb' ch ue ede ese small hz'.
exists us => //; split=> // i il; have [ev h2] := h i il; rewrite ev in h2.
have hc := C86_stored ht sA sb; have [_ hbb _ _ _] := ht.
set k2 := e * _ in h2; have k20 : 0 <= k2.
  by rewrite /k2 mulr_ge0 // addr_ge0 ?ler01 // !mulr_ge0 ?ler0n // vnorm1_ge0.
have fn := factor_near hc (ler0n K 2) hb p1; have f0 := factor_err0 hc (ler0n K 2) hb p1.
apply: (le_trans (pow_compose fn k20 h2)); apply: ler_wpmul2r => //; apply: pow_diff => //.
  by rewrite addr_ge0.
apply: le_trans (_ : e * ((6 * n)%:R * `|z| * W) + e * (1 + 60%:R * n%:R * n.+1%:R * `|z| * (2%:R * W)) <= _).
  apply: ler_add; first exact: sig.
  apply: ler_wpmul2l => //; rewrite ler_add2l; apply: ler_wpmul2l; first by rewrite !mulr_ge0 ?ler0n.
  apply: (le_trans (stored_vle hbb)); apply: ler_wpmul2r => //.
  by rewrite -[2%:R]/(1 + 1) ler_add2l.
have -> : e * ((6 * n)%:R * `|z| * W) + e * (1 + 60%:R * n%:R * n.+1%:R * `|z| * (2%:R * W)) =
  e * (1 + (60 * n * n.+1 * 2 + 6 * n)%:R * (`|z| * W)).
  by rewrite natrD !natrM; move: `|z| W (n.+1%:R : K) => x y v; ring.
have -> : kap = e * (1 + (126 * n * n.+1)%:R * (`|z| * W)).
  by rewrite /kap !natrM; move: `|z| W (n.+1%:R : K) => x y v; ring.
apply: ler_wpmul2l => //; rewrite ler_add2l; apply: ler_wpmul2r; first by rewrite mulr_ge0.
by rewrite ler_nat nat126.
Qed.
End Small.
End Stored.
Print Assumptions C86_stored.
Print Assumptions C86_small.

(* ten steps of Ralston's rule for u' = -u, with the table and all operations in float64 *)
Section Example86.
Notation RF := r_realFieldType.
Let t : table RF := @Table RF [:: [:: 0; 0]; [:: 2%:R / 3%:R; 0]] [:: 1 / 4%:R; 3%:R / 4%:R] [:: 0; 2%:R / 3%:R] None 2 0.
Let t' := round_table f64 t.
Let op (f : RF -> RF -> RF) x y : RF := f64 (f x y).
Let cdot (x y : seq RF) : RF := f64 (dot x y).
Let run := r_solveDahlquist (op +%R) (op (fun x y => x - y)) (op *%R) (op (fun x y => x / y)) cdot
             (@solve RF) (tc t') (tb t') (Raise NotImplementedError) (tA t') (- 1) 1 1 10 false.
Let x : RF := 181%:R / 200%:R.
Example C86_nonvacuous : exists2 us, run = Ok us & size us = 11%N /\
  forall i, (i < 11)%N -> `|nth 0 us i - x ^+ i| <= (x + 77%:R * u64) ^+ i - x ^+ i.
Proof.
have [u0 _ _] := u64_facts; have u0' := ltW u0.
have st : stored (u64 : RF) t t' by apply: C82_rounded; exact: C79_float64.
have sA : is_shape (tA t) 2 2 by [].
have zE : - 1 * (1 / 10%:R) = - (10%:R^-1) :> RF by field.
have nz : `|- (10%:R^-1)| = 10%:R^-1 :> RF by rewrite normrN ger0_norm // invr_ge0 ler0n.
have nA : mnorm (tA t) = 2%:R / 3%:R.
  by rewrite /mnorm !big_cons !big_nil !normr0 ger0_norm ?divr_ge0 ?ler0n // !addr0 !add0r.
have nw : vnorm1 (tb t) = 1.
  by rewrite /vnorm1 !big_cons big_nil !ger0_norm ?divr_ge0 ?ler0n ?ler01 //; field.
have hz : `|- 1 * (1 / 10%:R)| * mnorm (tA t) <= 4%:R^-1 :> RF.
  rewrite zE nz nA; have -> : 10%:R^-1 * (2%:R / 3%:R) = 15%:R^-1 :> RF by field.
  by rewrite lef_pinv ?posrE ?ltr0n // ler_nat.
have lo : forall i j, (i < 2)%N -> (j < 2)%N -> (i <= j)%N -> ent (tA t) i j = 0.
  by move=> [|[|//]] [|[|//]].
have RE : stabf 2 (tA t) (tb t) (- 1 * (1 / 10%:R)) = x.
  rewrite zE explicit_stabf // !big_ord_recl big_ord0 /moment /=.
  have m0 : (rvl 2 [:: 1 / 4%:R; 3%:R / 4%:R] *m (const_mx 1 : 'cV_2)) 0 0 = 1 :> RF.
    by rewrite !mxE !big_ord_recl big_ord0 !mxE /=; field.
  have m1 : (rvl 2 [:: 1 / 4%:R; 3%:R / 4%:R] *m (mxl 2 2 [:: [:: 0; 0]; [:: 2%:R / 3%:R; 0]] *m (const_mx 1 : 'cV_2))) 0 0 = 2%:R^-1 :> RF.
    rewrite !mxE !big_ord_recl big_ord0 !mxE /= !big_ord_recl !big_ord0 !mxE /ent /=.
    by field.
  by rewrite m0 m1 /x; field.
have sm : u64 * (100 * 3)%:R <= 1 :> RF.
  by apply/rleE; rewrite rnatE u64E -[1]/R1 -[_ * _]/(Rmult _ _) /=; lra.
have [us eu [su h]] := C86_small u0' u0' u0' (lexx 0) (op64 _) (op64 _) (op64 _) (op64 _)
   dot64 (@solve_stable RF) (N := 9) 1 (Raise NotImplementedError) st sA erefl erefl (lexx _) (lexx _) u0' sm hz.
exists us => //; split=> // i il; move: (h i il); rewrite RE mulr1 normr1 mulr1.
have x0 : 0 <= x by rewrite divr_ge0 ?ler0n.
rewrite (ger0_norm x0) => h1; apply: (le_trans h1); apply: pow_diff => //.
  by rewrite mulr_ge0 // addr_ge0 ?ler01 // !mulr_ge0 ?ler0n // vnorm1_ge0.
rewrite nw zE nz mulr1 [X in _ <= X]mulrC; apply: ler_wpmul2l => //.
have -> : 1 + 126%:R * 2%:R * 3%:R * 10%:R^-1 = 766%:R / 10%:R :> RF by field.
by rewrite ler_pdivr_mulr ?ltr0n // -natrM ler_nat.
Qed.
End Example86.
