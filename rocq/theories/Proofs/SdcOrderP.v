(* Expansion in powers of z of the spectral deferred corrections, and their order. *)
From Verif.Base Require Import Str.
From mathcomp Require Import all_ssreflect all_algebra ring zify.
From Verif.Base Require Import Outcome Arr LinSolve.
From Verif.Model Require Import QGen Registry Sdc.
From Verif.Spec Require Import QCoeffSpec SdcSpec.
From Verif.Proofs Require Import StabP SdcP.
Set Implicit Arguments.
Unset Strict Implicit.
Unset Printing Implicit Defensive.
Import GRing.Theory Num.Theory Order.TTheory.
Local Open Scope ring_scope.

Section Small.
Variable K : numFieldType.

(* a polynomial that is O(z^(p+1)) and has degree at most p is zero *)
Lemma small_coef (a : K) C delta m : 0 < delta ->
  (forall z : K, `|z| <= delta -> `|a| * `|z| ^+ m <= C * `|z| ^+ m.+1) -> a = 0.
Proof.
move=> d0 h; apply/eqP; rewrite -normr_eq0; apply/negP => /negP na.
have a0 : 0 < `|a| by rewrite lt_neqAle eq_sym na normr_ge0.
have C0 : 0 <= C.
  have := h delta; rewrite (gtr0_norm d0) => /(_ (lexx _)) h1.
  have h2 : 0 <= C * delta ^+ m.+1 by apply: le_trans h1; rewrite mulr_ge0 ?exprn_ge0 // ltW.
  by move: h2; rewrite pmulr_lge0 // exprn_gt0.
pose y := delta * `|a| / (`|a| + 2%:R * C * delta).
have q0 : 0 < `|a| + 2%:R * C * delta by rewrite ltr_paddr // !mulr_ge0 // ?ler0n // ltW.
have y0 : 0 < y by rewrite !mulr_gt0 // invr_gt0.
have yd : y <= delta.
  rewrite /y -mulrA ger_pmulr // ler_pdivr_mulr // mul1r ler_addl !mulr_ge0 ?ler0n // ltW //.
have := h y; rewrite (gtr0_norm y0) => /(_ yd).
rewrite exprSr mulrA [_ * y]mulrC mulrA ler_pmul2r ?exprn_gt0 // => h2.
have : y * C < `|a|.
  rewrite /y mulrAC ltr_pdivr_mulr //.
  rewrite -subr_gt0 (_ : _ - _ = `|a| * (`|a| + C * delta)); last by move: `|a| => b; ring.
  by rewrite mulr_gt0 // ltr_paddr // mulr_ge0 // ltW.
by move/(le_lt_trans h2); rewrite ltxx.
Qed.

Lemma small_poly (a : nat -> K) C delta p : 0 < delta ->
  (forall z : K, `|z| <= delta -> `|\sum_(d < p.+1) z ^+ d * a d| <= C * `|z| ^+ p.+1) ->
  forall d, (d <= p)%N -> a d = 0.
Proof.
move=> d0 h d; elim/ltn_ind: d => d ih dp.
pose del := delta / (1 + delta).
have q0 : 0 < 1 + delta by rewrite ltr_paddl // ler01.
have dl0 : 0 < del by rewrite divr_gt0.
have dl1 : del <= 1 by rewrite ler_pdivr_mulr // mul1r ler_addr ler01.
have dld : del <= delta by rewrite ler_pdivr_mulr // ler_pmulr // ler_addl ltW.
apply: (@small_coef (a d) (C + \sum_(e < p.+1) `|a e|) del d) => // z hz.
have z1 : `|z| <= 1 by apply: le_trans dl1.
have C0 : 0 <= C.
  have := h delta; rewrite (gtr0_norm d0) => /(_ (lexx _)) h1.
  have h2 : 0 <= C * delta ^+ p.+1 by apply: le_trans h1.
  by move: h2; rewrite pmulr_lge0 // exprn_gt0.
have dl : (d < p.+1)%N by [].
have e : z ^+ d * a d = (\sum_(e < p.+1) z ^+ e * a e) - \sum_(e < p.+1 | (d < e)%N) z ^+ e * a e.
  rewrite (bigD1 (Ordinal dl)) //= (bigID (fun e : 'I_p.+1 => (d < e)%N)) /=.
  rewrite [X in _ + (_ + X)]big1 ?addr0; last first.
    by move=> i /andP [ne nl]; rewrite ih ?mulr0 //; [move: ne nl; rewrite -val_eqE /=|]; lia.
  rewrite (eq_bigl (fun i : 'I_p.+1 => (d < i)%N)) ?addrK // => i; rewrite -val_eqE /=; lia.
rewrite mulrC -normrX -normrM e (le_trans (ler_norm_sub _ _)) // mulrDl ler_add //.
  rewrite (le_trans (h _ (le_trans hz dld))) // ler_wpmul2l //.
  by rewrite ler_wiexpn2l.
apply: (le_trans (ler_norm_sum _ _ _)); rewrite mulr_suml big_mkcond /=; apply: ler_sum => i _.
case: ifP => di; last by rewrite mulr_ge0 ?exprn_ge0.
by rewrite normrM normrX mulrC ler_wpmul2l // ler_wiexpn2l.
Qed.

Lemma agrees_iff (f : K -> K) (c : nat -> K) p :
  (exists C delta, 0 < delta /\ forall z : K, `|z| <= delta ->
     `|f z - \sum_(d < p.+1) z ^+ d * c d| <= C * `|z| ^+ p.+1) ->
  agrees f (expser p) p <-> (forall d, (d <= p)%N -> c d = (d`!)%:R^-1).
Proof.
move=> [C [del [d0 h]]]; split.
  move=> [C' [del' [d0' h']]] d dp; apply/eqP; rewrite -subr_eq0; apply/eqP.
  pose D := del * del' / (del + del').
  have q0 : 0 < del + del' by rewrite addr_gt0.
  have D0 : 0 < D by rewrite divr_gt0 // mulr_gt0.
  have D1 : D <= del.
    by rewrite /D ler_pdivr_mulr // ler_pmul2l // ler_addr ltW.
  have D2 : D <= del'.
    by rewrite /D ler_pdivr_mulr // mulrC ler_pmul2l // ler_addl ltW.
  apply: (@small_poly (fun d => c d - (d`!)%:R^-1) (C + C') D p) => // z hz.
  rewrite (eq_bigr (fun i : 'I_p.+1 => z ^+ i * c i - z ^+ i / (i`!)%:R)); last by move=> i _; rewrite mulrBr.
  rewrite sumrB -/(expser p z).
  have -> : (\sum_(i < p.+1) z ^+ i * c i) - expser p z =
     (f z - expser p z) - (f z - \sum_(i < p.+1) z ^+ i * c i).
    by move: (f z) (expser p z) (\sum_(i < _) _) => x y s; ring.
  rewrite (le_trans (ler_norm_sub _ _)) // addrC mulrDl ler_add //.
    by apply: h; apply: le_trans D1.
  by apply: h'; apply: le_trans D2.
move=> e; exists C, del; split=> // z hz; have := h _ hz.
rewrite (_ : \sum_(i < p.+1) _ = expser p z) //; apply: eq_bigr => i _.
by rewrite e // -ltnS.
Qed.
End Small.

Section Expansion.
Variable K : numFieldType.
Variables (n : nat) (Q : seq (seq K)) (QD : nat -> seq (seq K)).
Hypothesis hQ : is_shape Q n n.
Let Qx := mxl n n Q.

#[local] Arguments sdc_coef : simpl never.
Definition trunc_v (D k : nat) (z : K) : 'cV[K]_n := \sum_(d < D.+1) z ^+ d *: sdc_coef n Q QD k d.

Lemma coef0 k : sdc_coef n Q QD k 0 = const_mx 1. Proof. by case: k. Qed.
Lemma coefS k d : sdc_coef n Q QD k.+1 d.+1 =
  mxl n n (QD k) *m sdc_coef n Q QD k.+1 d + (Qx - mxl n n (QD k)) *m sdc_coef n Q QD k d.
Proof. by []. Qed.

Lemma trunc_step D k z :
  trunc_v D k.+1 z - z *: (mxl n n (QD k) *m trunc_v D k.+1 z) =
  const_mx 1 + z *: ((Qx - mxl n n (QD k)) *m trunc_v D k z)
  - z ^+ D.+1 *: sdc_coef n Q QD k.+1 D.+1.
Proof.
have eT : trunc_v D k.+1 z + z ^+ D.+1 *: sdc_coef n Q QD k.+1 D.+1 =
  const_mx 1 + z *: (mxl n n (QD k) *m trunc_v D k.+1 z)
  + z *: ((Qx - mxl n n (QD k)) *m trunc_v D k z).
  have -> : trunc_v D k.+1 z + z ^+ D.+1 *: sdc_coef n Q QD k.+1 D.+1 =
    \sum_(d < D.+2) z ^+ d *: sdc_coef n Q QD k.+1 d by rewrite big_ord_recr.
  rewrite /trunc_v big_ord_recl coef0 expr0 scale1r -addrA; congr (_ + _).
  rewrite !mulmx_sumr !scaler_sumr -big_split /=; apply: eq_bigr => d _.
  by rewrite -!scalemxAr !scalerA -exprS -scalerDr coefS.
rewrite {1}(canRL (addrK _) eT).
by apply/matrixP => i j; rewrite !mxE; ring.
Qed.

Variable k : nat.
Hypothesis hQD : forall j, (j < k)%N -> is_shape (QD j) n n.

Lemma nrm1_mulx (A : seq (seq K)) (x : 'cV_n) : is_shape A n n ->
  nrm1 (mxl n n A *m x) <= mnorm A * nrm1 x.
Proof. move=> hA; exact: nrm1_mul. Qed.

(* one sweep from x to y is exact up to the remainder r *)
Lemma sweep_bound (D : seq (seq K)) z (x y r : 'cV_n) : is_shape D n n -> `|z| * mnorm D <= 2%:R^-1 ->
  y - z *: (mxl n n D *m y) = z *: ((Qx - mxl n n D) *m x) + r ->
  nrm1 y <= 2%:R * (`|z| * mnorm (msub Q D) * nrm1 x + nrm1 r).
Proof.
move=> hD hz e; have e' : y = (z *: ((Qx - mxl n n D) *m x) + r) + z *: (mxl n n D *m y).
  by rewrite -e subrK.
apply: (le_trans (small_bound hD hz e')); rewrite ler_pmul2l ?ltr0n //.
apply: (le_trans (nrm1D _ _)); rewrite ler_add2r nrm1Z -mulrA ler_wpmul2l //.
by rewrite -mxl_msub //; apply: nrm1_mulx; apply: msub_shape.
Qed.

Definition smallz (z : K) := `|z| <= 1 /\ forall j, (j < k)%N -> `|z| * mnorm (QD j) <= 2%:R^-1.

Lemma smallz_ex : exists2 delta, 0 < delta & forall z : K, `|z| <= delta -> smallz z.
Proof.
pose s := \sum_(j < k) mnorm (QD j); have s0 : 0 <= s by apply: sumr_ge0 => j _; apply: mnorm_ge0.
have q0 : 0 < 2%:R * (1 + s) by rewrite mulr_gt0 ?ltr0n // ltr_paddr // ltr01.
exists (2%:R * (1 + s))^-1; first by rewrite invr_gt0.
move=> z hz; split.
  rewrite (le_trans hz) // invf_le1 // (_ : 2%:R * (1 + s) = 1 + (1 + 2%:R * s)); last by ring.
  by rewrite ler_addl addr_ge0 ?ler01 // mulr_ge0 // ler0n.
move=> j jk; have mj : mnorm (QD j) <= 1 + s.
  rewrite /s (bigD1 (Ordinal jk)) //= addrCA ler_addl addr_ge0 ?ler01 //.
  by apply: sumr_ge0 => i _; apply: mnorm_ge0.
apply: (@le_trans _ _ ((2%:R * (1 + s))^-1 * (1 + s))).
  by rewrite ler_pmul // mnorm_ge0.
rewrite invfM -mulrA mulVf ?mulr1 //.
by rewrite gt_eqF // ltr_paddr // ltr01.
Qed.

Lemma sdcv_eq z j : (j < k)%N -> smallz z ->
  sdcv n Q QD z j.+1 - z *: (mxl n n (QD j) *m sdcv n Q QD z j.+1) =
  const_mx 1 + z *: ((Qx - mxl n n (QD j)) *m sdcv n Q QD z j).
Proof.
move=> jk [_ /(_ j jk) hz]; have un := small_unit (hQD jk) hz.
have <- : stagemx n (QD j) z *m sdcv n Q QD z j.+1 =
  const_mx 1 + z *: ((Qx - mxl n n (QD j)) *m sdcv n Q QD z j).
  by rewrite /= mulKVmx.
by rewrite /stagemx mulmxBl mul1mx -scalemxAl.
Qed.

Lemma expansion_v D : exists2 C, 0 <= C & forall z, smallz z ->
  nrm1 (sdcv n Q QD z k - trunc_v D k z) <= C * `|z| ^+ D.+1.
Proof.
suff h j : (j <= k)%N -> exists2 C, 0 <= C & forall z, smallz z ->
  nrm1 (sdcv n Q QD z j - trunc_v D j z) <= C * `|z| ^+ D.+1 by apply: h.
elim: j => [_|j ih jk].
  exists 0 => // z _; rewrite mul0r /trunc_v big_ord_recl expr0 scale1r big1 ?addr0 ?subrr.
    by rewrite /nrm1 big1 // => i _; rewrite mxE normr0.
  by move=> i _; rewrite /= scaler0.
have [C C0 hC] := ih (ltnW jk).
pose m := mnorm (msub Q (QD j)); pose c := nrm1 (sdc_coef n Q QD j.+1 D.+1).
have m0 : 0 <= m by apply: mnorm_ge0.
have c0 : 0 <= c by apply: nrm1_ge0.
exists (2%:R * (m * C + c)); first by rewrite mulr_ge0 ?ler0n // addr_ge0 // mulr_ge0.
move=> z sz; have [z1 hz] := sz; have hzj := hz j jk.
have e : (sdcv n Q QD z j.+1 - trunc_v D j.+1 z) -
   z *: (mxl n n (QD j) *m (sdcv n Q QD z j.+1 - trunc_v D j.+1 z)) =
   z *: ((Qx - mxl n n (QD j)) *m (sdcv n Q QD z j - trunc_v D j z)) + z ^+ D.+1 *: sdc_coef n Q QD j.+1 D.+1.
  rewrite mulmxBr scalerBr.
  have := sdcv_eq jk sz; have := trunc_step D j z.
  set A := sdcv _ _ _ _ _; set B := trunc_v _ _ _; move: (z *: (_ *m A)) (z *: (_ *m B)) => A' B' e1 e2.
  have -> : A - B - (A' - B') = (A - A') - (B - B').
    by apply/matrixP => i i'; rewrite !mxE; ring.
  rewrite e1 e2 mulmxBr scalerBr; move: (z *: _) (z *: _) (z ^+ _ *: _) (const_mx 1) => X Y Z W.
  by apply/matrixP => i i'; rewrite !mxE; ring.
apply: (le_trans (sweep_bound (hQD jk) hzj e)); rewrite -[leRHS]mulrA ler_pmul2l ?ltr0n //.
rewrite mulrDl ler_add // ?nrm1Z ?normrX ?[c * _]mulrC //.
rewrite -mulrA [`|z| * _]mulrC -/m.
apply: (@le_trans _ _ (m * (C * `|z| ^+ D.+1) * `|z|)).
  by rewrite ler_wpmul2r // ler_wpmul2l //; apply: hC.
by rewrite -[leRHS]mulrA -[leRHS]mulr1 ler_wpmul2l // !mulr_ge0 // exprn_ge0.
Qed.

Variable w : option (seq K).
Hypothesis hw : if w is Some w then size w = n else True.

Lemma last_lcv (v : 'cV[K]_n) : `|last 0 (lcv v)| <= nrm1 v.
Proof.
case: (posnP n) v => [e|n0] v.
  have : size (lcv v) = 0%N by rewrite size_lcv.
  by move/size0nil => -> /=; rewrite normr0 nrm1_ge0.
have h : (n.-1 < n)%N by rewrite prednK.
rewrite -nth_last size_lcv -[n.-1]/(nat_of_ord (Ordinal h)) nth_lcv.
exact: (@le_term _ _ (fun j => `|v j 0|)).
Qed.

Lemma last_lcv_lin (a : K) (u v : 'cV[K]_n) : last 0 (lcv (a *: u + v)) = a * last 0 (lcv u) + last 0 (lcv v).
Proof.
case: (posnP n) u v => [e|n0] u v.
  have nil (x : 'cV[K]_n) : lcv x = [::] by apply: size0nil; rewrite size_lcv.
  by rewrite !nil /= mulr0 addr0.
have h : (n.-1 < n)%N by rewrite prednK.
by rewrite -!nth_last !size_lcv -[n.-1]/(nat_of_ord (Ordinal h)) !nth_lcv !mxE.
Qed.

Lemma last_trunc D z : last 0 (lcv (trunc_v D k z)) = \sum_(d < D.+1) z ^+ d * last 0 (lcv (sdc_coef n Q QD k d)).
Proof.
rewrite /trunc_v; elim: D.+1 => [|e ih].
  by rewrite !big_ord0; have := last_lcv_lin (-1) 0 (0 : 'cV[K]_n); rewrite scaler0 addr0 mulN1r addNr.
by rewrite !big_ord_recr /= addrC last_lcv_lin ih addrC.
Qed.

Theorem expansion_step D : exists C delta, 0 < delta /\ forall z : K, `|z| <= delta ->
  `|sdcR n Q QD w z k - \sum_(d < D.+1) z ^+ d * step_coef n Q QD w k d| <= C * `|z| ^+ D.+1.
Proof.
have [delta d0 hd] := smallz_ex; move: hw; rewrite /sdcR /step_coef; case: w => [v sv|_]; last first.
  have [C C0 hC] := expansion_v D.
  exists C, delta; split=> // z /hd sz; rewrite -last_trunc.
  have -> : last 0 (lcv (sdcv n Q QD z k)) - last 0 (lcv (trunc_v D k z)) =
    last 0 (lcv (sdcv n Q QD z k - trunc_v D k z)).
    by rewrite [in RHS]addrC -scaleN1r last_lcv_lin mulN1r addrC.
  exact: le_trans (last_lcv _) (hC _ sz).
case: D => [|D].
  have [C C0 hC] := expansion_v 0.
  exists (vnorm1 v * (C + nrm1 (const_mx 1 : 'cV[K]_n))), delta; split=> // z /hd sz.
  rewrite big_ord_recl big_ord0 expr0 mul1r addr0 addrC addKr normrM expr1 mulrC ler_wpmul2r //.
  apply: (le_trans (dot_bound _ sv)); rewrite ler_wpmul2l ?vnorm1_ge0 //.
  have := hC z sz; rewrite /trunc_v big_ord_recl big_ord0 expr0 scale1r addr0 coef0 expr1 => h.
  rewrite -[sdcv _ _ _ _ _](subrK (const_mx 1)) (le_trans (nrm1D _ _)) // ler_add2r (le_trans h) //.
  by rewrite -[leRHS]mulr1 ler_wpmul2l //; case: sz.
have [C C0 hC] := expansion_v D.
exists (vnorm1 v * C), delta; split=> // z /hd sz.
rewrite big_ord_recl expr0 mul1r opprD addrACA subrr add0r.
have -> : \sum_(i < D.+1) z ^+ lift ord0 i * (rvl n v *m sdc_coef n Q QD k i) 0 0 =
   z * (rvl n v *m trunc_v D k z) 0 0.
  rewrite /trunc_v mulmx_sumr summxE mulr_sumr; apply: eq_bigr => d _.
  by rewrite -scalemxAr [in RHS]mxE mulrA -exprS.
rewrite -mulrBr normrM.
have -> : (rvl n v *m sdcv n Q QD z k) 0 0 - (rvl n v *m trunc_v D k z) 0 0 =
  (rvl n v *m (sdcv n Q QD z k - trunc_v D k z)) 0 0 by rewrite mulmxBr !mxE.
rewrite exprS mulrCA ler_wpmul2l // (le_trans (dot_bound _ sv)) // -mulrA ler_wpmul2l ?vnorm1_ge0 //.
exact: hC.
Qed.

(* agreement with the exponential series *)
Theorem order_iff p : agrees (fun z => sdcR n Q QD w z k) (expser p) p <->
  (forall d, (d <= p)%N -> step_coef n Q QD w k d = (d`!)%:R^-1).
Proof. exact: agrees_iff (expansion_step p). Qed.

(* the first coefficients are those of the collocation method *)
Lemma coef_coll j d : (d <= j)%N -> sdc_coef n Q QD j d = iter d (mulmx Qx) (const_mx 1).
Proof.
elim: j d => [|j ih] [|d] //; elim: d => [|d ihd] dj.
  by rewrite coefS !coef0 -mulmxDl addrC subrK.
by rewrite coefS ihd ?(ltnW dj) // ih // -mulmxDl addrC subrK.
Qed.

Lemma coef_coll_trap j d : mxl n n (QD 0%N) *m (Qx *m const_mx 1) = Qx *m (Qx *m const_mx 1) :> 'cV[K]_n ->
  (0 < j)%N -> (d <= j.+1)%N -> sdc_coef n Q QD j d = iter d (mulmx Qx) (const_mx 1).
Proof.
move=> tr; elim: j d => [//|j ih] d _; case: j ih => [_|j ih] dj.
  case: d dj => [|[|[|d]]] // _; first exact: coef_coll.
  rewrite coefS (@coef_coll 1 1) //=.
  by rewrite (_ : sdc_coef n Q QD 0 1 = 0) // mulmx0 addr0 tr.
case: d dj => [|d] // dj; elim: d dj => [|d ihd] dj.
  by rewrite coefS !coef0 -mulmxDl addrC subrK.
by rewrite coefS ihd ?(ltnW dj) // ih // -mulmxDl addrC subrK.
Qed.
End Expansion.
