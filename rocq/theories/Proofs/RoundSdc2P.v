(* Rounding errors of spectral deferred corrections against the same exact sweeps. *)
From Verif.Base Require Import Str.
From mathcomp Require Import all_ssreflect all_algebra ring.
From Verif.Base Require Import Outcome Arr LinSolve.
From Verif.Model Require Import Sdc RoundedSolve RoundedSdc.
From Verif.Spec Require Import QCoeffSpec SdcSpec RoundSolveSpec RoundSdcSpec.
From Verif.Proofs Require Import StabP RoundSolveP.
From Verif.Proofs Require Import RoundSdcP.
Set Implicit Arguments.
Unset Strict Implicit.
Unset Printing Implicit Defensive.
Import GRing.Theory Num.Theory Order.TTheory.
Local Open Scope ring_scope.


Section P.
Variable K : numFieldType.
Variables (u ed es : K).
Variables cadd csub cmul cdiv : K -> K -> K.
Variable cdot : seq K -> seq K -> K.
Variable csolve : seq (seq K) -> seq K -> option (seq K).
Hypotheses (u0 : 0 <= u) (ed0 : 0 <= ed) (es0 : 0 <= es).
Hypotheses (hadd : op_near u cadd +%R) (hsub : op_near u csub (fun a b => a - b)).
Hypotheses (hmul : op_near u cmul *%R) (hdiv : op_near u cdiv (fun a b => a / b)).
Hypotheses (hdot : dot_near ed cdot) (hsol : backward_stable es csolve).
Variables (n : nat) (lam T : K) (N : nat).
Let z := lam * (T / N%:R).
Let z' := cmul lam (cdiv T N%:R).
Local Notation pw k := ((1 + u) ^+ k - 1).
Variables (w : option (seq K)) (c : 'cV[K]_n) (err B : K).
Hypotheses (sw : if w is Some w then size w = n else True) (n0 : (0 < n)%N) (err0 : 0 <= err) (B0 : 0 <= B).
(* the step with the node values c for the initial value 1 *)
Definition stepR : K := if w is Some b then 1 + z * (rvl n b *m c) 0 0 else last 0 (lcv c).
Definition stepk : K := if w is Some b then
  u + `|z| * vnorm1 b * (((1 + u) ^+ 4 * (1 + ed) - 1) * (B + err) + err) else err.
Lemma update_near v x : size x = n -> nrm1 (cvl n x - v *: c) <= err * `|v| -> nrm1 (v *: c) <= B * `|v| ->
  exists2 v', r_update cadd cmul cdot w z' v x = Ok v' & `|v' - stepR * v| <= stepk * `|v|.
Proof.
move=> sx h nc.
have cc : last 0 (lcv (v *: c)) = last 0 (lcv c) * v.
  have l1 : (n.-1 < n)%N by rewrite prednK.
  rewrite -!nth_last !size_lcv -[n.-1]/(nat_of_ord (Ordinal l1)) !nth_lcv mxE; exact: mulrC.
rewrite /stepR /stepk; case: (w) (sw) => [b|] sb; last first.
  exists (last 0 x).
    by rewrite /=; case: x sx {h} => //= sx; move: n0; rewrite -sx.
  by rewrite -cc; apply: (le_trans (last_bound n0 _ sx)).
exists (cadd v (cmul z' (cdot b x))); first by rewrite /= sb sx eqxx.
set Rb := 1 + z * _; set W := vnorm1 b; have W0 : 0 <= W := vnorm1_ge0 b.
set X := cvl n x in h; pose S := (B + err) * `|v|.
have nX : nrm1 X <= S.
  rewrite -[X](subrK (v *: c)) /S mulrDl [X in _ <= X]addrC.
  by apply: (le_trans (nrm1D _ _)); apply: ler_add.
have S0 : 0 <= S by apply: le_trans nX; exact: nrm1_ge0.
have dE : dot b x = (rvl n b *m X) 0 0.
  by rewrite (dotE sb sx) mxE; apply: eq_bigr => i _; rewrite !mxE.
set d := cdot b x; set d0 := dot b x in dE; pose d1 := (rvl n b *m (v *: c)) 0 0.
have hd : `|d - d0| <= ed * (W * S).
  apply: (le_trans (hdot (etrans sb (esym sx)))); apply: ler_wpmul2l => //.
  apply: le_trans (_ : W * nrm1 X <= _); last by rewrite ler_wpmul2l.
  rewrite sb /W (vnorm1E sb) mulr_suml; apply: ler_sum => i _; rewrite normrM ler_wpmul2l //.
  have -> : nth 0 x i = X i 0 by rewrite mxE.
  by rewrite /nrm1; apply: (@le_term _ _ (fun j => `|X j 0|)).
have nd0 : `|d0| <= W * S.
  by rewrite dE; apply: (le_trans (dot_bound _ sb)); rewrite ler_wpmul2l.
have hx : `|d0 - d1| <= W * (err * `|v|).
  have -> : d0 - d1 = (rvl n b *m (X - v *: c)) 0 0.
    by rewrite dE /d1 mulmxBr; move: (rvl n b *m X) (rvl n b *m (v *: c)) => e1 e2; rewrite !mxE.
  by apply: (le_trans (dot_bound _ sb)); apply: ler_wpmul2l.
have nd : `|d| <= (1 + ed) * (W * S).
  have -> : d = (d - d0) + d0 by ring.
  by apply: (le_trans (ler_norm_add _ _)); rewrite mulrDl mul1r addrC ler_add.
have zz := zE u0 hmul hdiv lam T N; rewrite -/z -/z' in zz.
have hm : `|cmul z' d - z * d| <= pw 3 * `|z * d|.
  by apply: (pwS u0 hmul) (lexx _); rewrite ![_ * d]mulrC; apply: sub_scale.
have zg : `|z * d| <= `|z| * ((1 + ed) * (W * S)) by rewrite normrM ler_wpmul2l.
have top : `|cmul z' d| <= (1 + u) ^+ 3 * (`|z| * ((1 + ed) * (W * S))).
  have -> : cmul z' d = (cmul z' d - z * d) + z * d by ring.
  apply: (le_trans (ler_norm_add _ _)); set y := (`|z| * _) in zg *.
  have -> : (1 + u) ^+ 3 * y = pw 3 * y + y by ring.
  by apply: ler_add => //; apply: (le_trans hm); apply: ler_wpmul2l => //; exact: pw0.
have RE : Rb * v = v + z * d1.
  rewrite /Rb mulrDl mul1r; congr (_ + _); rewrite -mulrA; congr (_ * _).
  by rewrite /d1 -scalemxAr [in RHS]mxE mulrC.
have -> : cadd v (cmul z' d) - Rb * v = (cadd v (cmul z' d) - (v + cmul z' d)) +
    ((cmul z' d - z * d) + z * (d - d0) + z * (d0 - d1)) by rewrite RE; ring.
apply: (le_trans (ler_norm_add _ _)).
apply: le_trans (_ : u * (`|v| + (1 + u) ^+ 3 * (`|z| * ((1 + ed) * (W * S)))) +
   (pw 3 * (`|z| * ((1 + ed) * (W * S))) + `|z| * (ed * (W * S)) + `|z| * (W * (err * `|v|))) <= _).
  apply: ler_add.
    apply: (le_trans (hadd _ _)); apply: ler_wpmul2l => //.
    by apply: (le_trans (ler_norm_add _ _)); rewrite ler_add2l.
  apply: (le_trans (ler_norm_add _ _)); apply: ler_add; last by rewrite normrM ler_wpmul2l.
  apply: (le_trans (ler_norm_add _ _)); apply: ler_add; last by rewrite normrM ler_wpmul2l.
  by apply: (le_trans hm); apply: ler_wpmul2l => //; exact: pw0.
rewrite upd_id /= -/W /S.
by rewrite le_eqVlt upd_id2 eqxx.
Qed.
Lemma stepk0 : 0 <= stepk.
Proof.
rewrite /stepk; case: (w) => [b|] //.
rewrite addr_ge0 // mulr_ge0 // ?mulr_ge0 ?vnorm1_ge0 // addr_ge0 // mulr_ge0 //; last exact: addr_ge0.
by rewrite subr_ge0 mulr_ege1 ?ler_addl // exprn_ege1 // ler_addl.
Qed.
Variables (Q : seq (seq K)) (qds : seq (seq (seq K))).
Hypothesis near : forall v, exists2 x, r_sweeps cadd csub cmul cdot csolve n z' v Q qds (nseq n v) = Ok x &
  size x = n /\ nrm1 (cvl n x - v *: c) <= err * `|v|.
Hypothesis nc : nrm1 c <= B.
Lemma steps_gen v k : exists2 us, r_sdc_steps cadd csub cmul cdot csolve n z' Q qds w k v = Ok us &
  size us = k /\ forall i, (i < k)%N ->
    `|nth 0 us i - stepR ^+ i.+1 * v| <= ((`|stepR| + stepk) ^+ i.+1 - `|stepR| ^+ i.+1) * `|v|.
Proof.
elim: k v => [|k ih] v; first by exists [::].
have [x ex [sx hx]] := near v.
have nv : nrm1 (v *: c) <= B * `|v| by rewrite nrm1Z mulrC ler_wpmul2r.
have [v' ev h1] := update_near sx hx nv; have [us eu [su hu]] := ih v'.
rewrite /= ex /= ev /= eu /=; eexists; first by reflexivity.
split=> [|[|i] il] /=; first by rewrite su.
  by rewrite !expr1 addrAC subrr add0r.
have -> : nth 0 us i - stepR ^+ i.+2 * v = (nth 0 us i - stepR ^+ i.+1 * v') + stepR ^+ i.+1 * (v' - stepR * v).
  by rewrite [stepR ^+ i.+2]exprSr; ring.
apply: (le_trans (ler_norm_add _ _)).
have nv' : `|v'| <= (`|stepR| + stepk) * `|v|.
  have -> : v' = (v' - stepR * v) + stepR * v by ring.
  by apply: (le_trans (ler_norm_add _ _)); rewrite [X in _ <= X]mulrDl -(normrM stepR) [X in _ <= X]addrC ler_add.
have k0 := stepk0.
have mono : 0 <= (`|stepR| + stepk) ^+ i.+1 - `|stepR| ^+ i.+1.
  have p0 : 0 <= `|stepR| by []. have p1 : `|stepR| <= `|stepR| + stepk by rewrite ler_addl.
  by rewrite subr_ge0; apply: ler_expn2r; rewrite ?nnegrE //; apply: addr_ge0.
apply: le_trans (_ : ((`|stepR| + stepk) ^+ i.+1 - `|stepR| ^+ i.+1) * ((`|stepR| + stepk) * `|v|) +
   `|stepR| ^+ i.+1 * (stepk * `|v|) <= _).
  apply: ler_add; first by apply: (le_trans (hu i il)); rewrite ler_wpmul2l.
  by rewrite normrM normrX ler_wpmul2l // exprn_ge0.
by rewrite !(exprSr _ i.+1) le_eqVlt; apply/orP; left; apply/eqP; ring.
Qed.
End P.
