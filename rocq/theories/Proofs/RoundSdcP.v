(* SDC sweeps in rounded arithmetic. *)
From Verif.Base Require Import Str.
From mathcomp Require Import all_ssreflect all_algebra ring.
From Verif.Base Require Import Outcome Arr LinSolve.
From Verif.Model Require Import Sdc RoundedSolve RoundedSdc.
From Verif.Spec Require Import QCoeffSpec SdcSpec RoundSolveSpec RoundSdcSpec.
From Verif.Proofs Require Import StabP RoundSolveP.
Set Implicit Arguments.
Unset Strict Implicit.
Unset Printing Implicit Defensive.
Import GRing.Theory Num.Theory Order.TTheory.
Local Open Scope ring_scope.

Lemma zid (V : zmodType) (a b c : V) : b - c = a - c - (a - b).
Proof. by rewrite opprB [in RHS]addrC addrA subrK. Qed.

Lemma nrm1N (K : numFieldType) n (x : 'cV[K]_n) : nrm1 (- x) = nrm1 x.
Proof. by rewrite /nrm1; apply: eq_bigr => i _; rewrite mxE normrN. Qed.

Section P.
Variable K : numFieldType.
Variables (u ed es : K).
Variables cadd csub cmul cdiv : K -> K -> K.
Variable cdot : seq K -> seq K -> K.
Variable csolve : seq (seq K) -> seq K -> option (seq K).
Hypotheses (u0 : 0 <= u) (ed0 : 0 <= ed) (es0 : 0 <= es).
Hypotheses (hadd : op_near u cadd +%R) (hsub : op_near u csub (fun a b => a - b)).
Hypotheses (hmul : op_near u cmul *%R) (hdiv : op_near u cdiv (fun a b => a / b)).
Hypotheses (hdot : dot_near ed cdot) (hsol : backward_stable es csolve).
Variables (n : nat) (Q : seq (seq K)) (lam T : K) (N : nat) (beta g m : K).
Hypothesis sQ : is_shape Q n n.
Let z := lam * (T / N%:R).
Let z' := cmul lam (cdiv T N%:R).
Let q := stage_err u es (n%:R + g) beta.
Hypotheses (b0 : 0 <= beta) (g0 : 0 <= g) (m0 : 0 <= m) (q1 : q < 1).
Notation pw k := ((1 + u) ^+ k - 1).
Let gam := rhs_err u ed.
Let del := sweep_err u ed es g beta n.
Let r := sweep_rate m beta.
Let r' := rounded_rate u ed es g beta m n.

Lemma near_mul k l (a x b y : K) : `|a - x| <= pw k * `|x| -> `|b - y| <= pw l * `|y| ->
  `|a * b - x * y| <= pw (k + l) * `|x * y|.
Proof.
move=> h1 h2; have -> : a * b - x * y = (a - x) * (b - y) + (a - x) * y + x * (b - y) by ring.
have -> : pw (k + l) * `|x * y| = pw k * `|x| * (pw l * `|y|) + pw k * `|x| * `|y| + `|x| * (pw l * `|y|).
  by rewrite normrM exprD; move: (_ ^+ k) (_ ^+ l) `|x| `|y| => c1 c2 c3 c4; ring.
apply: (le_trans (ler_norm_add _ _)); apply: ler_add; last by rewrite normrM ler_wpmul2l.
apply: (le_trans (ler_norm_add _ _)); apply: ler_add; rewrite normrM; first exact: ler_pmul.
by rewrite ler_wpmul2r.
Qed.
Lemma eps0 : 0 <= (1 + es) * (1 + u) ^+ 4 - 1.
Proof. by rewrite subr_ge0 mulr_ege1 ?ler_addl // exprn_ege1 // ler_addl. Qed.
Lemma q0 : 0 <= q.
Proof. by rewrite /q /stage_err mulr_ge0 // mulr_ge0 ?eps0 // addr_ge0 ?ler0n. Qed.
Lemma gam0 : 0 <= gam.
Proof. by rewrite /gam /rhs_err subr_ge0 mulr_ege1 ?ler_addl // exprn_ege1 // ler_addl. Qed.
Lemma del0 : 0 <= del.
Proof. by rewrite /del /sweep_err -/q divr_ge0 ?subr_ge0 ?(ltW q1) // mulr_ge0 // addr_ge0 ?gam0 ?q0. Qed.
Lemma r0 : 0 <= r. Proof. by rewrite mulr_ge0. Qed.
Lemma rr' : r <= r'. Proof. by rewrite ler_wpmul2l // ler_addl del0. Qed.
Lemma r'0 : 0 <= r'. Proof. exact: le_trans r0 rr'. Qed.

Section OneSweep.
Variable QD : seq (seq K).
Hypothesis hQD : sweep_bounds n z beta g m Q QD.
Let sD : is_shape QD n n. Proof. by case: hQD. Qed.
Let hb : inverse_bound (stagemx n QD z) beta. Proof. by case: hQD. Qed.
Let A := stagemx n QD z.
Let M := mxl n n Q - mxl n n QD.
Let qa : stage_err u es (n%:R + `|z| * mnorm QD) beta <= q.
Proof.
have [_ _ hg _] := hQD.
rewrite /q /stage_err; apply: ler_wpmul2l => //; apply: ler_wpmul2l; last by rewrite ler_add2l.
by rewrite subr_ge0 mulr_ege1 ?ler_addl // exprn_ege1 // ler_addl.
Qed.
Let qa1 : stage_err u es (n%:R + `|z| * mnorm QD) beta < 1.
Proof. exact: le_lt_trans qa q1. Qed.
Lemma Aunit : A \in unitmx. Proof. exact: A_unit hb. Qed.
Lemma nM (x : 'cV_n) : \sum_i \sum_j `|z * M i j| * `|x j 0| <= m * nrm1 x.
Proof.
have [_ _ _ hm] := hQD.
apply: le_trans (_ : `|z| * mnorm (msub Q QD) * nrm1 x <= _); last first.
  by apply: ler_wpmul2r => //; exact: nrm1_ge0.
have hx (j : 'I_n) : `|x j 0| <= nrm1 x by rewrite /nrm1; apply: (@le_term _ _ (fun j => `|x j 0|)).
move: (nrm1 x) hx => X hx.
rewrite (mnormE (msub_shape sQ sD)) mulr_sumr mulr_suml; apply: ler_sum => i _.
rewrite mulr_sumr mulr_suml; apply: ler_sum => j _.
rewrite normrM; have -> : M i j = ent (msub Q QD) i j.
  by rewrite (ent_msub sQ sD) // !mxE.
by apply: ler_wpmul2l; rewrite ?mulr_ge0.
Qed.
Lemma nMx (x : 'cV_n) : nrm1 (z *: (M *m x)) <= m * nrm1 x.
Proof.
apply: le_trans (nM x); apply: ler_sum => i _; rewrite mxE mxE mulr_sumr.
by apply: (le_trans (ler_norm_sum _ _ _)); apply: ler_sum => j _; rewrite mulrA normrM.
Qed.

Section Rhs.
Variables (v : K) (x : seq K).
Hypothesis sx : size x = n.
Let X := cvl n x.
Let B : 'cV_n := const_mx v + z *: (M *m X).
Let b := r_rhs cadd csub cmul cdot n z' v Q QD x.
Let tot := n%:R * `|v| + m * nrm1 X.
Lemma tot0 : 0 <= tot. Proof. by rewrite addr_ge0 ?mulr_ge0 ?ler0n // nrm1_ge0. Qed.

Lemma rhs_entry (i : 'I_n) : `|nth 0 b i - B i 0| <= gam * (`|v| + \sum_j `|z * M i j| * `|X j 0|).
Proof.
rewrite nth_mkseq //; set row := mkseq _ n; set S := \sum_j _.
have S0 : 0 <= S by apply: sumr_ge0 => j _; rewrite mulr_ge0.
have sr : size row = size x by rewrite size_mkseq sx.
have rowE (j : 'I_n) : `|nth 0 row j - z * M i j| <= pw 4 * `|z * M i j|.
  rewrite nth_mkseq //; apply: (pwS u0 hmul) (lexx _); apply: (@near_mul 2 1).
    exact: (zE u0 hmul hdiv).
  have -> : M i j = ent Q i j - ent QD i j by rewrite !mxE.
  by rewrite expr1 [1 + u]addrC addrK; apply: hsub.
pose d0 := \sum_j z * M i j * X j 0.
have BE : B i 0 = v + d0.
  by rewrite !mxE; congr (_ + _); rewrite mulr_sumr; apply: eq_bigr => j _; rewrite mulrA.
have dE : dot row x = \sum_(j < n) nth 0 row j * X j 0.
  by rewrite (dotE (size_mkseq _ _) sx); apply: eq_bigr => j _; rewrite !mxE.
have n1 : `|dot row x - d0| <= pw 4 * S.
  rewrite dE -sumrB mulr_sumr; apply: (le_trans (ler_norm_sum _ _ _)); apply: ler_sum => j _.
  by rewrite -mulrBl normrM mulrA ler_wpmul2r.
have n2 : `|cdot row x - dot row x| <= ed * ((1 + u) ^+ 4 * S).
  apply: (le_trans (hdot sr)); apply: ler_wpmul2l => //; rewrite size_mkseq mulr_sumr; apply: ler_sum => j _.
  have -> : nth 0 x j = X j 0 by rewrite mxE.
  rewrite normrM mulrA; apply: ler_wpmul2r => //.
  have -> : nth 0 row j = (nth 0 row j - z * M i j) + z * M i j by ring.
  apply: (le_trans (ler_norm_add _ _)).
  have -> : (1 + u) ^+ 4 * `|z * M i j| = pw 4 * `|z * M i j| + `|z * M i j| by ring.
  by rewrite ler_add2r.
have nd0 : `|d0| <= S.
  by apply: (le_trans (ler_norm_sum _ _ _)); apply: ler_sum => j _; rewrite normrM.
set d := cdot row x in n2 *.
pose G := (1 + u) ^+ 4 * (1 + ed) - 1.
have n3 : `|d - d0| <= G * S.
  have -> : d - d0 = (d - dot row x) + (dot row x - d0) by ring.
  apply: (le_trans (ler_norm_add _ _)).
  have -> : G * S = ed * ((1 + u) ^+ 4 * S) + pw 4 * S by rewrite /G; ring.
  exact: ler_add.
rewrite BE; have -> : cadd v d - (v + d0) = (cadd v d - (v + d)) + (d - d0) by ring.
apply: (le_trans (ler_norm_add _ _)).
have n4 : `|v + d| <= `|v| + (1 + G) * S.
  apply: (le_trans (ler_norm_add _ _)); rewrite ler_add2l.
  have -> : d = (d - d0) + d0 by ring.
  by apply: (le_trans (ler_norm_add _ _)); rewrite mulrDl mul1r addrC ler_add.
apply: le_trans (_ : u * (`|v| + (1 + G) * S) + G * S <= _).
  by apply: ler_add => //; apply: (le_trans (hadd _ _)); rewrite ler_wpmul2l.
have -> : gam * (`|v| + S) = (u * (`|v| + (1 + G) * S) + G * S) + (1 + u) * G * `|v|.
  by rewrite /gam /rhs_err /G exprS; ring.
have G0 : 0 <= G by rewrite /G subr_ge0 mulr_ege1 ?ler_addl // exprn_ege1 // ler_addl.
by rewrite ler_addl mulr_ge0 // mulr_ge0 // addr_ge0 ?ler01.
Qed.
Lemma rhs_near : nrm1 (cvl n b - B) <= gam * tot.
Proof.
apply: le_trans (_ : \sum_(i < n) gam * (`|v| + \sum_j `|z * M i j| * `|X j 0|) <= _).
  by apply: ler_sum => i _; rewrite 2!mxE [(- B) i 0]mxE; exact: rhs_entry.
rewrite -mulr_sumr; apply: ler_wpmul2l; first exact: gam0.
by rewrite big_split /= sumr_const card_ord -mulr_natl /tot ler_add2l nM.
Qed.
Lemma nB : nrm1 B <= tot.
Proof. by apply: (le_trans (nrm1D _ _)); rewrite nrm1_constc ler_add2l nMx. Qed.

Lemma sweep_near y : csolve (r_stage csub cmul n z' QD) b = Some y -> size y = n /\
  nrm1 (cvl n y - invmx A *m B) <= del * tot.
Proof.
move=> e; have sb : size b = n by rewrite size_mkseq.
have [h _] := hsol (A'_shape csub cmul cdiv n QD lam T N) sb; have [sy [E [sE nE eq]]] := h _ e.
split=> //; set Y := cvl n y in eq *.
have nDel := nDelta u0 es0 hsub hmul hdiv sD sE nE Y.
have ny := stage_bound u0 es0 hsub hmul hdiv sD b0 hb qa1 sE nE eq.
have q1' : 0 < 1 - q by rewrite subr_gt0.
have ny2 : nrm1 Y <= beta / (1 - q) * ((1 + gam) * tot).
  apply: (le_trans ny); apply: ler_pmul.
  - by rewrite divr_ge0 // subr_ge0 ltW.
  - exact: nrm1_ge0.
  - by rewrite ler_wpmul2l // lef_pinv ?posrE ?subr_gt0 // ler_add2l ler_opp2.
  have -> : cvl n b = (cvl n b - B) + B by rewrite subrK.
  by apply: (le_trans (nrm1D _ _)); rewrite mulrDl mul1r addrC; apply: ler_add; [exact: nB|exact: rhs_near].
have AyB : A *m (invmx A *m B) = B by rewrite mulKVmx // Aunit.
set D := (_ + _ - _) in nDel.
have e2 : A *m (Y - invmx A *m B) = (cvl n b - B) - D *m Y.
  have -> : D *m Y = cvl n b - A *m Y by rewrite /D (mulmxBl (_ + _) A) eq.
  by rewrite mulmxBr AyB; exact: zid.
apply: (le_trans (hb _)); rewrite -/(nrm1 _) e2.
have -> : del * tot = beta * (gam * tot) + q * (beta / (1 - q) * ((1 + gam) * tot)).
  rewrite /del /sweep_err -/q -/gam; have nz : 1 - q != 0 by rewrite gt_eqF.
  by move: nz; move: q gam tot => q2 g2 t2 nz; field.
apply: le_trans (_ : beta * (nrm1 (cvl n b - B) + nrm1 (D *m Y)) <= _).
  by apply: ler_wpmul2l => //; apply: (le_trans (nrm1D _ _)); rewrite nrm1N.
rewrite mulrDr; apply: ler_add; first by apply: ler_wpmul2l => //; exact: rhs_near.
apply: le_trans (_ : beta * (((1 + es) * (1 + u) ^+ 4 - 1) * (n%:R + `|z| * mnorm QD) * nrm1 Y) <= _).
  by apply: ler_wpmul2l.
rewrite mulrA; apply: ler_pmul => //; last exact: nrm1_ge0.
by apply: mulr_ge0 => //; apply: mulr_ge0; rewrite ?eps0 // addr_ge0 ?mulr_ge0 ?mnorm_ge0 ?ler0n.
Qed.
Lemma sweep_some : exists y, csolve (r_stage csub cmul n z' QD) b = Some y.
Proof.
have sb : size b = n by rewrite size_mkseq.
have [_ h] := hsol (A'_shape csub cmul cdiv n QD lam T N) sb.
case e : (csolve _ _) h => [s|] h; first by exists s.
by case: h => // E sE nE; apply: (B_unit u0 es0 hsub hmul hdiv sD b0 hb qa1 sE nE).
Qed.
End Rhs.

(* the collocation solution *)
Lemma st_split (x : 'cV_n) : A *m x = stagemx n Q z *m x + z *: (M *m x).
Proof.
rewrite /A /stagemx /M !mulmxBl !mul1mx -!scalemxAl scalerBr addrA subrK.
by [].
Qed.
Lemma coll_bound (c : 'cV_n) w : r < 1 -> stagemx n Q z *m c = w -> nrm1 c <= beta / (1 - r) * nrm1 w.
Proof.
move=> r1 e; have h := hb c; rewrite -/(nrm1 c) -/(nrm1 (_ *m c)) -/A st_split e in h.
rewrite mulrAC ler_pdivl_mulr ?subr_gt0 // mulrBr mulr1 ler_subl_addr.
apply: (le_trans h); apply: le_trans (_ : beta * (nrm1 w + m * nrm1 c) <= _).
  by apply: ler_wpmul2l => //; apply: (le_trans (nrm1D _ _)); rewrite ler_add2l nMx.
by rewrite mulrDr ler_add2l mulrA [nrm1 c * r]mulrC [beta * m]mulrC.
Qed.
Lemma coll_unit : r < 1 -> stagemx n Q z \in unitmx.
Proof.
move=> r1; apply: unitmx_inj => v /(coll_bound r1) h; apply: nrm1_eq0; apply: le_anti.
rewrite nrm1_ge0 andbT; apply: (le_trans h).
have -> : nrm1 (0 : 'cV[K]_n) = 0 by rewrite /nrm1 big1 // => i _; rewrite mxE normr0.
by rewrite mulr0.
Qed.
(* exact sweep *)
Lemma sweep_exact v (x c : 'cV_n) : stagemx n Q z *m c = const_mx v ->
  nrm1 (invmx A *m (const_mx v + z *: (M *m x)) - c) <= r * nrm1 (x - c).
Proof.
move=> e; set y := invmx A *m _.
have Ay : A *m y = const_mx v + z *: (M *m x) by rewrite mulKVmx // Aunit.
have Ec : A *m (y - c) = z *: (M *m (x - c)).
  by rewrite mulmxBr Ay st_split e mulmxBr scalerBr opprD addrACA subrr add0r.
apply: (le_trans (hb _)); rewrite -/(nrm1 _) -/A Ec /r /sweep_rate [m * beta]mulrC -mulrA.
by apply: ler_wpmul2l => //; exact: nMx.
Qed.
Lemma sweep_diff v (x y : 'cV_n) :
  nrm1 (invmx A *m (const_mx v + z *: (M *m x)) - invmx A *m (const_mx v + z *: (M *m y))) <= r * nrm1 (x - y).
Proof.
rewrite -mulmxBr opprD addrACA subrr add0r -scalerBr -mulmxBr.
set d := _ *m _; have Ad : A *m d = z *: (M *m (x - y)) by rewrite mulKVmx // Aunit.
apply: (le_trans (hb _)); rewrite -/(nrm1 _) -/A Ad /r /sweep_rate [m * beta]mulrC -mulrA.
by apply: ler_wpmul2l => //; exact: nMx.
Qed.
Lemma sweep_size v (x : 'cV_n) :
  nrm1 (invmx A *m (const_mx v + z *: (M *m x))) <= beta * (n%:R * `|v| + m * nrm1 x).
Proof.
set y := invmx A *m _; have Ay : A *m y = const_mx v + z *: (M *m x) by rewrite mulKVmx // Aunit.
apply: (le_trans (hb _)); rewrite -/(nrm1 _) -/A Ay; apply: ler_wpmul2l => //.
by apply: (le_trans (nrm1D _ _)); rewrite nrm1_constc ler_add2l nMx.
Qed.
End OneSweep.

Let run v qds x := r_sweeps cadd csub cmul cdot csolve n z' v Q qds x.
Let good (qds : seq (seq (seq K))) := forall D, D \in qds -> sweep_bounds n z beta g m Q D.

Section Coll.
Variables (v : K) (c : 'cV[K]_n).
Hypothesis hc : stagemx n Q z *m c = const_mx v.
Let D := del * (n%:R * `|v| + m * nrm1 c).
Lemma D0 : 0 <= D.
Proof. by rewrite mulr_ge0 ?del0 // addr_ge0 ?mulr_ge0 ?ler0n // nrm1_ge0. Qed.
Lemma one_sweep QD x : sweep_bounds n z beta g m Q QD -> size x = n ->
  exists2 y, csolve (r_stage csub cmul n z' QD) (r_rhs cadd csub cmul cdot n z' v Q QD x) = Some y &
    size y = n /\ nrm1 (cvl n y - c) <= r' * nrm1 (cvl n x - c) + D.
Proof.
move=> hD sx; have [y e] := sweep_some hD v x; have [sy h] := sweep_near hD sx e.
exists y => //; split=> //; set X := cvl n x in h *; set Y := cvl n y in h *.
have h2 := sweep_exact hD X hc; set I := invmx _ *m _ in h h2.
have -> : Y - c = (Y - I) + (I - c) by rewrite addrA subrK.
apply: (le_trans (nrm1D _ _)).
have nX : nrm1 X <= nrm1 (X - c) + nrm1 c by rewrite -{1}[X](subrK c); exact: nrm1D.
apply: le_trans (_ : del * (n%:R * `|v| + m * (nrm1 (X - c) + nrm1 c)) + r * nrm1 (X - c) <= _).
  apply: ler_add => //; apply: (le_trans h); apply: ler_wpmul2l; first exact: del0.
  by rewrite ler_add2l ler_wpmul2l.
rewrite /D /r' /rounded_rate -/del /r /sweep_rate.
by move: del (nrm1 (X - c)) (nrm1 c) => d e1 e2; rewrite le_eqVlt; apply/orP; left; apply/eqP; ring.
Qed.
Lemma sweeps_near qds x : good qds -> size x = n -> exists2 y, run v qds x = Ok y &
  size y = n /\ nrm1 (cvl n y - c) <= r' ^+ size qds * nrm1 (cvl n x - c) + D * \sum_(j < size qds) r' ^+ j.
Proof.
elim: qds x => [|QD qds ih] x hq sx.
  by exists x => //; split=> //; rewrite expr0 mul1r big_ord0 mulr0 addr0.
have hD : sweep_bounds n z beta g m Q QD by apply: hq; rewrite mem_head.
have [y e [sy h]] := one_sweep hD sx.
have hq' : good qds by move=> E hE; apply: hq; rewrite in_cons hE orbT.
have [t et [st ht]] := ih _ hq' sy; exists t; first by rewrite /run /= e; exact: et.
split=> //; apply: (le_trans ht).
have p0 : 0 <= r' ^+ size qds by rewrite exprn_ge0 // r'0.
apply: (@le_trans _ _ (r' ^+ size qds * (r' * nrm1 (cvl n x - c) + D) + D * (\sum_(j < size qds) r' ^+ j))).
  by rewrite ler_add2r ler_wpmul2l.
rewrite /size -/size big_ord_recr /= exprSr.
move: (r' ^+ _) (\sum_(j < _) _) (nrm1 _) D => e1 e2 e3 e4.
by rewrite le_eqVlt; apply/orP; left; apply/eqP; ring.
Qed.
End Coll.

Lemma geo k : r' < 1 -> \sum_(j < k) r' ^+ j <= (1 - r')^-1.
Proof.
move=> h; have p : 0 < 1 - r' by rewrite subr_gt0.
rewrite -[X in _ <= X]mul1r ler_pdivl_mulr //.
have e : (\sum_(j < k) r' ^+ j) * (1 - r') = 1 - r' ^+ k.
  elim: k => [|k ih]; first by rewrite big_ord0 mul0r expr0 subrr.
  by rewrite big_ord_recr /= mulrDl ih exprSr; move: (r' ^+ k) => e1; ring.
by rewrite e ler_subl_addr ler_addl exprn_ge0 // r'0.
Qed.

Let c1 : 'cV[K]_n := invmx (stagemx n Q z) *m const_mx 1.
Section Sweeps.
Variable qds : seq (seq (seq K)).
Hypotheses (hq : good qds) (q0' : (0 < size qds)%N) (r1 : r' < 1).
Let rl : r < 1. Proof. exact: le_lt_trans rr' r1. Qed.
Let pr : 0 < 1 - r. Proof. by rewrite subr_gt0. Qed.
Let pr' : 0 < 1 - r'. Proof. by rewrite subr_gt0. Qed.
Let h0 : sweep_bounds n z beta g m Q (nth [::] qds 0). Proof. by apply: hq; apply: mem_nth. Qed.
Lemma Qunit : stagemx n Q z \in unitmx. Proof. exact: (coll_unit h0 rl). Qed.
Lemma c1E v : stagemx n Q z *m (v *: c1) = const_mx v.
Proof.
rewrite -scalemxAr /c1 mulKVmx ?Qunit //.
by apply/matrixP => i j; rewrite !mxE mulr1.
Qed.
Lemma nc1 v : nrm1 (v *: c1) <= beta * n%:R / (1 - r) * `|v|.
Proof.
apply: (le_trans (coll_bound h0 rl (c1E v))); rewrite nrm1_constc le_eqVlt; apply/orP; left; apply/eqP.
by rewrite mulrAC -!mulrA; congr (_ * (_ * _)); rewrite mulrC.
Qed.
Let err := nodes_err u ed es g beta m n (size qds).
Lemma err0 : 0 <= err.
Proof.
rewrite /err /nodes_err mulr_ge0 ?ler0n // addr_ge0 //.
  by rewrite mulr_ge0 ?exprn_ge0 ?r'0 // addr_ge0 ?ler01 // divr_ge0 // ltW.
by rewrite divr_ge0 ?del0 // mulr_ge0 ?ltW.
Qed.
Lemma nodes_near v : exists2 y, run v qds (nseq n v) = Ok y &
  size y = n /\ nrm1 (cvl n y - v *: c1) <= err * `|v|.
Proof.
have [y e [sy h]] := sweeps_near (c1E v) hq (size_nseq n v).
exists y => //; split=> //; apply: (le_trans h); have nc := nc1 v.
have cst : cvl n (nseq n v) = const_mx v by apply/matrixP => i j; rewrite !mxE nth_nseq ltn_ord.
have e0 : nrm1 (cvl n (nseq n v) - v *: c1) <= n%:R * (1 + beta / (1 - r)) * `|v|.
  rewrite cst; apply: (le_trans (nrm1D _ _)); rewrite nrm1N nrm1_constc.
  have -> : n%:R * (1 + beta / (1 - r)) * `|v| = n%:R * `|v| + beta * n%:R / (1 - r) * `|v|.
    by move: (1 - r)^-1 => d; ring.
  by rewrite ler_add2l.
have e2 : del * (n%:R * `|v| + m * nrm1 (v *: c1)) <= del * (n%:R * `|v| / (1 - r)).
  apply: ler_wpmul2l; first exact: del0.
  apply: le_trans (_ : n%:R * `|v| + m * (beta * n%:R / (1 - r) * `|v|) <= _).
    by rewrite ler_add2l ler_wpmul2l.
  rewrite le_eqVlt; apply/orP; left; apply/eqP; have nz : 1 - m * beta != 0 by rewrite gt_eqF // -/(sweep_rate m beta) -/r.
  by rewrite /r /sweep_rate; move: nz `|v| (n%:R : K) => nz a1 a2; field.
apply: le_trans (_ : r' ^+ size qds * (n%:R * (1 + beta / (1 - r)) * `|v|) +
    del * (n%:R * `|v| / (1 - r)) * (1 - r')^-1 <= _).
  apply: ler_add; first by rewrite ler_wpmul2l // exprn_ge0 // r'0.
  apply: ler_pmul => //; last exact: geo.
  - by rewrite mulr_ge0 ?del0 // addr_ge0 ?mulr_ge0 ?ler0n // nrm1_ge0.
  by apply: sumr_ge0 => j _; rewrite exprn_ge0 // r'0.
rewrite /err /nodes_err -/r -/r' -/del invfM.
by move: (r' ^+ _) (1 - r)^-1 (1 - r')^-1 del `|v| (n%:R : K) => x1 x2 x3 x4 x5 x6;
   rewrite le_eqVlt; apply/orP; left; apply/eqP; ring.
Qed.

(* one step *)
Variable w : option (seq K).
Hypotheses (sw : if w is Some w then size w = n else True) (n0 : (0 < n)%N).
Let Rc := coll_factor n Q w z.
Let kap := sdc_step_err u ed es g beta m z (omap (@vnorm1 K) w) n (size qds).
Lemma last_bound (s : seq K) (x : 'cV[K]_n) : size s = n -> `|last 0 s - last 0 (lcv x)| <= nrm1 (cvl n s - x).
Proof.
move=> ss; have l1 : (n.-1 < n)%N by rewrite prednK.
rewrite -!nth_last size_lcv ss.
have -> : nth 0 (lcv x) n.-1 = x (Ordinal l1) 0 by rewrite -(nth_lcv x (Ordinal l1)).
have -> : nth 0 s n.-1 = cvl n s (Ordinal l1) 0 by rewrite mxE.
have -> : cvl n s (Ordinal l1) 0 - x (Ordinal l1) 0 = (cvl n s - x) (Ordinal l1) 0 by rewrite !mxE.
by rewrite /nrm1; apply: (@le_term _ _ (fun j => `|(cvl n s - x) j 0|)).
Qed.
Lemma upd_id (x y d S E V : K) : x * (V + (1 + x) ^+ 3 * (y * ((1 + d) * S))) +
   (((1 + x) ^+ 3 - 1) * (y * ((1 + d) * S)) + y * (d * S) + y * E) =
   x * V + y * (((1 + x) ^+ 4 * (1 + d) - 1) * S + E).
Proof. by ring. Qed.
Lemma upd_id2 (x V Z W P c e : K) : x * V + Z * (P * (W * ((c + e) * V)) + W * (e * V)) =
  (x + Z * W * (P * (c + e) + e)) * V.
Proof. by ring. Qed.
Lemma step_near' v : exists x v', [/\ run v qds (nseq n v) = Ok x, r_update cadd cmul cdot w z' v x = Ok v' &
  `|v' - Rc * v| <= kap * `|v|].
Proof.
have [x ex [sx h]] := nodes_near v; exists x.
have cc : last 0 (lcv (v *: c1)) = last 0 (lcv c1) * v.
  have l1 : (n.-1 < n)%N by rewrite prednK.
  rewrite -!nth_last !size_lcv -[n.-1]/(nat_of_ord (Ordinal l1)) !nth_lcv mxE; exact: mulrC.
rewrite /Rc /kap; case: (w) (sw) => [b|] sb; last first.
  exists (last 0 x); split=> //.
    by rewrite /=; case: x sx {ex h} => //= sx; move: n0; rewrite -sx.
  by rewrite /= -/c1 -cc; apply: (le_trans (last_bound _ sx)).
exists (cadd v (cmul z' (cdot b x))); split=> //; first by rewrite /= sb sx eqxx.
set Rb := coll_factor n Q (Some b) z; set W := vnorm1 b; have W0 : 0 <= W := vnorm1_ge0 b.
set X := cvl n x in h; pose S := (beta * n%:R / (1 - r) + err) * `|v|.
have nX : nrm1 X <= S.
  rewrite -[X](subrK (v *: c1)) /S mulrDl [X in _ <= X]addrC.
  by apply: (le_trans (nrm1D _ _)); apply: ler_add => //; exact: nc1.
have S0 : 0 <= S by apply: le_trans nX; exact: nrm1_ge0.
have dE : dot b x = (rvl n b *m X) 0 0.
  by rewrite (dotE sb sx) mxE; apply: eq_bigr => i _; rewrite !mxE.
set d := cdot b x; set d0 := dot b x in dE; pose d1 := (rvl n b *m (v *: c1)) 0 0.
have hd : `|d - d0| <= ed * (W * S).
  apply: (le_trans (hdot (etrans sb (esym sx)))); apply: ler_wpmul2l => //.
  apply: le_trans (_ : W * nrm1 X <= _); last by rewrite ler_wpmul2l.
  rewrite sb /W (vnorm1E sb) mulr_suml; apply: ler_sum => i _; rewrite normrM ler_wpmul2l //.
  have -> : nth 0 x i = X i 0 by rewrite mxE.
  by rewrite /nrm1; apply: (@le_term _ _ (fun j => `|X j 0|)).
have nd0 : `|d0| <= W * S.
  by rewrite dE; apply: (le_trans (dot_bound _ sb)); rewrite ler_wpmul2l.
have hx : `|d0 - d1| <= W * (err * `|v|).
  have -> : d0 - d1 = (rvl n b *m (X - v *: c1)) 0 0.
    by rewrite dE /d1 mulmxBr; move: (rvl n b *m X) (rvl n b *m (v *: c1)) => e1 e2; rewrite !mxE.
  by apply: (le_trans (dot_bound _ sb)); apply: ler_wpmul2l.
have nd : `|d| <= (1 + ed) * (W * S).
  have -> : d = (d - d0) + d0 by ring.
  by apply: (le_trans (ler_norm_add _ _)); rewrite mulrDl mul1r addrC ler_add.
have zz := zE u0 hmul hdiv lam T N; rewrite -/z -/z' in zz.
have hm : `|cmul z' d - z * d| <= pw 3 * `|z * d|.
  by apply: (pwS u0 hmul) (lexx _); rewrite ![_ * d]mulrC; apply: sub_scale.
have zg : `|z * d| <= `|z| * ((1 + ed) * (W * S)) by rewrite normrM ler_wpmul2l.
have top : `|cmul z' d| <= (1 + u) ^+ 3 * (`|z| * ((1 + ed) * (W * S))).
  have -> : cmul z' d = (cmul z' d - z * d) + z * d by ring.
  apply: (le_trans (ler_norm_add _ _)); set y := (`|z| * _) in zg *.
  have -> : (1 + u) ^+ 3 * y = pw 3 * y + y by ring.
  by apply: ler_add => //; apply: (le_trans hm); apply: ler_wpmul2l => //; exact: pw0.
have RE : Rb * v = v + z * d1.
  rewrite /Rb /= /stabf mulrDl mul1r; congr (_ + _); rewrite -mulrA; congr (_ * _).
  by rewrite /d1 -scalemxAr [in RHS]mxE mulrC /c1 mulmxA.
have -> : cadd v (cmul z' d) - Rb * v = (cadd v (cmul z' d) - (v + cmul z' d)) +
    ((cmul z' d - z * d) + z * (d - d0) + z * (d0 - d1)) by rewrite RE; ring.
apply: (le_trans (ler_norm_add _ _)).
apply: le_trans (_ : u * (`|v| + (1 + u) ^+ 3 * (`|z| * ((1 + ed) * (W * S)))) +
   (pw 3 * (`|z| * ((1 + ed) * (W * S))) + `|z| * (ed * (W * S)) + `|z| * (W * (err * `|v|))) <= _).
  apply: ler_add.
    apply: (le_trans (hadd _ _)); apply: ler_wpmul2l => //.
    by apply: (le_trans (ler_norm_add _ _)); rewrite ler_add2l.
  apply: (le_trans (ler_norm_add _ _)); apply: ler_add; last by rewrite normrM ler_wpmul2l.
  apply: (le_trans (ler_norm_add _ _)); apply: ler_add; last by rewrite normrM ler_wpmul2l.
  by apply: (le_trans hm); apply: ler_wpmul2l => //; exact: pw0.
rewrite upd_id /= -/W -/err -/r /S.
by rewrite le_eqVlt upd_id2 eqxx.
Qed.
Lemma kapS0 : 0 <= kap.
Proof.
rewrite /kap; case: (w) => [b|] /=; last exact: err0.
rewrite -/err addr_ge0 // mulr_ge0 // ?mulr_ge0 ?vnorm1_ge0 // addr_ge0 ?err0 // mulr_ge0 //.
  by rewrite subr_ge0 mulr_ege1 ?ler_addl // exprn_ege1 // ler_addl.
by rewrite addr_ge0 ?err0 // divr_ge0 ?mulr_ge0 ?ler0n // ltW.
Qed.
Lemma steps_near v k : exists2 us, r_sdc_steps cadd csub cmul cdot csolve n z' Q qds w k v = Ok us &
  size us = k /\ forall i, (i < k)%N ->
    `|nth 0 us i - Rc ^+ i.+1 * v| <= ((`|Rc| + kap) ^+ i.+1 - `|Rc| ^+ i.+1) * `|v|.
Proof.
elim: k v => [|k ih] v; first by exists [::].
have [x [v' [ex ev h1]]] := step_near' v; have [us eu [su hu]] := ih v'.
rewrite /=; move: ex; rewrite /run => -> /=; rewrite ev /= eu /=; eexists; first by reflexivity.
split=> [|[|i] il] /=; first by rewrite su.
  by rewrite !expr1 addrAC subrr add0r.
have -> : nth 0 us i - Rc ^+ i.+2 * v = (nth 0 us i - Rc ^+ i.+1 * v') + Rc ^+ i.+1 * (v' - Rc * v).
  by rewrite [Rc ^+ i.+2]exprSr; ring.
apply: (le_trans (ler_norm_add _ _)).
have nv' : `|v'| <= (`|Rc| + kap) * `|v|.
  have -> : v' = (v' - Rc * v) + Rc * v by ring.
  by apply: (le_trans (ler_norm_add _ _)); rewrite [X in _ <= X]mulrDl -(normrM Rc) [X in _ <= X]addrC ler_add.
have k0 := kapS0.
have mono : 0 <= (`|Rc| + kap) ^+ i.+1 - `|Rc| ^+ i.+1.
  have p0 : 0 <= `|Rc| by []. have p1 : `|Rc| <= `|Rc| + kap by rewrite ler_addl.
  by rewrite subr_ge0; apply: ler_expn2r; rewrite ?nnegrE //; apply: addr_ge0.
apply: le_trans (_ : ((`|Rc| + kap) ^+ i.+1 - `|Rc| ^+ i.+1) * ((`|Rc| + kap) * `|v|) +
   `|Rc| ^+ i.+1 * (kap * `|v|) <= _).
  apply: ler_add; first by apply: (le_trans (hu i il)); rewrite ler_wpmul2l.
  by rewrite normrM normrX ler_wpmul2l // exprn_ge0.
by rewrite !(exprSr _ i.+1) le_eqVlt; apply/orP; left; apply/eqP; ring.
Qed.
End Sweeps.

(* rounding errors against the exact sweeps *)
Lemma sdcv_ext (f h : nat -> seq (seq K)) k : (forall j, (j < k)%N -> f j = h j) -> sdcv n Q f z k = sdcv n Q h z k.
Proof. by elim: k => //= k ih e; rewrite ih => [|j jk]; rewrite e // ltnW. Qed.
Lemma run_rcons v qds D x : run v (rcons qds D) x =
  obind (run v qds x) (fun y => run v [:: D] y).
Proof.
rewrite /run; elim: qds x => [|E qds ih] x /=; first by [].
by case: (csolve _ _) => //= y; exact: ih.
Qed.
Lemma sweeps_rounding v qds : good qds -> r' < 1 -> exists2 y, run v qds (nseq n v) = Ok y & size y = n /\
  nrm1 (cvl n y - v *: sdcv n Q (nth [::] qds) z (size qds)) <= sweeps_round u ed es g beta m n * `|v|.
Proof.
move=> hq r1; have rl : r < 1 by exact: le_lt_trans rr' r1.
have pr : 0 < 1 - r by rewrite subr_gt0. have pr' : 0 < 1 - r' by rewrite subr_gt0.
have cst : cvl n (nseq n v) = const_mx v by apply/matrixP => i j; rewrite !mxE nth_nseq ltn_ord.
pose Tc := (1 - r')^-1 + m; have i1 : 1 <= (1 - r')^-1.
  by rewrite -[X in X <= _]invr1 lef_pinv ?posrE ?ltr01 // ler_subl_addr ler_addl r'0.
pose a := n%:R * `|v|; have a0 : 0 <= a by rewrite mulr_ge0 ?ler0n.
suff: exists2 y, run v qds (nseq n v) = Ok y & [/\ size y = n, a + m * nrm1 (cvl n y) <= a * Tc &
  nrm1 (cvl n y - v *: sdcv n Q (nth [::] qds) z (size qds)) <= sweeps_round u ed es g beta m n * `|v|].
  by case=> y e [h1 _ h3]; exists y.
have sr : sweeps_round u ed es g beta m n * `|v| = del * (a * Tc) / (1 - r).
  by rewrite /sweeps_round -/r -/r' -/del /a /Tc; move: (1 - r)^-1 (1 - r')^-1 del => x1 x2 x3; ring.
have Tc0 : 0 <= Tc by rewrite addr_ge0 // invr_ge0 ltW.
elim/last_ind: qds hq => [|qds D ih] hq.
  exists (nseq n v) => //; split; first by rewrite size_nseq.
    by rewrite cst nrm1_constc -/a /Tc mulrDr [m * a]mulrC ler_add2r ler_pemulr.
  rewrite cst /= sr; have -> : const_mx v - v *: const_mx 1 = 0 :> 'cV[K]_n.
    by apply/matrixP => i j; rewrite !mxE mulr1 subrr.
  rewrite /nrm1 big1 => [|i _]; last by rewrite mxE normr0.
  by apply: divr_ge0; [apply: mulr_ge0; [exact: del0|exact: mulr_ge0]|exact: ltW].
have hD : sweep_bounds n z beta g m Q D by apply: hq; rewrite mem_rcons mem_head.
have [x ex [sx tx dx]] : exists2 y, run v qds (nseq n v) = Ok y & [/\ size y = n, a + m * nrm1 (cvl n y) <= a * Tc &
  nrm1 (cvl n y - v *: sdcv n Q (nth [::] qds) z (size qds)) <= sweeps_round u ed es g beta m n * `|v|].
  by apply: ih => E hE; apply: hq; rewrite mem_rcons in_cons hE orbT.
have [y ey] := sweep_some hD v x; have [sy h] := sweep_near hD sx ey.
exists y; first by rewrite run_rcons ex /= /run /= ey.
set X := cvl n x in tx dx h; set Y := cvl n y in h *; set I := invmx _ *m _ in h.
have nI := sweep_size hD v X; rewrite -/I -/a in nI; rewrite -/a in h.
have nY : nrm1 Y <= (beta + del) * (a + m * nrm1 X).
  rewrite -[Y](subrK I) [beta + del]addrC mulrDl; apply: (le_trans (nrm1D _ _)); exact: ler_add.
split=> //.
  apply: le_trans (_ : a + r' * (a * Tc) <= _).
    rewrite ler_add2l; apply: le_trans (ler_wpmul2l m0 nY) _; rewrite mulrA; apply: ler_wpmul2l => //; exact: r'0.
  have eT : a * Tc = a + r' * (a * Tc) + (1 - r') * m * a.
    rewrite /Tc; have nz : 1 - r' != 0 by rewrite gt_eqF.
    by move: nz; move: r' => x1 nz; field.
  by rewrite [X in _ <= X]eT ler_addl mulr_ge0 // mulr_ge0 // ltW.
rewrite size_rcons /=.
have -> : nth [::] (rcons qds D) (size qds) = D by rewrite nth_rcons ltnn eqxx.
have -> : sdcv n Q (nth [::] (rcons qds D)) z (size qds) = sdcv n Q (nth [::] qds) z (size qds).
  by apply: sdcv_ext => j jl; rewrite nth_rcons jl.
set P := sdcv n Q _ z _ in dx *.
have -> : v *: (invmx (stagemx n D z) *m (const_mx 1 + z *: ((mxl n n Q - mxl n n D) *m P))) =
  invmx (stagemx n D z) *m (const_mx v + z *: ((mxl n n Q - mxl n n D) *m (v *: P))).
  rewrite scalemxAr scalerDr -scalemxAr !scalerA [v * z]mulrC.
  by congr (_ *m (_ + _)); apply/matrixP => i j; rewrite !mxE mulr1.
have dd := sweep_diff hD v X (v *: P); rewrite -/I in dd; set J := invmx _ *m (_ + _ *: (_ *m (v *: P))) in dd *.
have -> : Y - J = (Y - I) + (I - J) by rewrite addrA subrK.
apply: (le_trans (nrm1D _ _)).
apply: le_trans (_ : del * (a * Tc) + r * (del * (a * Tc) / (1 - r)) <= _).
  apply: ler_add; first by apply: (le_trans h); apply: ler_wpmul2l => //; exact: del0.
  by apply: (le_trans dd); apply: ler_wpmul2l; [exact: r0|rewrite -sr].
rewrite sr le_eqVlt; apply/orP; left; apply/eqP; have nz : 1 - r != 0 by rewrite gt_eqF.
by move: nz; move: r (del * _) => x1 x2 nz; field.
Qed.
End P.
