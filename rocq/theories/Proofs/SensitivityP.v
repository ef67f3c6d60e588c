(* Amplification factors of perturbed coefficients. *)
From Verif.Base Require Import Str.
From mathcomp Require Import all_ssreflect all_algebra ring.
From Verif.Base Require Import Outcome Arr LinSolve.
From Verif.Spec Require Import QCoeffSpec RoundSolveSpec RoundSdcSpec SensitivitySpec.
From Verif.Proofs Require Import StabP RoundSolveP RoundSdcP.
Set Implicit Arguments.
Unset Strict Implicit.
Unset Printing Implicit Defensive.
Import GRing.Theory Num.Theory Order.TTheory.
Local Open Scope ring_scope.

Section P.
Variable K : numFieldType.
(* increasing in the base *)
Lemma pow_incr (x y c : K) i : 0 <= x -> x <= y -> 0 <= c -> (x + c) ^+ i - x ^+ i <= (y + c) ^+ i - y ^+ i.
Proof.
move=> x0 xy c0; have y0 : 0 <= y by apply: le_trans xy.
rewrite !subrXX; have -> : x + c - x = c by ring. have -> : y + c - y = c by ring.
apply: ler_wpmul2l => //; apply: ler_sum => j _.
by apply: ler_pmul; rewrite ?exprn_ge0 ?addr_ge0 //; apply: ler_expn2r; rewrite ?nnegrE ?addr_ge0 ?ler_add2r.
Qed.
Lemma pow_near (x y s : K) i : `|y - x| <= s -> `|y ^+ i - x ^+ i| <= (`|x| + s) ^+ i - `|x| ^+ i.
Proof.
move=> h; have s0 : 0 <= s by apply: le_trans h.
have ny : `|y| <= `|x| + s.
  by rewrite -[y](subrK x) addrC; apply: (le_trans (ler_norm_add _ _)); rewrite ler_add2l.
rewrite !subrXX normrM; have -> : `|x| + s - `|x| = s by ring.
apply: ler_pmul => //; apply: (le_trans (ler_norm_sum _ _ _)); apply: ler_sum => j _.
rewrite normrM !normrX; apply: ler_pmul; rewrite ?exprn_ge0 //.
by apply: ler_expn2r; rewrite ?nnegrE ?addr_ge0.
Qed.
(* an approximation of the powers of an approximate factor *)
Lemma pow_compose (x y s c a v : K) i : `|y - x| <= s -> 0 <= c ->
  `|a - y ^+ i * v| <= ((`|y| + c) ^+ i - `|y| ^+ i) * `|v| ->
  `|a - x ^+ i * v| <= ((`|x| + (s + c)) ^+ i - `|x| ^+ i) * `|v|.
Proof.
move=> h c0 ha; have s0 : 0 <= s by apply: le_trans h.
have ny : `|y| <= `|x| + s.
  by rewrite -[y](subrK x) addrC; apply: (le_trans (ler_norm_add _ _)); rewrite ler_add2l.
have -> : a - x ^+ i * v = (a - y ^+ i * v) + (y ^+ i - x ^+ i) * v by ring.
apply: (le_trans (ler_norm_add _ _)).
have -> : ((`|x| + (s + c)) ^+ i - `|x| ^+ i) * `|v| =
   ((`|x| + s + c) ^+ i - (`|x| + s) ^+ i) * `|v| + ((`|x| + s) ^+ i - `|x| ^+ i) * `|v|.
  by rewrite addrA; move: (_ ^+ i) (_ ^+ i) (_ ^+ i) => e1 e2 e3; ring.
apply: ler_add; last by rewrite normrM ler_wpmul2r // pow_near.
by apply: (le_trans ha); apply: ler_wpmul2r => //; apply: pow_incr.
Qed.

Variables (n : nat) (Q Q' : seq (seq K)) (w w' : option (seq K)) (eQ ew z beta : K).
Hypotheses (hc : coeffs_near n eQ ew Q Q' w w') (b0 : 0 <= beta) (hb : inverse_bound (stagemx n Q z) beta).
Hypothesis p1 : beta * `|z| * eQ < 1.
Let A := stagemx n Q z.
Let A' := stagemx n Q' z.
Let sQ : is_shape Q n n. Proof. by case: hc. Qed.
Let sQ' : is_shape Q' n n. Proof. by case: hc. Qed.
Let p := beta * `|z| * eQ.
Lemma eQ0 : 0 <= eQ. Proof. by have [_ _ h _] := hc; apply: le_trans h; exact: mnorm_ge0. Qed.
Lemma p0 : 0 <= p. Proof. by rewrite !mulr_ge0 // eQ0. Qed.
Lemma AA' (x : 'cV_n) : A *m x = A' *m x + z *: (mxl n n (msub Q' Q) *m x).
Proof.
rewrite /A /A' /stagemx (mxl_msub sQ' sQ) !mulmxBl !mul1mx -!scalemxAl scalerBr addrA subrK.
by [].
Qed.
Lemma nd (x : 'cV_n) : nrm1 (z *: (mxl n n (msub Q' Q) *m x)) <= `|z| * eQ * nrm1 x.
Proof.
have [_ _ h _] := hc; rewrite nrm1Z -mulrA; apply: ler_wpmul2l => //.
apply: (le_trans (nrm1_mul x (msub_shape sQ' sQ))); apply: ler_wpmul2r => //; exact: nrm1_ge0.
Qed.
Lemma pert_inverse : inverse_bound A' (pert_beta eQ beta z).
Proof.
move=> x; rewrite -/(nrm1 x) -/(nrm1 (A' *m x)).
have h := hb x; rewrite -/(nrm1 x) -/(nrm1 (_ *m x)) -/A AA' in h.
rewrite /pert_beta -/p mulrAC ler_pdivl_mulr ?subr_gt0 // mulrBr mulr1 ler_subl_addr.
apply: (le_trans h); apply: le_trans (_ : beta * (nrm1 (A' *m x) + `|z| * eQ * nrm1 x) <= _).
  by apply: ler_wpmul2l => //; apply: (le_trans (nrm1D _ _)); rewrite ler_add2l nd.
by rewrite mulrDr ler_add2l /p [nrm1 x * _]mulrC !mulrA.
Qed.
Lemma pert_beta0 : 0 <= pert_beta eQ beta z.
Proof. by rewrite /pert_beta -/p divr_ge0 // subr_ge0 ltW. Qed.
Lemma ib_unit (B : 'M[K]_n) c : inverse_bound B c -> B \in unitmx.
Proof.
move=> h; apply: unitmx_inj => v e; apply: nrm1_eq0; apply: le_anti; rewrite nrm1_ge0 andbT.
apply: (le_trans (h v)); rewrite e big1 ?mulr0 // => i _; by rewrite mxE normr0.
Qed.
Let x : 'cV[K]_n := invmx A *m const_mx 1.
Let x' : 'cV[K]_n := invmx A' *m const_mx 1.
Let X := pert_beta eQ beta z * n%:R.
Lemma nx' : nrm1 x' <= X.
Proof.
apply: (le_trans (pert_inverse _)); rewrite mulKVmx ?(ib_unit pert_inverse) // -/(nrm1 _).
by rewrite nrm1_const.
Qed.
Lemma nxx : nrm1 (x' - x) <= p * X.
Proof.
have e : A *m (x' - x) = z *: (mxl n n (msub Q' Q) *m x').
  have e1 : A *m x = const_mx 1 by rewrite mulKVmx // (ib_unit hb).
  have e2 : A' *m x' = const_mx 1 by rewrite mulKVmx // (ib_unit pert_inverse).
  by rewrite mulmxBr e1 AA' e2 addrAC subrr add0r.
apply: (le_trans (hb _)); rewrite -/(nrm1 _) -/A e /p -!mulrA; apply: ler_wpmul2l => //.
rewrite mulrA; apply: (le_trans (nd _)); apply: ler_wpmul2l; last exact: nx'.
by rewrite mulr_ge0 // eQ0.
Qed.
Lemma factor_near : `|coll_factor n Q' w' z - coll_factor n Q w z| <=
  factor_err eQ ew beta z (omap (@vnorm1 K) w) n.
Proof.
have [_ _ _] := hc; case: (w) (w') => [b|] [b'|] //= [].
  move=> sb sb' hw; rewrite /factor_err -/p -/X.
  have -> : stabf n Q' b' z - stabf n Q b z = z * ((rvl n (vsub b' b) *m x') 0 0 + (rvl n b *m (x' - x)) 0 0).
    have -> : rvl n (vsub b' b) = rvl n b' - rvl n b.
      by apply/matrixP => i j; rewrite !mxE /vsub (nth_map (0, 0)) ?size_zip ?sb ?sb' ?minnn // nth_zip ?sb ?sb'.
    rewrite /stabf; have -> : rvl n b' *m invmx (stagemx n Q' z) *m const_mx 1 = rvl n b' *m x' by rewrite -mulmxA.
    have -> : rvl n b *m invmx (stagemx n Q z) *m const_mx 1 = rvl n b *m x by rewrite -mulmxA.
    rewrite (mulmxBr (rvl n b)) (mulmxBl (rvl n b')).
    move: (rvl n b' *m x') (rvl n b *m x') (rvl n b *m x) => e1 e2 e3; rewrite !mxE.
    by move: (e1 _ _) (e2 _ _) (e3 _ _) => a1 a2 a3; ring.
  rewrite normrM -mulrA; apply: ler_wpmul2l => //; apply: (le_trans (ler_norm_add _ _)).
  rewrite mulrDl; apply: ler_add.
    have sv : size (vsub b' b) = n by rewrite size_map size_zip sb sb' minnn.
    apply: (le_trans (dot_bound _ sv)); apply: ler_pmul => //; [exact: vnorm1_ge0|exact: nrm1_ge0|exact: nx'].
  apply: (le_trans (dot_bound _ sb)); rewrite -mulrA; apply: ler_wpmul2l; [exact: vnorm1_ge0|exact: nxx].
rewrite /factor_err -/p -/X => n0.
have := last_bound n0 x (size_lcv x'); rewrite lcvK => h.
by apply: (le_trans h); exact: nxx.
Qed.
Lemma factor_err0 : 0 <= factor_err eQ ew beta z (omap (@vnorm1 K) w) n.
Proof. exact: le_trans factor_near. Qed.
End P.
