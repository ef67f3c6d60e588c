(* The complex exponential: functional equation and Taylor remainders. *)
From Coq Require Import Reals.
From Verif.Base Require Import Str.
From mathcomp Require Import all_ssreflect all_algebra ring complex.
From Verif.Base Require Import RField RRcf ExpTaylor.
From Verif.Spec Require Import QCoeffSpec SdcSpec ConvSpec.
Set Implicit Arguments.
Unset Strict Implicit.
Unset Printing Implicit Defensive.
Import GRing.Theory Num.Theory Order.TTheory.
Local Open Scope ring_scope.

Lemma cexpD (z w : CC) : cexp (z + w) = cexp z * cexp w.
Proof.
case: z w => [a b] [c d]; rewrite /cexp /=.
have eR : exp (a + c) = exp a * exp c by exact: exp_plus.
have cR : cos (b + d) = cos b * cos d - sin b * sin d by exact: cos_plus.
have sR : sin (b + d) = sin b * cos d + cos b * sin d by exact: sin_plus.
by rewrite eR cR sR; apply/eqP; rewrite eq_complex /=; apply/andP; split; apply/eqP; ring.
Qed.

Lemma cpowE (a b : R) k : (Complex a b : CC) ^+ k = Complex (c1 a b k) (c2 a b k).
Proof.
elim: k => [|k ih]; first by [].
by rewrite exprS ih.
Qed.
Lemma expserE (a b : R) q : expser q (Complex a b : CC) =
  Complex (tsum (c1 a b) q.+1 1) (tsum (c2 a b) q.+1 1).
Proof.
have term k : (Complex a b : CC) ^+ k / (k`!)%:R = Complex (tterm k 1 * c1 a b k) (tterm k 1 * c2 a b k).
  have k0 : (k`!)%:R != 0 :> R by rewrite pnatr_eq0 -lt0n fact_gt0.
  have -> : tterm k 1 = (k`!)%:R^-1 :> R.
    rewrite /tterm pow1 rinvE // rnatE; have -> : fact k = k`! by elim: k {k0} => // k ih; rewrite factS -ih.
    by rewrite /Rdiv Rmult_1_l.
  have -> : ((k`!)%:R : CC)^-1 = ((k`!)%:R^-1 : R)%:C%C.
    by rewrite -[in LHS](rmorph_nat (ComplexField.real_complex_rmorphism r_realFieldType)) -fmorphV.
  rewrite cpowE; apply/eqP; rewrite eq_complex /=; apply/andP; split; apply/eqP; ring.
rewrite /expser; elim: q => [|q ih].
  rewrite big_ord1 term; apply/eqP; rewrite eq_complex /=; apply/andP; split; apply/eqP; by rewrite Rplus_0_l.
by rewrite big_ord_recr /= ih term.
Qed.

Lemma normcR (x : R) : `|toC x| = toC `|x|.
Proof. by rewrite normc_def /= expr0n addr0 sqrtr_sqr. Qed.
Lemma normc_real (z : CC) : exists2 r : R, `|z| = toC r & 0 <= r.
Proof.
rewrite normc_def; exists (Num.sqrt (complex.Re z ^+ 2 + complex.Im z ^+ 2)) => //.
exact: sqrtr_ge0.
Qed.
Lemma norm_parts (x y B : R) : `|x| <= B -> `|y| <= B -> `|Complex x y : CC| <= toC (2%:R * B).
Proof.
move=> hx hy; have -> : (Complex x y : CC) = toC x + 'i%C * toC y by rewrite {1}(complexE (Complex x y)).
apply: (le_trans (ler_norm_add _ _)); rewrite normrM !normcR.
have -> : `|'i%C : CC| = 1 by rewrite normc_def /= expr0n expr1n add0r sqrtr1.
by rewrite mul1r -rmorphD /= lecR mulrDl mul1r ler_add.
Qed.
Lemma parts_norm (a b r : R) : `|Complex a b : CC| = toC r -> `|a| <= r /\ `|b| <= r.
Proof.
rewrite normc_def => /complexI /= <-; split; rewrite -sqrtr_sqr ler_wsqrtr //.
  by rewrite ler_addl sqr_ge0.
by rewrite ler_addr sqr_ge0.
Qed.

Theorem cexp_taylor q (z : CC) : `|z| <= 1 ->
  `|cexp z - expser q z| <= toC (2%:R * exp 1 * 2%:R ^+ q.+1) * `|z| ^+ q.+1.
Proof.
case: z => a b; have [r er r0] := normc_real (Complex a b); rewrite er => r1.
have [/rleE ha /rleE hb] := parts_norm er.
have r1' : r <= 1 by move: r1; rewrite -(rmorph1 toC) /= lecR.
have I : Rle R0 R1 /\ Rle R1 R1 by split; [exact: Rle_0_1|exact: Rle_refl].
have [h1 h2] := @remainder a b r ha hb q.+1 R1 I.
have E : exp r * (2%:R * r * 1) ^+ q.+1 <= exp 1 * 2%:R ^+ q.+1 * r ^+ q.+1.
  rewrite mulr1 exprMn mulrA; do 2 (apply: ler_wpmul2r; first by rewrite exprn_ge0 ?ler0n).
  move/rleE: r1' => [h|h]; last by rewrite h.
  by apply/rleE; left; apply: exp_increasing.
have P (f : R) : Rle (Rabs f) (Rmult (exp r) (pow (Rmult (Rmult 2 r) R1) q.+1)) ->
    `|f| <= exp 1 * 2%:R ^+ q.+1 * r ^+ q.+1.
  by move=> /rleE h; apply: le_trans E; move: h; rewrite -rexpE.
rewrite expserE /cexp -rmorphX -rmorphM /=.
have -> : (Complex (exp a * cos b) (exp a * sin b) : CC) - Complex (tsum (c1 a b) q.+1 1) (tsum (c2 a b) q.+1 1) =
    Complex (d1 a b q.+1 1) (d2 a b q.+1 1).
  rewrite /d1 /d2 /g1 /g2 !Rmult_1_r; apply/eqP; rewrite eq_complex /=; apply/andP; split; apply/eqP; exact: erefl.
have := norm_parts (P _ h1) (P _ h2); by rewrite !mulrA.
Qed.

Corollary cexp_agrees q : agrees cexp (expser q) q.
Proof. by exists (toC (2%:R * exp 1 * 2%:R ^+ q.+1)), 1; split; [exact: ltr01|exact: cexp_taylor]. Qed.
