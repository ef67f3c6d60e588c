(* Antiderivatives and definite integrals of polynomials in characteristic zero. *)
From mathcomp Require Import all_ssreflect all_algebra ring.
Set Implicit Arguments.
Unset Strict Implicit.
Unset Printing Implicit Defensive.
Import GRing.Theory Num.Theory.
Local Open Scope ring_scope.

Section PolyInt.
Variable F : numFieldType.
Implicit Types p q : {poly F}.

Definition aint p : {poly F} := \poly_(i < (size p).+1) (p`_i.-1 / i%:R *+ (i != 0)%N).

Lemma coef_aint p i : (aint p)`_i = p`_i.-1 / i%:R *+ (i != 0)%N.
Proof.
rewrite coef_poly; case: ltnP => // h; rewrite nth_default ?mul0r ?mul0rn //.
by case: i h.
Qed.

Lemma deriv_aint p : (aint p)^`() = p.
Proof.
apply/polyP => i; rewrite coef_deriv coef_aint /= mulr1n -mulr_natr divfK //.
by rewrite pnatr_eq0.
Qed.

Lemma size_aint p : (size (aint p) <= (size p).+1)%N.
Proof. exact: size_poly. Qed.

Lemma aint0 p : (aint p).[0] = 0.
Proof. by rewrite horner_coef0 coef_aint mulr0n. Qed.

Lemma aintD p q : aint (p + q) = aint p + aint q.
Proof. by apply/polyP => i; rewrite coefD !coef_aint coefD mulrDl mulrnDl. Qed.
Lemma aintZ a p : aint (a *: p) = a *: aint p.
Proof. by apply/polyP => i; rewrite coefZ !coef_aint coefZ -mulrA mulrnAr. Qed.
Lemma aint_zero : aint 0 = 0.
Proof. by apply/polyP => i; rewrite coef_aint !coef0 mul0r mul0rn. Qed.
Lemma aint_sum (I : Type) (r : seq I) (P : pred I) (f : I -> {poly F}) :
  aint (\sum_(i <- r | P i) f i) = \sum_(i <- r | P i) aint (f i).
Proof. exact: (big_morph _ aintD aint_zero). Qed.

Lemma deriv0_const p : p^`() = 0 -> p = (p`_0)%:P.
Proof.
move=> d0; apply/polyP => -[|i]; rewrite coefC //=.
have := congr1 (fun q : {poly F} => q`_i) d0; rewrite coef_deriv coef0 => /eqP.
by rewrite mulrn_eq0 /= => /eqP.
Qed.

Lemma deriv_eq_diff p q a b : p^`() = q^`() -> p.[b] - p.[a] = q.[b] - q.[a].
Proof.
move=> e; have /deriv0_const h : (p - q)^`() = 0 by rewrite derivB e subrr.
have : (p - q).[b] = (p - q).[a] by rewrite h !hornerC.
by rewrite !hornerD !hornerN => /eqP; rewrite subr_eq => /eqP ->; ring.
Qed.

(* definite integral *)
Definition pint p a b : F := (aint p).[b] - (aint p).[a].

Lemma pint_deriv p a b : pint p^`() a b = p.[b] - p.[a].
Proof. by apply: deriv_eq_diff; rewrite deriv_aint. Qed.
Lemma pintE p P a b : P^`() = p -> pint p a b = P.[b] - P.[a].
Proof. by move=> <-; apply: pint_deriv. Qed.
Lemma pintD p q a b : pint (p + q) a b = pint p a b + pint q a b.
Proof. by rewrite /pint aintD !hornerD; ring. Qed.
Lemma pintZ c p a b : pint (c *: p) a b = c * pint p a b.
Proof. by rewrite /pint aintZ !hornerZ; ring. Qed.
Lemma pint0 a b : pint 0 a b = 0.
Proof. by rewrite /pint aint_zero !horner0 subrr. Qed.
Lemma pintN p a b : pint (- p) a b = - pint p a b.
Proof. by rewrite -scaleN1r pintZ mulN1r. Qed.
Lemma pintB p q a b : pint (p - q) a b = pint p a b - pint q a b.
Proof. by rewrite pintD pintN. Qed.
Lemma pint_sum (I : Type) (r : seq I) (P : pred I) (f : I -> {poly F}) a b :
  pint (\sum_(i <- r | P i) f i) a b = \sum_(i <- r | P i) pint (f i) a b.
Proof. by rewrite (big_morph (fun p => pint p a b) (fun p q => pintD p q a b) (pint0 a b)). Qed.
Lemma pint_add p a b c : pint p a b + pint p b c = pint p a c.
Proof. by rewrite /pint; ring. Qed.
Lemma pint_sym p a b : pint p b a = - pint p a b.
Proof. by rewrite /pint; ring. Qed.
Lemma pint_refl p a : pint p a a = 0.
Proof. by rewrite /pint subrr. Qed.

(* affine substitution *)
Definition aff (s t : F) : {poly F} := s *: 'X + t%:P.
Lemma aff_horner s t y : (aff s t).[y] = s * y + t.
Proof. by rewrite /aff hornerD hornerZ hornerX hornerC. Qed.
Lemma size_aff s t : (size (aff s t) <= 2)%N.
Proof.
apply: leq_trans (size_add _ _) _; rewrite geq_max.
rewrite (leq_trans (size_scale_leq _ _)) ?size_polyX //=.
by rewrite (leq_trans (size_polyC_leq1 _)).
Qed.
Lemma size_comp_aff p s t : (size (p \Po aff s t) <= size p)%N.
Proof.
case: (p =P 0) => [->|/eqP p0]; first by rewrite comp_poly0.
apply: leq_trans (size_comp_poly_leq _ _) _.
have h := size_aff s t.
apply: (@leq_trans (((size p).-1 * 1).+1)).
  by rewrite ltnS leq_mul2l; apply/orP; right; case: (size _) h => [|[|[]]].
by rewrite muln1 prednK // lt0n size_poly_eq0.
Qed.
Lemma deriv_comp_aff p s t : (p \Po aff s t)^`() = s *: (p^`() \Po aff s t).
Proof.
rewrite deriv_comp /aff derivD derivZ derivX derivC addr0.
by rewrite -scalerAr mulr1.
Qed.
Lemma pint_aff p s t a b : s * pint (p \Po aff s t) a b = pint p (s * a + t) (s * b + t).
Proof.
rewrite -pintZ (@pintE _ (aint p \Po aff s t)); last by rewrite deriv_comp_aff deriv_aint.
by rewrite /pint !horner_comp !aff_horner.
Qed.

End PolyInt.
