(* Integrals of the nodal polynomials of equidistant nodes do not vanish: summation over unit
   intervals reduces them to integrals of products of positive linear factors over [0,1]. *)
From Verif.Base Require Import Str.
From mathcomp Require Import all_ssreflect all_algebra ring zify.
From Verif.Base Require Import Arr PolyInterp PolyInt.
From Verif.Proofs Require Import QuadP.
Set Implicit Arguments.
Unset Strict Implicit.
Unset Printing Implicit Defensive.
Import GRing.Theory Num.Theory Order.TTheory.
Local Open Scope ring_scope.

Section Equid.
Variable F : realFieldType.
Implicit Types (p q : {poly F}) (a b c : F).

(* linear factors with values u.1 at 1 and u.2 at 0 *)
Definition lin (u : F * F) : {poly F} := u.1 *: 'X + u.2 *: (1 - 'X).
Definition lpos (u : F * F) : bool := [&& 0 <= u.1, 0 <= u.2 & 0 < u.1 + u.2].

Lemma beta01 i j : 0 < pint ((1 - 'X) ^+ j * 'X ^+ i) 0 1 :> F.
Proof.
have := beta_int (0 : F) 1 j i; rewrite /dnw /upw subr0 polyC0 subr0 polyC1.
rewrite -scalerAl -scalerAr !pintZ expr1n mul1r => e.
have h : 0 < ((j + i).+1`!)%:R^-1 :> F by rewrite invr_gt0 ltr0n fact_gt0.
move: h; rewrite -e !pmulr_rgt0 ?invr_gt0 ?ltr0n ?fact_gt0 //.
Qed.

Lemma prod_pos (us : seq (F * F)) : all lpos us -> 0 < pint (\prod_(u <- us) lin u) 0 1.
Proof.
suff h i j : all lpos us -> 0 < pint ((1 - 'X) ^+ j * 'X ^+ i * \prod_(u <- us) lin u) 0 1.
  by move=> /(h 0%N 0%N); rewrite !expr0 !mul1r.
elim: us i j => [|u us ih] i j /=; first by rewrite big_nil mulr1 beta01.
case/andP => /and3P [u1 u2 us0] al; rewrite big_cons.
set Pi := \prod_(v <- us) lin v.
have -> : (1 - 'X) ^+ j * 'X ^+ i * (lin u * Pi) =
  u.1 *: ((1 - 'X) ^+ j * 'X ^+ i.+1 * Pi) + u.2 *: ((1 - 'X) ^+ j.+1 * 'X ^+ i * Pi).
  have g (x y v w X Y : {poly F}) : x * y * ((v * X + w * Y) * Pi) = v * (x * (X * y) * Pi) + w * (Y * x * y * Pi) by ring.
  by rewrite /lin -!mul_polyC !exprS; apply: g.
have h1 := ih i.+1 j al; have h2 := ih i j.+1 al.
rewrite pintD !pintZ; move: us0 u1 u2 h1 h2; rewrite -/Pi.
move: (pint _ 0 1) (pint _ 0 1) (u.1) (u.2) => A B x y s0 x0 y0 A0 B0.
case: (ltgtP 0 x) x0 => // [x0|x0] _; first by rewrite ltr_paddr ?mulr_gt0 ?mulr_ge0 // ltW.
by move: s0; rewrite -x0 mul0r !add0r => y1; rewrite mulr_gt0.
Qed.

Lemma nS k : k.+1%:R = k%:R + 1 :> F. Proof. by rewrite -addn1 natrD. Qed.
(* (X - lo) (X - lo - 1) ... with k factors *)
Definition ff (lo : F) k : {poly F} := \prod_(i < k) ('X - (lo + i%:R)%:P).
Lemma ffS lo k : ff lo k.+1 = ff lo k * ('X - (lo + k%:R)%:P).
Proof. by rewrite /ff big_ord_recr. Qed.
Lemma ffSl lo k : ff lo k.+1 = ('X - lo%:P) * ff (lo + 1) k.
Proof.
rewrite /ff big_ord_recl addr0; congr (_ * _); apply: eq_bigr => i _.
by congr ('X - _%:P); rewrite nS; move: (i%:R) => y; ring.
Qed.
Lemma ff_shift lo k c : ff lo k \Po ('X + c%:P) = ff (lo - c) k.
Proof.
rewrite /ff rmorph_prod; apply: eq_bigr => i _ /=.
rewrite comp_polyB comp_polyX comp_polyC !polyCD polyCN; move: ('X : {poly F}) (c%:P) (lo%:P) (i%:R%:P) => x y z t.
by ring.
Qed.
Lemma ff_refl lo k c : ff lo k \Po (c%:P - 'X) = (-1) ^+ k *: ff (c - lo - k%:R + 1) k.
Proof.
rewrite /ff rmorph_prod /= (reindex_inj rev_ord_inj) /=.
rewrite -[X in X *: _](_ : \prod_(i < k) (-1) = _); last by rewrite prodr_const card_ord.
rewrite -scaler_prod; apply: eq_bigr => i _; rewrite comp_polyB comp_polyX comp_polyC scaleN1r opprB.
have -> : c - lo - k%:R + 1 + i%:R = c - (lo + (k - i.+1)%:R).
  by rewrite natrB // nS; move: (k%:R) ((val i)%:R) => x y; ring.
by rewrite [in RHS]polyCB; move: (c%:P) ('X : {poly F}) (_%:P) => x y z; ring.
Qed.
(* differences *)
Lemma ff_diff lo k : (ff lo k.+1 \Po ('X + 1%:P)) - ff lo k.+1 = k.+1%:R *: ff lo k.
Proof.
rewrite ff_shift ffSl subrK ffS [_ * ff lo k]mulrC -mulrBr -mul_polyC mulrC; congr (_ * _).
rewrite nS !polyCD polyCN; move: ('X : {poly F}) (lo%:P) (k%:R%:P) (1%:P : {poly F}) => x y z t; ring.
Qed.
Lemma telescope p (n : nat) : pint (p \Po ('X + 1%:P) - p) 0 n%:R = pint ((p \Po (n.+1%:R%:P - 'X)) - p) 0 1.
Proof.
have a1 : 'X + 1%:P = aff (1 : F) 1 by rewrite /aff scale1r.
have a2 : n.+1%:R%:P - 'X = aff (-1 : F) n.+1%:R by rewrite /aff scaleN1r addrC.
have e1 := pint_aff p 1 1 0 n%:R; have e2 := pint_aff p (-1) n.+1%:R 0 1.
rewrite !pintB a1 a2; rewrite mul1r mulr0 mul1r add0r -nS in e1; rewrite e1.
rewrite mulr0 add0r mulr1 [-1 + _]addrC nS addrK -nS mulN1r [in RHS]pint_sym in e2.
move/oppr_inj: e2 => ->.
rewrite -(pint_add p 1 n%:R n.+1%:R) -(pint_add p 0 1 n%:R); move: (pint p _ _) (pint p _ _) (pint p _ _) => x y z; ring.
Qed.
(* the integral over [0,n] as one over [0,1] *)
Lemma ff_int lo k (n : nat) : k.+1%:R * pint (ff lo k) 0 n%:R =
  pint ((-1) ^+ k.+1 *: ff (n%:R + 1 - lo - k%:R) k.+1 - ff lo k.+1) 0 1.
Proof.
rewrite -pintZ -ff_diff telescope ff_refl; congr (pint (_ *: ff _ _ - _) _ _).
by rewrite (nS n) (nS k); move: (n%:R) (k%:R) => x y; ring.
Qed.

(* signs on [0,1] *)
Lemma ff1_pos k (us : seq (F * F)) : all lpos us ->
  pint (ff 1 k * \prod_(u <- us) lin u) 0 1 != 0.
Proof.
move=> al; have e : ff 1 k = (-1) ^+ k *: \prod_(u <- [seq (i%:R, i.+1%:R) | i <- iota 0 k]) lin u.
  have ei : iota 0 k = index_iota 0 k by rewrite /index_iota subn0.
  rewrite big_map ei big_mkord /ff.
  rewrite -[X in X *: _](_ : \prod_(i < k) (-1) = _); last by rewrite prodr_const card_ord.
  rewrite -scaler_prod; apply: eq_bigr => i _; rewrite /lin nS -!mul_polyC !polyCD polyCN polyC1.
  by move: ('X : {poly F}) ((val i)%:R%:P) => x y; ring.
rewrite e -scalerAl pintZ -big_cat mulf_neq0 ?signr_eq0 // gt_eqF // prod_pos // all_cat al andbT.
by rewrite all_map; apply/allP => i _; rewrite /lpos /= !ler0n -natrD ltr0n addnS.
Qed.
Lemma pC2 : 2%:R%:P = 2%:R :> {poly F}. Proof. by rewrite polyCMn. Qed.
Lemma linX : lin (1, 0) = 'X. Proof. by rewrite /lin scale1r scale0r addr0. Qed.
Lemma linC c : lin (c, c) = c%:P.
Proof. by rewrite /lin -!mul_polyC mulrBr mulr1 addrC subrK. Qed.

Section Cases.
Variable n : nat.
Hypothesis n0 : (0 < n)%N.
Let nn : n.+1%:R%:P = n%:R%:P + 1 :> {poly F}. Proof. by rewrite nS polyCD polyC1. Qed.
Let dec := (n.-1%:R, n.+1%:R) : F * F.
Let decE : lin dec = n.+1%:R%:P - 2%:R *: 'X.
Proof.
have e : n%:R = n.-1%:R + 1 :> F by rewrite -nS prednK.
rewrite /lin /dec /= nS e -!mul_polyC pC2 !polyCD polyC1.
by move: ('X : {poly F}) (n.-1%:R%:P) => x y; ring.
Qed.
Let decP : lpos dec. Proof. by rewrite /lpos /= !ler0n -natrD ltr0n addnS. Qed.
Let incP : lpos (n.+1%:R, n.+1%:R). Proof. by rewrite /lpos /= !ler0n -natrD ltr0n. Qed.
Lemma neq_of_mul k (x : F) : k.+1%:R * x != 0 -> x != 0.
Proof. by apply: contraNneq => ->; rewrite mulr0. Qed.

(* nodes 0 .. n-1 *)
Lemma left_int : pint (ff 0 n) 0 n%:R != 0.
Proof.
apply: (@neq_of_mul n); rewrite ff_int subr0 addrAC subrr add0r (ffS 1) (ffSl 0) subr0 add0r.
rewrite exprS -signr_odd; case: (odd n).
  have -> : (-1 * (-1) ^+ true) *: (ff 1 n * ('X - (1 + n%:R)%:P)) - 'X * ff 1 n =
     - (ff 1 n * \prod_(u <- [:: (n.+1%:R, n.+1%:R)]) lin u).
    rewrite big_seq1 linC expr1 mulrNN mulr1 scale1r nn polyCD polyC1.
    by move: ('X : {poly F}) (ff 1 n) (n%:R%:P) => x y z; ring.
  by rewrite pintN oppr_eq0 ff1_pos //= incP.
have -> : (-1 * (-1) ^+ false) *: (ff 1 n * ('X - (1 + n%:R)%:P)) - 'X * ff 1 n =
     ff 1 n * \prod_(u <- [:: dec]) lin u.
  rewrite big_seq1 decE expr0 mulr1 scaleN1r nn polyCD polyC1 -mul_polyC pC2.
  by move: ('X : {poly F}) (ff 1 n) (n%:R%:P) => x y z; ring.
by rewrite ff1_pos //= decP.
Qed.
(* nodes 1 .. n *)
Lemma right_int : pint (ff 1 n) 0 n%:R != 0.
Proof.
apply: (@neq_of_mul n); rewrite ff_int addrK subrr (ffS 1) (ffSl 0) subr0 add0r.
rewrite exprS -signr_odd; case: (odd n).
  have -> : (-1 * (-1) ^+ true) *: ('X * ff 1 n) - ff 1 n * ('X - (1 + n%:R)%:P) =
     ff 1 n * \prod_(u <- [:: (n.+1%:R, n.+1%:R)]) lin u.
    rewrite big_seq1 linC expr1 mulrNN mulr1 scale1r nn polyCD polyC1.
    by move: ('X : {poly F}) (ff 1 n) (n%:R%:P) => x y z; ring.
  by rewrite ff1_pos //= incP.
have -> : (-1 * (-1) ^+ false) *: ('X * ff 1 n) - ff 1 n * ('X - (1 + n%:R)%:P) =
     ff 1 n * \prod_(u <- [:: dec]) lin u.
  rewrite big_seq1 decE expr0 mulr1 scaleN1r nn polyCD polyC1 -mul_polyC pC2.
  by move: ('X : {poly F}) (ff 1 n) (n%:R%:P) => x y z; ring.
by rewrite ff1_pos //= decP.
Qed.
(* nodes 1 .. n-1 *)
Lemma inner_int : odd n -> pint (ff 1 n.-1) 0 n%:R != 0.
Proof.
move=> od; apply: (@neq_of_mul n.-1); rewrite ff_int prednK // -signr_odd od expr1.
have -> : n%:R + 1 - 1 - n.-1%:R = 1 :> F by rewrite addrK -{1}(prednK n0) nS addrAC subrr add0r.
rewrite scaleN1r -opprD pintN oppr_eq0 pintD -mulr2n mulrn_eq0 /=.
by have := ff1_pos n (us := [::]) isT; rewrite big_nil mulr1.
Qed.
Lemma inner_mom : ~~ odd n -> pint ('X * ff 1 n.-1) 0 n%:R != 0.
Proof.
move=> od; have z : pint (ff 1 n.-1) 0 n%:R = 0.
  have h : n.-1.+1%:R != 0 :> F by rewrite pnatr_eq0.
  apply: (mulfI h); rewrite mulr0 ff_int prednK // -signr_odd (negbTE od) expr0 scale1r.
  have -> : n%:R + 1 - 1 - n.-1%:R = 1 :> F by rewrite addrK -{1}(prednK n0) nS addrAC subrr add0r.
  by rewrite subrr pint0.
have e : ff 1 n = 'X * ff 1 n.-1 - n%:R *: ff 1 n.-1.
  by rewrite -{1}(prednK n0) ffS [1 + _]addrC -nS prednK // mulrBr mulrC -mul_polyC [_ * _%:P]mulrC.
have := right_int; by rewrite e pintB pintZ z mulr0 subr0.
Qed.
(* nodes 0 .. n *)
Lemma full_int : odd n -> pint (ff 0 n.+1) 0 n%:R != 0.
Proof.
move=> od; apply: (@neq_of_mul n.+1); rewrite ff_int nS subr0 subrr -signr_odd /= od expr1.
rewrite scaleN1r -opprD pintN oppr_eq0 pintD -mulr2n mulrn_eq0 /= ffSl subr0 add0r mulrC.
have := ff1_pos n.+1 (us := [:: (1, 0)]); rewrite big_seq1 linX /lpos /= lexx addr0 ler01 ltr01.
exact.
Qed.
Lemma full_mom : ~~ odd n -> pint ('X * ff 0 n.+1) 0 n%:R != 0.
Proof.
move=> od; have z : pint (ff 0 n.+1) 0 n%:R = 0.
  have h : n.+2%:R != 0 :> F by rewrite pnatr_eq0.
  apply: (mulfI h); rewrite mulr0 ff_int nS subr0 subrr -signr_odd /= (negbTE od) expr0 scale1r.
  by rewrite subrr pint0.
have e : ff 0 n.+2 = 'X * ff 0 n.+1 - n.+1%:R *: ff 0 n.+1.
  by rewrite ffS add0r mulrBr mulrC -mul_polyC [_ * _%:P]mulrC.
suff : pint (ff 0 n.+2) 0 n%:R != 0 by rewrite e pintB pintZ z mulr0 subr0.
apply: (@neq_of_mul n.+2); rewrite ff_int -signr_odd /= (negbTE od) expr1.
have -> : n%:R + 1 - 0 - n.+2%:R = -1 :> F by rewrite (nS n.+1) (nS n); move: (n%:R) => y; ring.
rewrite ffSl addNr [ff 0 n.+3]ffS add0r.
have -> : -1 *: (('X - (-1)%:P) * ff 0 n.+2) - ff 0 n.+2 * ('X - n.+2%:R%:P) =
  ff 1 n.+1 * \prod_(u <- [:: (1, 0); dec]) lin u.
  rewrite big_cons big_seq1 linX decE ffSl subr0 add0r scaleN1r polyCN polyC1 -mul_polyC pC2.
  have -> : n.+2%:R%:P = n%:R%:P + 2%:R :> {poly F} by rewrite -addn2 natrD polyCD pC2.
  rewrite nn.
  by move: ('X : {poly F}) (ff 1 n.+1) (n%:R%:P) => x y z'; ring.
by rewrite ff1_pos //= decP /lpos /= lexx addr0 ler01 ltr01.
Qed.
End Cases.
End Equid.
