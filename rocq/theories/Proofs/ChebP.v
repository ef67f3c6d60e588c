(* Chebyshev polynomials: degrees, derivatives, integrals, and the span of the first ones. *)
From Verif.Base Require Import Str.
From mathcomp Require Import all_ssreflect all_algebra ring zify.
From Verif.Base Require Import PolyInterp PolyInt.
Set Implicit Arguments.
Unset Strict Implicit.
Unset Printing Implicit Defensive.
Import GRing.Theory Num.Theory Order.TTheory.
Local Open Scope ring_scope.

Section Cheb.
Variable F : realFieldType.
Implicit Types p q : {poly F}.

(* pairs (T_n, T_(n+1)) and (U_n, U_(n+1)) *)
Fixpoint chebTT n : {poly F} * {poly F} :=
  if n is n'.+1 then let: (a, b) := chebTT n' in (b, 2%:R *: ('X * b) - a) else (1, 'X).
Fixpoint chebUU n : {poly F} * {poly F} :=
  if n is n'.+1 then let: (a, b) := chebUU n' in (b, 2%:R *: ('X * b) - a) else (1, 2%:R *: 'X).
Definition chebT n := (chebTT n).1.
Definition chebU n := (chebUU n).1.

Lemma chebT0 : chebT 0 = 1. Proof. by []. Qed.
Lemma chebT1 : chebT 1 = 'X. Proof. by []. Qed.
Lemma chebT_rec n : chebT n.+2 = 2%:R *: ('X * chebT n.+1) - chebT n.
Proof. by rewrite /chebT /=; case: (chebTT n). Qed.
Lemma chebU0 : chebU 0 = 1. Proof. by []. Qed.
Lemma chebU1 : chebU 1 = 2%:R *: 'X. Proof. by []. Qed.
Lemma chebU_rec n : chebU n.+2 = 2%:R *: ('X * chebU n.+1) - chebU n.
Proof. by rewrite /chebU /=; case: (chebUU n). Qed.

(* two step induction *)
Lemma ind2 (P : nat -> Prop) : P 0%N -> P 1%N -> (forall n, P n -> P n.+1 -> P n.+2) -> forall n, P n.
Proof.
move=> h0 h1 h n; suff [] : P n /\ P n.+1 by [].
by elim: n => [|n [ih1 ih2]]; split=> //; apply: h.
Qed.

Lemma size_chebT n : size (chebT n) = n.+1.
Proof.
suff [] : size (chebT n) = n.+1 /\ (0 < lead_coef (chebT n)) by [].
elim/ind2: n => [||n [s1 l1] [s2 l2]]; first by rewrite chebT0 size_poly1 lead_coef1 ltr01.
  by rewrite chebT1 size_polyX lead_coefX ltr01.
have two : (2%:R : F) != 0 by rewrite pnatr_eq0.
have nz : chebT n.+1 != 0 by rewrite -size_poly_gt0 s2.
have sl : size (2%:R *: ('X * chebT n.+1)) = n.+3.
  by rewrite size_scale // mulrC size_mulX // s2.
have lt : (size (- chebT n) < size (2%:R *: ('X * chebT n.+1)))%N by rewrite size_opp sl s1; lia.
rewrite chebT_rec size_addl // sl; split=> //.
by rewrite lead_coefDl // lead_coefZ mulrC lead_coefM lead_coefX mulrC mul1r mulr_gt0 // ltr0n.
Qed.

Lemma chebT_at1 n : (chebT n).[1] = 1.
Proof.
elim/ind2: n => [||n h1 h2]; rewrite ?chebT0 ?chebT1 ?hornerC ?hornerX //.
by rewrite chebT_rec hornerD hornerN hornerZ hornerM hornerX h1 h2; ring.
Qed.
Lemma chebT_atN1 n : (chebT n).[-1] = (-1) ^+ n.
Proof.
elim/ind2: n => [||n h1 h2]; rewrite ?chebT0 ?chebT1 ?hornerC ?hornerX //.
by rewrite chebT_rec hornerD hornerN hornerZ hornerM hornerX h1 h2 !exprS; ring.
Qed.

Lemma chebTU n : 2%:R *: chebT n.+2 = chebU n.+2 - chebU n.
Proof.
elim/ind2: n => [||n h1 h2].
- by rewrite chebT_rec chebU_rec chebT1 chebT0 chebU1 chebU0 -!mul_polyC; ring.
- by rewrite !chebT_rec !chebU_rec chebT1 chebT0 chebU1 chebU0 -!mul_polyC; ring.
have e1 : chebU n.+2 = 2%:R *: chebT n.+2 + chebU n by rewrite h1 subrK.
have e2 : chebU n.+3 = 2%:R *: chebT n.+3 + chebU n.+1 by rewrite h2 subrK.
rewrite chebT_rec chebU_rec e2 {1}e1 [X in _ - X]chebU_rec.
by move: (chebT n.+2) (chebT n.+3) (chebU n) (chebU n.+1) => a b c d; rewrite -!mul_polyC; ring.
Qed.

Lemma chebT_deriv n : (chebT n.+1)^`() = n.+1%:R *: chebU n.
Proof.
elim/ind2: n => [||n h1 h2].
- by rewrite chebT1 derivX chebU0 scale1r.
- by rewrite chebT_rec chebT1 chebT0 derivD derivN derivZ derivM derivX derivC chebU1 -!mul_polyC; ring.
rewrite chebT_rec derivD derivN derivZ derivM derivX h1 h2 mul1r.
have e : 2%:R *: chebT n.+2 = 2%:R *: ('X * chebU n.+1) - 2%:R *: chebU n.
  by rewrite chebTU chebU_rec -!mul_polyC; ring.
rewrite scalerDr e chebU_rec; move: (chebU n) (chebU n.+1) => c d.
have e3 : n.+3%:R = n%:R + 3%:R :> F by rewrite -natrD addn3.
have e2 : n.+2%:R = n%:R + 2%:R :> F by rewrite -natrD addn2.
have e1 : n.+1%:R = n%:R + 1 :> F by rewrite -addn1 natrD.
by rewrite e3 e2 e1; move: (n%:R) => m; rewrite -!mul_polyC !polyCD; ring.
Qed.

Lemma pint_chebT n : pint (chebT n) (-1) 1 = if odd n then 0 else 2%:R / (1 - n%:R ^+ 2).
Proof.
case: n => [|[|n]].
- rewrite chebT0 (@pintE _ _ 'X) ?derivX // !hornerX expr0n /= subr0 divr1; ring.
- rewrite chebT1 (@pintE _ _ (2%:R^-1 *: 'X^2)) ?hornerZ ?hornerXn.
    by rewrite !expr2; ring.
  by rewrite derivZ derivXn expr1 -scaler_nat scalerA mulVf ?scale1r // pnatr_eq0.
pose Q : {poly F} := (2%:R * n.+3%:R)^-1 *: chebT n.+3 - (2%:R * n.+1%:R)^-1 *: chebT n.+1.
have nz3 : n.+3%:R != 0 :> F by rewrite pnatr_eq0.
have nz1 : n.+1%:R != 0 :> F by rewrite pnatr_eq0.
have two : (2%:R : F) != 0 by rewrite pnatr_eq0.
have dQ : Q^`() = chebT n.+2.
  rewrite derivD derivN !derivZ !chebT_deriv !scalerA !invfM -!mulrA !mulVf // mulr1 -scalerBr -chebTU.
  by rewrite scalerA mulVf // scale1r.
rewrite (pintE _ _ dQ) !hornerD !hornerN !hornerZ !chebT_at1 !chebT_atN1.
have -> : (-1) ^+ n.+3 = (-1) ^+ n.+1 :> F by rewrite !exprS; ring.
rewrite /= negbK; rewrite -signr_odd /=; case: (odd n) => /=.
  by rewrite expr0; ring.
rewrite expr1 (_ : n.+2%:R = n.+1%:R + 1 :> F); last by rewrite -addn1 natrD.
have e3 : n.+3%:R = n.+1%:R + 2%:R :> F by rewrite -natrD addn2.
rewrite e3 in nz3 *; move: (n.+1%:R) nz1 nz3 => a a0 a2.
have -> : 1 - (a + 1) ^+ 2 = - (a * (a + 2%:R)) by ring.
by field; rewrite a0 a2.
Qed.

(* a linear relation that holds for T_0 ... T_(n-1) holds for all polynomials of degree < n *)
Lemma cheb_span (L : {poly F} -> F) n : (forall c p q, L (c *: p + q) = c * L p + L q) ->
  (forall r, (r < n)%N -> L (chebT r) = 0) -> forall p, (size p <= n)%N -> L p = 0.
Proof.
move=> lin h; have L0 : L 0 = 0.
  by have := lin 1 0 0; rewrite scale1r addr0 mul1r -{1}[L 0]addr0 => /addrI <-.
elim: n h => [|n ih] h p sp; first by move: sp; rewrite leqn0 size_poly_eq0 => /eqP ->.
have nz : lead_coef (chebT n) != 0 by rewrite lead_coef_eq0 -size_poly_gt0 size_chebT.
pose c := p`_n / lead_coef (chebT n).
have -> : p = c *: chebT n + (p - c *: chebT n) by rewrite addrC subrK.
rewrite lin h // mulr0 add0r; apply: ih => [r rn|]; first by apply: h; rewrite ltnS ltnW.
apply/leq_sizeP => j; rewrite leq_eqVlt => /orP [/eqP <-|nj].
  by rewrite coefB coefZ {1}/c /lead_coef size_chebT /= divfK ?subrr // -/(lead_coef _); move: nz; rewrite /lead_coef size_chebT.
rewrite coefB coefZ !nth_default ?mulr0 ?subr0 //; first by rewrite size_chebT.
exact: leq_trans sp nj.
Qed.
End Cheb.
