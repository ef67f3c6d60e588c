(* Integrals of the nodal polynomials of the Chebyshev types do not vanish. *)
From Verif.Base Require Import Str.
From mathcomp Require Import all_ssreflect all_algebra ring zify.
From Verif.Base Require Import Arr PolyInterp PolyInt.
From Verif.Spec Require Import NodesSpec.
From Verif.Proofs Require Import NodesThms ChebP QuadP.
Set Implicit Arguments.
Unset Strict Implicit.
Unset Printing Implicit Defensive.
Import GRing.Theory Num.Theory Order.TTheory.
Local Open Scope ring_scope.

Section Cheb.
Variable F : realFieldType.
Implicit Types (p q : {poly F}) (c x : F).
Notation I p := (pint p (-1) 1).
Notation T := (chebT F).
Notation U := (chebU F).
Notation P nt k := (clas F nt k).

Lemma clasC nt k : nt != "LEGENDRE"%string -> P nt k.+2 = 2%:R *: ('X * P nt k.+1) - P nt k.
Proof. by move=> /negbTE h; rewrite clasS h. Qed.
Lemma clasT k : P "CHEBY-1" k = T k.
Proof. by elim/ind2: k => [||k h1 h2] //; rewrite clasS chebT_rec h1 h2. Qed.
Lemma clasU k : P "CHEBY-2" k = U k.
Proof. by elim/ind2: k => [||k h1 h2] //; rewrite clasS chebU_rec h1 h2. Qed.
(* third and fourth kind *)
Definition Up k : {poly F} := if k is j.+1 then U j else 0.
Definition Z (e : F) k : {poly F} := U k + e *: Up k.
Lemma clasV k : P "CHEBY-3" k = Z (-1) k.
Proof.
elim/ind2: k => [||k h1 h2]; rewrite /Z /Up.
- by rewrite scaler0 addr0.
- by rewrite scaleN1r.
rewrite clasC // h1 h2 /Z /Up chebU_rec; case: k {h1 h2} => [|k]; rewrite ?chebU_rec ?chebU1 ?chebU0.
  by rewrite !scaleN1r -!mul_polyC subr0; move: ('X : {poly F}) (2%:P : {poly F}) => x y; ring.
rewrite !scaleN1r -!mul_polyC.
have h (x y u v : {poly F}) : y * (x * (y * (x * v) - u - v)) - (v - u) = y * (x * (y * (x * v) - u)) - v - (y * (x * v) - u).
  by ring.
exact: h.
Qed.
Lemma clasW k : P "CHEBY-4" k = Z 1 k.
Proof.
elim/ind2: k => [||k h1 h2]; rewrite /Z /Up.
- by rewrite scaler0 addr0.
- by rewrite scale1r.
rewrite clasC // h1 h2 /Z /Up chebU_rec; case: k {h1 h2} => [|k]; rewrite ?chebU_rec ?chebU1 ?chebU0.
  by rewrite !scale1r -!mul_polyC addr0; move: ('X : {poly F}) (2%:P : {poly F}) => x y; ring.
rewrite !scale1r -!mul_polyC.
have h (x y u v : {poly F}) : y * (x * (y * (x * v) - u + v)) - (v + u) = y * (x * (y * (x * v) - u)) - v + (y * (x * v) - u).
  by ring.
exact: h.
Qed.

Lemma nS k : k.+1%:R = k%:R + 1 :> F. Proof. by rewrite -addn1 natrD. Qed.
Lemma sign2 (e : F) k : e * e = 1 -> e ^+ k.+2 = e ^+ k.
Proof. by move=> h; rewrite !exprS mulrA h mul1r. Qed.

(* end values *)
Lemma U_end (e : F) k : e * e = 1 -> (U k).[e] = e ^+ k * k.+1%:R.
Proof.
move=> h; elim/ind2: k => [||k h1 h2].
- by rewrite chebU0 hornerC mul1r.
- by rewrite chebU1 hornerZ hornerX expr1 mulrC.
rewrite chebU_rec hornerD hornerN hornerZ hornerM hornerX h1 h2 (sign2 k h) !exprS !(nS k.+2, nS k.+1, nS k).
have -> : 2%:R * (e * (e * e ^+ k * (k%:R + 1 + 1))) = 2%:R * (e * e) * e ^+ k * (k%:R + 1 + 1) by ring.
by rewrite h; move: (e ^+ k) (k%:R) => x y; ring.
Qed.
Lemma Up_end (e : F) k : e * e = 1 -> (Up k).[e] = e ^+ k * (e * k%:R).
Proof.
move=> h; case: k => [|k]; first by rewrite horner0 !mulr0.
rewrite U_end // exprS.
have -> : e * e ^+ k * (e * k.+1%:R) = (e * e) * (e ^+ k * k.+1%:R) by move: (e ^+ k) (_%:R) => x y; ring.
by rewrite h mul1r.
Qed.
Lemma Z_end (e : F) k : e * e = 1 -> (Z e k).[e] = e ^+ k * (k%:R + k%:R + 1).
Proof.
move=> h; rewrite hornerD hornerZ U_end // Up_end // nS.
have -> : e * (e ^+ k * (e * k%:R)) = e * e * (e ^+ k * k%:R) by move: (e ^+ k) (_%:R) => x y; ring.
by rewrite h mul1r -mulrDr; congr (_ * _); ring.
Qed.
Lemma Z_endN (e : F) k : e * e = 1 -> (Z e k).[- e] = (- e) ^+ k.
Proof.
move=> h; have h' : - e * - e = 1 by rewrite mulrNN.
rewrite hornerD hornerZ U_end // Up_end // nS.
have -> : e * ((- e) ^+ k * (- e * k%:R)) = - (e * e) * ((- e) ^+ k * k%:R) by move: (_ ^+ k) (_%:R) => x y; ring.
by rewrite h mulN1r -mulrBr addrC addKr mulr1.
Qed.

(* integrals *)
Lemma IT_odd k : odd k -> I (T k) = 0.
Proof. by rewrite pint_chebT => ->. Qed.
Lemma IT_even k : ~~ odd k -> I (T k) = 2%:R / (1 - k%:R ^+ 2).
Proof. by rewrite pint_chebT => /negbTE ->. Qed.
Lemma IU k : I (U k) = if odd k then 0 else 2%:R / (k%:R + 1).
Proof.
have n0 : k.+1%:R != 0 :> F by rewrite pnatr_eq0.
have e : U k = (k.+1%:R^-1 *: T k.+1)^`() by rewrite derivZ chebT_deriv scalerA mulVf // scale1r.
rewrite e pint_deriv !hornerZ chebT_at1 chebT_atN1 -signr_odd /= -nS; case: (odd k) => /=; last first.
  by rewrite expr1 mulr1 mulrN1 opprK -mulr2n mulr_natl.
by rewrite expr0 subrr.
Qed.
Lemma IU_odd k : odd k -> I (U k) = 0. Proof. by rewrite IU => ->. Qed.
Lemma IU_even k : ~~ odd k -> I (U k) = 2%:R / (k%:R + 1). Proof. by rewrite IU => /negbTE ->. Qed.
Lemma IUp k : I (Up k.+1) = I (U k). Proof. by []. Qed.

Lemma even_sq k : ~~ odd k -> 1 - k%:R ^+ 2 != 0 :> F.
Proof.
move=> h; rewrite subr_eq0 eq_sym -natrX pnatr_eq1; apply: contra h => /eqP e.
suff -> : k = 1%N by [].
by move: e; rewrite expnS expn1; nia.
Qed.
Lemma two0 : 2%:R != 0 :> F. Proof. by rewrite pnatr_eq0. Qed.
Lemma k1_gt0 k : 0 < k%:R + 1 :> F. Proof. by rewrite -nS ltr0n. Qed.
Lemma IT_neq0 k : ~~ odd k -> I (T k) != 0.
Proof. by move=> h; rewrite IT_even // mulf_neq0 ?invr_neq0 ?even_sq ?two0. Qed.
Lemma IU_gt0 k : ~~ odd k -> 0 < I (U k).
Proof. by move=> h; rewrite IU_even // divr_gt0 ?ltr0n // k1_gt0. Qed.
Lemma IU_ge0 k : 0 <= I (U k).
Proof. by case h: (odd k); [rewrite IU_odd|rewrite ltW // IU_gt0 // h]. Qed.

Lemma X_T k : 2%:R *: ('X * T k.+1) = T k.+2 + T k.
Proof. by rewrite chebT_rec subrK. Qed.
Lemma X_U k : 2%:R *: ('X * U k.+1) = U k.+2 + U k.
Proof. by rewrite chebU_rec subrK. Qed.
Lemma IXT k : 2%:R * I ('X * T k.+1) = I (T k.+2) + I (T k).
Proof. by rewrite -pintZ X_T pintD. Qed.
Lemma IXU k : 2%:R * I ('X * U k.+1) = I (U k.+2) + I (U k).
Proof. by rewrite -pintZ X_U pintD. Qed.

(* GAUSS *)
Lemma gauss_T M : (0 < M)%N -> I ('X^(odd M) * T M) != 0.
Proof.
move=> M0; case od: (odd M); last by rewrite expr0 mul1r IT_neq0 // od.
case: M M0 od => [//|k] _ /= od; rewrite expr1 -(inj_eq (mulfI two0)) mulr0 IXT.
have o2 : ~~ odd k.+2 by rewrite /= negbK.
rewrite !IT_even // -!mulrDr mulf_neq0 ?two0 //.
have n1 := even_sq od; have := even_sq o2; rewrite !(nS k.+2, nS k.+1, nS k); rewrite -[k%:R ^+ 2]/(k%:R ^+ 2).
have k0 : 0 <= k%:R :> F by rewrite ler0n.
move: (k%:R) k0 n1 => x x0 n1 n2.
have -> : (1 - (x + 1 + 1) ^+ 2)^-1 + (1 - x ^+ 2)^-1 =
  - (2%:R * (x * x + 2%:R * x + 1)) / ((1 - (x + 1 + 1) ^+ 2) * (1 - x ^+ 2)) by field; rewrite n1 n2.
rewrite mulf_neq0 ?invr_neq0 ?mulf_neq0 // oppr_eq0 mulf_neq0 ?two0 // gt_eqF //.
by rewrite ltr_paddl ?ltr01 // addr_ge0 ?mulr_ge0 // ler0n.
Qed.
Lemma gauss_U M : (0 < M)%N -> I ('X^(odd M) * U M) != 0.
Proof.
move=> M0; case od: (odd M); last by rewrite expr0 mul1r gt_eqF // IU_gt0 // od.
case: M M0 od => [//|k] _ /= od; rewrite expr1 -(inj_eq (mulfI two0)) mulr0 IXU.
by rewrite gt_eqF // addr_gt0 // IU_gt0 //= negbK.
Qed.
Lemma gauss_Z (e : F) M : e * e = 1 -> I (Z e M) != 0.
Proof.
move=> h; have e0 : e != 0 by apply: contra_eq_neq h => ->; rewrite mulr0 eq_sym oner_eq0.
rewrite pintD pintZ; case: M => [|M]; first by rewrite pint0 mulr0 addr0 gt_eqF // IU_gt0.
rewrite /Up; case od: (odd M).
  by rewrite [I (U M)]IU_odd // mulr0 addr0 gt_eqF // IU_gt0 //= negbK od.
by rewrite [I (U M.+1)]IU_odd /= ?od // add0r mulf_neq0 // gt_eqF // IU_gt0 // od.
Qed.

(* RADAU *)
Section Radau.
Variables (c0 c1 x : F) (m : nat).
Hypotheses (c00 : c0 != 0) (hx : x * x = 1).
Let x0 : x != 0. Proof. by apply: contra_eq_neq hx => ->; rewrite mulr0 eq_sym oner_eq0. Qed.
Lemma radau_T : c0 * (T m.+1).[x] + c1 * (T m).[x] = 0 -> c0 * I (T m.+1) + c1 * I (T m) != 0.
Proof.
have te k : (T k).[x] = x ^+ k.
  elim/ind2: k => [||k h1 h2]; rewrite ?chebT0 ?chebT1 ?hornerC ?hornerX ?expr1 //.
  rewrite chebT_rec hornerD hornerN hornerZ hornerM hornerX h1 h2 sign2 // exprS.
  have -> : 2%:R * (x * (x * x ^+ k)) = 2%:R * (x * x) * x ^+ k by move: (x ^+ k) => y; ring.
  by rewrite hx; move: (x ^+ k) => y; ring.
rewrite !te exprS => e.
have {e} : c0 * x + c1 = 0.
  have xm : x ^+ m != 0 by rewrite expf_neq0.
  by apply: (mulIf xm); rewrite mul0r -[RHS]e; ring.
move=> e; have c1n : c1 != 0.
  by apply: contra_eq_neq e => ->; rewrite addr0 mulf_neq0.
case od: (odd m).
  by rewrite [I (T m)]IT_odd // mulr0 addr0 mulf_neq0 // IT_neq0 //= od.
by rewrite [I (T m.+1)]IT_odd /= ?od // mulr0 add0r mulf_neq0 // IT_neq0 // od.
Qed.
Lemma radau_U : c0 * (U m.+1).[x] + c1 * (U m).[x] = 0 -> c0 * I (U m.+1) + c1 * I (U m) != 0.
Proof.
rewrite !U_end // exprS => e; have c1n : c1 != 0.
  apply: contra_eq_neq e => ->; rewrite mul0r addr0 !mulf_neq0 ?expf_neq0 // pnatr_eq0 //.
case od: (odd m).
  by rewrite [I (U m)]IU_odd // mulr0 addr0 mulf_neq0 // gt_eqF // IU_gt0 //= od.
by rewrite [I (U m.+1)]IU_odd /= ?od // mulr0 add0r mulf_neq0 // gt_eqF // IU_gt0 // od.
Qed.
(* at the end where the polynomials are 1 in absolute value *)
Lemma radau_Zn : c0 * (Z (- x) m.+1).[x] + c1 * (Z (- x) m).[x] = 0 ->
  c0 * I (Z (- x) m.+1) + c1 * I (Z (- x) m) != 0.
Proof.
have hn : - x * - x = 1 by rewrite mulrNN.
have te k : (Z (- x) k).[x] = x ^+ k by rewrite -{2}[x]opprK Z_endN // opprK.
rewrite !te exprS => e.
have {}e : c1 = - x * c0.
  have xm : x ^+ m != 0 by rewrite expf_neq0.
  apply/eqP; rewrite -subr_eq0; apply/eqP; apply: (mulIf xm); rewrite mul0r -[RHS]e; ring.
rewrite e !pintD !pintZ.
have -> : c0 * (I (U m.+1) + - x * I (Up m.+1)) + - x * c0 * (I (U m) + - x * I (Up m)) =
  c0 * (I (U m.+1) - x * (2%:R * I (U m)) + x * x * I (Up m)) by rewrite IUp; ring.
rewrite hx mul1r mulf_neq0 //; case od: (odd m).
  rewrite [I (U m)]IU_odd // !mulr0 subr0 gt_eqF // ltr_paddr ?IU_gt0 //= ?od //.
  by rewrite /Up; case: (m) => [|k]; rewrite ?pint0 ?IU_ge0.
rewrite [I (U m.+1)]IU_odd /= ?od // add0r.
have -> : I (Up m) = 0 by move: od; rewrite /Up; case: (m) => [|k] /= od; rewrite ?pint0 // IU_odd //; case: odd od.
by rewrite addr0 oppr_eq0 !mulf_neq0 ?two0 // gt_eqF // IU_gt0 // od.
Qed.
(* at the other end *)
Lemma radau_Zx : c0 * (Z x m.+1).[x] + c1 * (Z x m).[x] = 0 ->
  c0 * I (Z x m.+1) + c1 * I (Z x m) != 0.
Proof.
rewrite !Z_end // exprS nS => e.
have m0 : 0 <= m%:R :> F by rewrite ler0n.
have d0 : m%:R + m%:R + 1 != 0 :> F by rewrite -natrD -nS pnatr_eq0.
have {}e : c1 = - x * c0 * ((m%:R + m%:R + 3%:R) / (m%:R + m%:R + 1)).
  have xm : x ^+ m * (m%:R + m%:R + 1) != 0 by rewrite mulf_neq0 // expf_neq0.
  apply/eqP; rewrite -subr_eq0; apply/eqP; apply: (mulIf xm); rewrite mul0r -[RHS]e.
  by move: (m%:R) (x ^+ m) d0 => u v d0; field.
pose c : F := (m%:R + m%:R + 3%:R) / (m%:R + m%:R + 1).
have cE : c = 1 + 2%:R / (m%:R + m%:R + 1) by rewrite /c; move: (m%:R) d0 => u d0; field.
rewrite e !pintD !pintZ -/c.
have -> : c0 * (I (U m.+1) + x * I (Up m.+1)) + - x * c0 * c * (I (U m) + x * I (Up m)) =
  c0 * (I (U m.+1) + x * ((1 - c) * I (U m)) - x * x * (c * I (Up m))) by rewrite IUp; ring.
have cp : 0 < 2%:R / (m%:R + m%:R + 1) :> F by rewrite divr_gt0 ?ltr0n // -natrD -nS ltr0n.
rewrite hx mul1r mulf_neq0 //; case od: (odd m); last first.
  rewrite [I (U m.+1)]IU_odd /= ?od // add0r.
  have -> : I (Up m) = 0 by move: od; rewrite /Up; case: (m) => [|k] /= od; rewrite ?pint0 // IU_odd //; case: odd od.
  rewrite mulr0 subr0 !mulf_neq0 //; last by rewrite gt_eqF // IU_gt0 // od.
  by rewrite cE opprD addrA subrr add0r oppr_eq0 gt_eqF.
rewrite [I (U m)]IU_odd // !mulr0 addr0 subr_eq0 lt_eqF //.
case: (m) od cp cE => [//|k] od cp cE; rewrite IUp !IU_even //=; last by rewrite negbK.
have lt : (2%:R / (k.+2%:R + 1) : F) < 2%:R / (k%:R + 1).
  by rewrite ltr_pmul2l ?ltr0n // ltf_pinv ?posrE ?k1_gt0 // ltr_add2r ltr_nat.
apply: lt_trans lt _; have c1' : 1 < c by rewrite cE ltr_addl.
by rewrite ltr_pmull // divr_gt0 ?ltr0n // k1_gt0.
Qed.
End Radau.

(* LOBATTO *)
Section Lobatto.
Variables (c0 c1 c2 : F) (m : nat).
Hypothesis c00 : c0 != 0.
Lemma half_eq (x y u : F) : x + y + u = 0 -> x - y + u = 0 -> y = 0 /\ u = - x.
Proof.
move=> h1 h2; have y0 : y = 0.
  apply: (mulfI two0); rewrite mulr0.
  have -> : 2%:R * y = (x + y + u) - (x - y + u) by ring.
  by rewrite h1 h2 subrr.
by split=> //; move/eqP: h1; rewrite y0 addr0 addr_eq0 => /eqP ->; rewrite opprK.
Qed.
Lemma sgn_neq0 k : (-1) ^+ k != 0 :> F. Proof. by rewrite signr_eq0. Qed.

Lemma lobatto_T : c0 * (T m.+2).[1] + c1 * (T m.+1).[1] + c2 * (T m).[1] = 0 ->
  c0 * (T m.+2).[-1] + c1 * (T m.+1).[-1] + c2 * (T m).[-1] = 0 ->
  I ('X^(odd m) * (c0 *: T m.+2 + c1 *: T m.+1 + c2 *: T m)) != 0.
Proof.
rewrite !chebT_at1 !chebT_atN1 !mulr1 => h1 h2.
have {}h2 : c0 - c1 + c2 = 0.
  by apply: (mulIf (sgn_neq0 m)); rewrite mul0r -[RHS]h2 !exprS; move: (_ ^+ m) => s; ring.
have [-> ->] := half_eq h1 h2; rewrite scale0r addr0 scaleNr -scalerBr -scalerAr pintZ mulf_neq0 //.
case od: (odd m); last first.
  rewrite expr0 mul1r pintB !IT_even /= ?negbK ?od // -mulrBr mulf_neq0 ?two0 // subr_eq0.
  rewrite (inj_eq invr_inj) (inj_eq (addrI _)) eqr_opp -!natrX eqr_nat.
  by rewrite !expnS !expn0; move: (m) => k; apply/eqP; nia.
case: (m) od => [//|k] /= od; rewrite expr1 -(inj_eq (mulfI two0)) mulr0 [X in pint X]mulrBr pintB [2%:R * _]mulrBr !IXT.
rewrite opprD addrA addrK !IT_even //= ?negbK // -mulrBr mulf_neq0 ?two0 // subr_eq0.
rewrite (inj_eq invr_inj) (inj_eq (addrI _)) eqr_opp -!natrX eqr_nat.
by rewrite !expnS !expn0; apply/eqP; nia.
Qed.

Lemma lobatto_U : c0 * (U m.+2).[1] + c1 * (U m.+1).[1] + c2 * (U m).[1] = 0 ->
  c0 * (U m.+2).[-1] + c1 * (U m.+1).[-1] + c2 * (U m).[-1] = 0 ->
  I ('X^(odd m) * (c0 *: U m.+2 + c1 *: U m.+1 + c2 *: U m)) != 0.
Proof.
have hn : -1 * -1 = 1 :> F by rewrite mulrNN mulr1.
rewrite !(U_end _ (mulr1 1)) !(U_end _ hn) !expr1n !mul1r => h1 h2.
have {}h2 : c0 * m.+3%:R - c1 * m.+2%:R + c2 * m.+1%:R = 0.
  by apply: (mulIf (sgn_neq0 m)); rewrite mul0r -[RHS]h2 !exprS; move: (_ ^+ m) => s; ring.
have [e1 e2] := half_eq h1 h2.
have {e1} -> : c1 = 0 by move/eqP: e1; rewrite mulf_eq0 pnatr_eq0 orbF => /eqP.
have n1 : m.+1%:R != 0 :> F by rewrite pnatr_eq0.
have {e2} -> : c2 = - c0 * (m.+3%:R / m.+1%:R).
  by apply: (mulIf n1); rewrite e2 -mulrA divfK // mulNr.
rewrite scale0r addr0 -scalerA scaleNr -scalerBr -scalerAr pintZ mulf_neq0 //.
have m0 : 0 <= m%:R :> F by rewrite ler0n.
case od: (odd m); last first.
  rewrite expr0 mul1r pintB pintZ !IU_even /= ?negbK ?od // -!nS.
  have n3 : m.+3%:R != 0 :> F by rewrite pnatr_eq0.
  have -> : 2%:R / m.+3%:R - m.+3%:R / m.+1%:R * (2%:R / m.+1%:R) =
    2%:R * (m.+1%:R ^+ 2 - m.+3%:R ^+ 2) / (m.+3%:R * m.+1%:R ^+ 2) :> F.
    by move: (m.+1%:R) (m.+3%:R) n1 n3 => u v u0 v0; field; rewrite u0 v0.
  rewrite !mulf_neq0 ?invr_neq0 ?mulf_neq0 ?expf_neq0 ?two0 //.
  by rewrite subr_eq0 -!natrX eqr_nat !expnS !expn0; apply/eqP; nia.
case: (m) od => [//|k] /= od; rewrite expr1 -(inj_eq (mulfI two0)) mulr0 [X in pint X]mulrBr -scalerAr pintB pintZ.
rewrite [2%:R * _]mulrBr mulrCA !IXU subr_eq0 lt_eqF //.
have l1 : (1 : F) < k.+4%:R / k.+2%:R by rewrite ltr_pdivl_mulr ?ltr0n // mul1r ltr_nat.
have lt : (2%:R / (k.+4%:R + 1) : F) < 2%:R / (k%:R + 1).
  by rewrite ltr_pmul2l ?ltr0n // ltf_pinv ?posrE ?k1_gt0 // ltr_add2r ltr_nat; lia.
have ev : ~~ odd k.+2 by rewrite /= negbK.
have s : I (U k.+4) + I (U k.+2) < I (U k.+2) + I (U k).
  by rewrite addrC ltr_add2l !IU_even //= !negbK.
apply: lt_trans s _; rewrite ltr_pmull //.
by rewrite addr_gt0 // IU_gt0.
Qed.

Lemma lobatto_Z (e : F) : e * e = 1 ->
  c0 * (Z e m.+2).[e] + c1 * (Z e m.+1).[e] + c2 * (Z e m).[e] = 0 ->
  c0 * (Z e m.+2).[- e] + c1 * (Z e m.+1).[- e] + c2 * (Z e m).[- e] = 0 ->
  c0 * I (Z e m.+2) + c1 * I (Z e m.+1) + c2 * I (Z e m) != 0.
Proof.
move=> h; have e0 : e != 0 by apply: contra_eq_neq h => ->; rewrite mulr0 eq_sym oner_eq0.
rewrite !Z_end // !Z_endN // => h1 h2.
have {}h2 : c0 - e * c1 + c2 = 0.
  have ne : (- e) ^+ m != 0 by rewrite expf_neq0 // oppr_eq0.
  apply: (mulIf ne); rewrite mul0r -[RHS]h2 !exprS.
  have -> : c0 * (- e * (- e * (- e) ^+ m)) = e * e * (c0 * (- e) ^+ m) by move: (_ ^+ m) => s; ring.
  by rewrite h; move: (_ ^+ m) => s; ring.
have {}h1 : c0 * (m%:R + m%:R + 5%:R) + e * c1 * (m%:R + m%:R + 3%:R) + c2 * (m%:R + m%:R + 1) = 0.
  have ne : e ^+ m != 0 by rewrite expf_neq0.
  apply: (mulIf ne); rewrite mul0r -[RHS]h1 !exprS !(nS m.+2, nS m.+1, nS m).
  have -> : c0 * (e * (e * e ^+ m) * (m%:R + 1 + 1 + (m%:R + 1 + 1) + 1)) =
    e * e * (c0 * (e ^+ m * (m%:R + 1 + 1 + (m%:R + 1 + 1) + 1))) by move: (_ ^+ m) => s; ring.
  by rewrite h; move: (_ ^+ m) (m%:R) => s y; ring.
have n1 : m%:R + 1 != 0 :> F by rewrite -nS pnatr_eq0.
have four : 4%:R != 0 :> F by rewrite pnatr_eq0.
have e2 : c2 = - c0 * ((m%:R + 2%:R) / (m%:R + 1)).
  apply: (mulIf n1); apply: (mulfI four); apply/eqP; rewrite -subr_eq0 -[X in _ == X]h1; apply/eqP.
  have -> : e * c1 = c0 + c2 by apply/eqP; rewrite eq_sym -subr_eq0 -[X in _ == X]h2; apply/eqP; ring.
  by move: (m%:R) n1 => y n1; field.
have e1 : c1 = - e * (c0 / (m%:R + 1)).
  have -> : c1 = e * (c0 + c2) + (1 - e * e) * c1 - e * (c0 - e * c1 + c2) by ring.
  rewrite h h2 subrr mul0r mulr0 addr0 subr0 e2; move: (m%:R) n1 => y n1; field.
  by [].
rewrite !pintD !pintZ !IUp.
have -> : c0 * (I (U m.+2) + e * I (U m.+1)) + c1 * (I (U m.+1) + e * I (U m)) + c2 * (I (U m) + e * I (Up m)) =
  c0 * I (U m.+2) + (e * c1 + c2) * I (U m) + ((e * c0 + c1) * I (U m.+1) + e * c2 * I (Up m)) by ring.
have s1 : e * c1 + c2 = - c0 * ((m%:R + 3%:R) / (m%:R + 1)).
  have -> : e * c1 = - (e * e) * (c0 / (m%:R + 1)) by rewrite e1; ring.
  by rewrite h e2; move: (m%:R) n1 => y n1; field.
have s2 : e * c0 + c1 = e * c0 * (m%:R / (m%:R + 1)) by rewrite e1; move: (m%:R) n1 => y n1; field.
rewrite s1 s2 e2; have m0 : 0 <= m%:R :> F by rewrite ler0n.
case od: (odd m); last first.
  rewrite [I (U m.+1)]IU_odd /= ?od // mulr0 add0r.
  have -> : I (Up m) = 0 by move: od; rewrite /Up; case: (m) => [|k] /= od; rewrite ?pint0 // IU_odd //; case: odd od.
  rewrite mulr0 addr0 !IU_even /= ?negbK ?od // !(nS m.+2, nS m.+1, nS m).
  have n3 : m%:R + 1 + 1 + 1 != 0 :> F by rewrite -!nS pnatr_eq0.
  have -> : c0 * (2%:R / (m%:R + 1 + 1 + 1)) + - c0 * ((m%:R + 3%:R) / (m%:R + 1)) * (2%:R / (m%:R + 1)) =
     - (c0 * 2%:R * (4%:R * (m%:R + 2%:R)) / ((m%:R + 1 + 1 + 1) * (m%:R + 1) ^+ 2)).
    by move: (m%:R) n1 n3 => y n1 n3; field; rewrite n1 n3.
  rewrite oppr_eq0 !mulf_neq0 ?invr_neq0 ?mulf_neq0 ?expf_neq0 ?two0 //.
  by rewrite -natrD pnatr_eq0 addn2.
rewrite [I (U m)]IU_odd // [I (U m.+2)]IU_odd /= ?negbK ?od // !mulr0 !add0r.
case: (m) od n1 m0 => [//|k] od n1 m0; rewrite IUp !IU_even //=; last by rewrite negbK.
have k1 : k%:R + 1 != 0 :> F by rewrite -nS pnatr_eq0.
have k2 : k.+1%:R + 1 != 0 :> F by rewrite -nS pnatr_eq0.
have k3 : k.+2%:R + 1 != 0 :> F by rewrite -nS pnatr_eq0.
rewrite !(nS k.+2, nS k.+1, nS k) in k2 k3 *.
have -> : e * c0 * ((k%:R + 1) / (k%:R + 1 + 1)) * (2%:R / (k%:R + 1 + 1 + 1)) +
  e * (- c0 * ((k%:R + 1 + 2%:R) / (k%:R + 1 + 1))) * (2%:R / (k%:R + 1)) =
  - (e * c0 * 2%:R * (4%:R * (k%:R + 2%:R)) / ((k%:R + 1) * (k%:R + 1 + 1) * (k%:R + 1 + 1 + 1))).
  by move: (k%:R) k1 k2 k3 => y k1 k2 k3; field; rewrite k1 k2 k3.
rewrite oppr_eq0 !mulf_neq0 ?invr_neq0 ?mulf_neq0 ?two0 //.
by rewrite -natrD pnatr_eq0 addn2.
Qed.
End Lobatto.
End Cheb.
