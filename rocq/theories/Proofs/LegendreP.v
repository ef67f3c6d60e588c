(* Orthogonality of the Legendre polynomials given by their recurrence. *)
From Verif.Base Require Import Str.
From mathcomp Require Import all_ssreflect all_algebra ring zify.
From Verif.Base Require Import PolyInterp PolyInt.
From Verif.Spec Require Import NodesSpec.
From Verif.Proofs Require Import OrthoP NodesP QuadP.
Set Implicit Arguments.
Unset Strict Implicit.
Unset Printing Implicit Defensive.
Import GRing.Theory Num.Theory Order.TTheory.
Local Open Scope ring_scope.

Section Leg.
Variable F : realFieldType.

(* polynomials that agree everywhere are equal *)
Lemma poly_ext (p q : {poly F}) : (forall t, p.[t] = q.[t]) -> p = q.
Proof.
move=> h; have inj : injective (fun i : 'I_(maxn (size p) (size q)) => (i : nat)%:R : F).
  by move=> i j /eqP; rewrite eqr_nat => /eqP /val_inj.
by apply: (poly_eq_nodes inj); rewrite ?leq_maxl ?leq_maxr.
Qed.

Variable b : nat -> F.
Hypothesis bE : forall k, b k.+1 = k.+1%:R ^+ 2 / (4%:R * k.+1%:R ^+ 2 - 1).
Let a : nat -> F := fun=> 0.
Notation leg := (op a b).

Lemma legS k : leg k.+2 = 'X * leg k.+1 - (b k.+1)%:P * leg k.
Proof. by rewrite opS polyC0 subr0. Qed.

Lemma den_neq0 k : 2%:R * k.+1%:R - 1 != 0 :> F /\ 2%:R * k.+1%:R + 1 != 0 :> F.
Proof.
split; last by rewrite -natrM natr1 pnatr_eq0.
have -> : 2%:R * k.+1%:R - 1 = (2 * k + 1)%:R :> F.
  by rewrite natrD natrM -(natr1 _ k); move: (k%:R) => x; ring.
by rewrite pnatr_eq0 addn1.
Qed.

(* joint induction, with a = leg k, b = leg (k+1):
   x p_{k+1}' = (k+1) p_{k+1} + d p_k',   (k+1) x p_k' = (2k+1) p_{k+1}' - (k+1)^2 p_k *)
Lemma leg_deriv k t :
  let K := k.+1%:R : F in
  t * (leg k.+1)^`().[t] = K * (leg k.+1).[t] + K / (2%:R * K - 1) * (leg k)^`().[t] /\
  K * (t * (leg k)^`().[t]) = (2%:R * K - 1) * (leg k.+1)^`().[t] - K ^+ 2 * (leg k).[t].
Proof.
elim: k => [|k [ihA ihC]] K.
  rewrite op1 op0 polyC0 subr0 derivX -polyC1 derivC !hornerC hornerX /K.
  by split; ring.
set K1 := k.+1%:R : F in ihA ihC.
have KE : K = K1 + 1 by rewrite /K -(natr1 _ k.+1).
have [n1 n2] := den_neq0 k; rewrite -/K1 in n1 n2.
have [n3 _] := den_neq0 k.+1; rewrite -/K in n3.
have n4 : K1 != 0 by rewrite pnatr_eq0.
have n5 : 4%:R * K1 ^+ 2 - 1 != 0.
  have -> : 4%:R * K1 ^+ 2 - 1 = (2%:R * K1 - 1) * (2%:R * K1 + 1) by ring.
  by rewrite mulf_neq0.
have dE : (leg k.+2)^`().[t] = (leg k.+1).[t] + t * (leg k.+1)^`().[t] - b k.+1 * (leg k)^`().[t].
  rewrite legS derivB !derivM derivX derivC mul1r mul0r add0r.
  by rewrite !(hornerD, hornerN, hornerM, hornerX, hornerC).
have vE : (leg k.+2).[t] = t * (leg k.+1).[t] - b k.+1 * (leg k).[t].
  by rewrite legS !(hornerD, hornerN, hornerM, hornerX, hornerC).
move: ihA ihC; rewrite dE vE bE -/K1 KE.
have n6 : 2%:R * (K1 + 1) - 1 != 0 by rewrite -KE.
move: ((leg k.+1)^`().[t]) ((leg k)^`().[t]) ((leg k.+1).[t]) ((leg k).[t]) => u v p q.
move=> eA eC.
have tv : t * v = (2%:R * K1 - 1) / K1 * u - K1 * q.
  by apply: (mulfI n4); rewrite eC; field.
split.
  have -> : t * (p + t * u - K1 ^+ 2 / (4%:R * K1 ^+ 2 - 1) * v) =
    t * p + t * (t * u) - K1 ^+ 2 / (4%:R * K1 ^+ 2 - 1) * (t * v) by ring.
  rewrite eA mulrDr; have -> : t * (K1 / (2%:R * K1 - 1) * v) = K1 / (2%:R * K1 - 1) * (t * v) by ring.
  rewrite tv; field.
  by rewrite n4 n1 n5 n6.
rewrite eA; field.
by rewrite n1 n5.
Qed.

Let cK (k : nat) : F := k.+1%:R * (k.+1%:R + 1) / ((2%:R * k.+1%:R + 1) * (2%:R * k.+1%:R - 1)).

Lemma den4_neq0 k : 4%:R * k.+1%:R ^+ 2 - 1 != 0 :> F.
Proof.
have [n1 n2] := den_neq0 k.
have -> : 4%:R * k.+1%:R ^+ 2 - 1 = (2%:R * k.+1%:R - 1) * (2%:R * k.+1%:R + 1) :> F.
  by move: (k.+1%:R) => x; ring.
by rewrite mulf_neq0.
Qed.

Lemma leg_derivS k : (leg k.+2)^`() = (k.+1%:R + 1) *: leg k.+1 + cK k *: (leg k)^`().
Proof.
apply: poly_ext => t; rewrite hornerD !hornerZ.
have [eA _] := leg_deriv k t.
have -> : (leg k.+2)^`().[t] = (leg k.+1).[t] + t * (leg k.+1)^`().[t] - b k.+1 * (leg k)^`().[t].
  rewrite legS derivB !derivM derivX derivC mul1r mul0r add0r.
  by rewrite !(hornerD, hornerN, hornerM, hornerX, hornerC).
have [n1 n2] := den_neq0 k; have n3 := den4_neq0 k.
rewrite eA bE /cK; move: n1 n2 n3.
move: (k.+1%:R) ((leg k)^`().[t]) ((leg k.+1).[t]) => K v p n1 n2 n3.
by field; rewrite n1 n2 n3.
Qed.

Lemma leg_end k e : e ^+ 2 = 1 -> (leg k.+1).[e] = e * (k.+1%:R / (2%:R * k.+1%:R - 1)) * (leg k).[e].
Proof.
move=> e2; elim: k => [|k ih].
  rewrite op1 op0 polyC0 subr0 hornerX hornerC.
  have -> : 2%:R * 1%:R - 1 = 1 :> F by ring.
  by rewrite divr1 !mulr1.
have [n1 n2] := den_neq0 k; have n3 := den4_neq0 k; have [n4 _] := den_neq0 k.+1.
rewrite legS !(hornerD, hornerN, hornerM, hornerX, hornerC) bE.
have K0 : k.+1%:R != 0 :> F by rewrite pnatr_eq0.
have qE : (leg k).[e] = e * (2%:R * k.+1%:R - 1) / k.+1%:R * (leg k.+1).[e].
  rewrite ih; move: K0 n1 e2; move: (k.+1%:R) ((leg k).[e]) => K v K0 n1 e2.
  transitivity (e ^+ 2 * v); first by rewrite e2 mul1r.
  by field; rewrite K0 n1.
rewrite qE -(natr1 _ k.+1); move: n4; rewrite -(natr1 _ k.+1).
move: K0 n1 n2 n3; move: (k.+1%:R) ((leg k.+1).[e]) => K v K0 n1 n2 n3 n4.
by field; rewrite K0 n3 n4.
Qed.

Lemma leg_end2 k e : e ^+ 2 = 1 -> (leg k.+2).[e] = cK k * (leg k).[e].
Proof.
move=> e2; rewrite !leg_end //; have [n1 n2] := den_neq0 k; have [n3 _] := den_neq0 k.+1.
move: n3; rewrite /cK -(natr1 _ k.+1) => n3.
have n3' : 2%:R * (k.+1%:R + 1) - 1 = 2%:R * k.+1%:R + 1 :> F.
  by move: (k.+1%:R) => K; ring.
rewrite n3'; move: n1 n2; move: (k.+1%:R) ((leg k).[e]) => K v n1 n2.
transitivity (e ^+ 2 * ((K + 1) / (2%:R * K + 1) * (K / (2%:R * K - 1)) * v)).
  by field; rewrite n1 n2.
by rewrite e2; field; rewrite n1 n2.
Qed.

(* orthogonality to lower degrees *)
Lemma leg_ortho k (q : {poly F}) : (size q <= k)%N -> pint (leg k * q) (-1) 1 = 0.
Proof.
have [m] := ubnP (size q); elim: m k q => [//|m ih] k q sm.
case: (posnP (size q)) => [/eqP|q0].
  by rewrite size_poly_eq0 => /eqP -> _; rewrite mulr0 pint0.
case: k => [|k] sq; first by move: (leq_trans q0 sq).
have sd : (size q^`() < size q)%N by apply: lt_size_deriv; rewrite -size_poly_gt0.
have sd1 : (size q^`() < m)%N by apply: leq_trans sd _.
have sd2 : (size q^`() <= k)%N by rewrite -ltnS (leq_trans sd).
pose Q := leg k.+2 - cK k *: leg k.
have dQ : Q^`() = (k.+1%:R + 1) *: leg k.+1.
  by rewrite /Q derivB derivZ leg_derivS addrK.
have Q0 e : e ^+ 2 = 1 -> Q.[e] = 0.
  by move=> e2; rewrite /Q hornerD hornerN hornerZ leg_end2 // subrr.
have := pint_parts Q q (-1) 1.
rewrite dQ (Q0 1) ?(Q0 (-1)) ?sqrrN ?expr1n // !mul0r subrr sub0r -scalerAl pintZ.
have i1 : pint (leg k.+2 * q^`()) (-1) 1 = 0.
  by apply: ih => //; apply: leq_trans sd2 _; rewrite -addn2 leq_addr.
rewrite /Q mulrBl -scalerAl pintB pintZ i1 (ih k) // mulr0 subr0 oppr0.
move/eqP; rewrite mulf_eq0 natr1 pnatr_eq0 /= => /eqP //.
Qed.
End Leg.
