(* The embedding of the rationals Qc into any ordered field, and the rings Q(sqrt d). *)
From Coq Require Import ZArith QArith Qcanon.
From mathcomp Require Import all_ssreflect all_algebra ring.
From Verif.Base Require Import QcField.
Set Implicit Arguments.
Unset Strict Implicit.
Unset Printing Implicit Defensive.
Import GRing.Theory Num.Theory Order.TTheory.
Local Open Scope ring_scope.

Section Emb.
Variable F : numFieldType.

Definition posr (p : positive) : F := (Pos.to_nat p)%:R.
Definition zr (z : Z) : F :=
  match z with Z0 => 0 | Zpos p => posr p | Zneg p => - posr p end.
Definition qr (q : Q) : F := zr (Qnum q) / posr (Qden q).
(* the rational x as an element of F *)
Definition qcr (x : Qc) : F := qr (this x).

Lemma posr_gt0 p : 0 < posr p.
Proof. by rewrite ltr0n; apply/ssrnat.ltP; apply: Pos2Nat.is_pos. Qed.
Lemma posr_neq0 p : posr p != 0. Proof. by rewrite gt_eqF ?posr_gt0. Qed.
Lemma posrD p q : posr (p + q) = posr p + posr q.
Proof. by rewrite /posr Pos2Nat.inj_add natrD. Qed.
Lemma posrM p q : posr (p * q) = posr p * posr q.
Proof. by rewrite /posr Pos2Nat.inj_mul natrM. Qed.

Lemma zr_opp z : zr (- z) = - zr z.
Proof. by case: z => [|p|p] /=; rewrite ?oppr0 ?opprK. Qed.

Lemma zr_pos_sub p q : zr (Z.pos_sub p q) = posr p - posr q.
Proof.
case: (Pos.compare_spec p q) => [->|h|h] /=; rewrite ?Z.pos_sub_diag ?subrr //.
  rewrite Z.pos_sub_lt //=; have := posrD (q - p) p; rewrite Pos.sub_add // => ->.
  by rewrite opprD addrCA subrr addr0.
rewrite Z.pos_sub_gt //=; have := posrD (p - q) q; rewrite Pos.sub_add // => ->.
by rewrite addrK.
Qed.

Lemma zrD a b : zr (a + b) = zr a + zr b.
Proof.
case: a b => [|p|p] [|q|q] //=; rewrite ?add0r ?addr0 ?posrD ?opprD //.
  by rewrite zr_pos_sub.
by rewrite zr_pos_sub addrC.
Qed.
Lemma zrM a b : zr (a * b) = zr a * zr b.
Proof.
by case: a b => [|p|p] [|q|q] //=; rewrite ?mul0r ?mulr0 ?posrM ?mulrN ?mulNr ?opprK.
Qed.
Lemma zr_ge0 a : Z.le 0 a -> 0 <= zr a.
Proof. by case: a => [|p|p] //= _; rewrite ltW ?posr_gt0. Qed.
Lemma zr_le a b : Z.le a b -> zr a <= zr b.
Proof.
move=> h; rewrite -subr_ge0 -zr_opp -zrD; apply: zr_ge0.
by apply Zle_minus_le_0 in h.
Qed.
Lemma zr_lt a b : Z.lt a b -> zr a < zr b.
Proof.
move=> h; rewrite -subr_gt0 -zr_opp -zrD.
case E : (Z.add b (Z.opp a)) => [|p|p] /=; try by apply Z.lt_0_sub in h; rewrite /Z.sub E in h.
exact: posr_gt0.
Qed.
Lemma zr_nat n : zr (Z.of_nat n) = n%:R.
Proof. by case: n => // n; rewrite /= /posr SuccNat2Pos.id_succ. Qed.

Lemma qr_eq x y : Qeq x y -> qr x = qr y.
Proof.
rewrite /Qeq /qr => h; apply/eqP; rewrite eqr_div ?posr_neq0 //.
by have /= := congr1 zr h; rewrite !zrM /= => ->; rewrite mulrC.
Qed.
Lemma qrD x y : qr (x + y) = qr x + qr y.
Proof.
rewrite /qr /= zrD !zrM posrM /=; move: (posr_neq0 (Qden x)) (posr_neq0 (Qden y)).
by move: (posr _) (posr _) (zr _) (zr _) => a b c d h1 h2; field; rewrite h1 h2.
Qed.
Lemma qrM x y : qr (x * y) = qr x * qr y.
Proof. by rewrite /qr /= zrM posrM invfM mulrACA. Qed.
Lemma qrN x : qr (- x) = - qr x.
Proof. by rewrite /qr /= zr_opp mulNr. Qed.

Lemma qcr_Q2Qc q : qcr (Q2Qc q) = qr q.
Proof. by apply: qr_eq; apply: Qred_correct. Qed.

Lemma qcrD x y : qcr (x + y)%R = qcr x + qcr y.
Proof. by rewrite [x + y]/(Qcplus x y) /Qcplus qcr_Q2Qc qrD. Qed.
Lemma qcrN x : qcr (- x)%R = - qcr x.
Proof. by rewrite [- x]/(Qcopp x) /Qcopp qcr_Q2Qc qrN. Qed.
Lemma qcrM x y : qcr (x * y)%R = qcr x * qcr y.
Proof. by rewrite [x * y]/(Qcmult x y) /Qcmult qcr_Q2Qc qrM. Qed.
Lemma qcr1 : qcr 1%R = 1.
Proof. by rewrite [1]/(Q2Qc 1) qcr_Q2Qc /qr /= /posr divr1. Qed.
Lemma qcr0 : qcr 0%R = 0.
Proof. by rewrite [0]/(Q2Qc 0) qcr_Q2Qc /qr /= mul0r. Qed.

Lemma qcr_is_rmorphism : rmorphism qcr.
Proof.
split; first by move=> x y; rewrite qcrD qcrN.
by split; [move=> x y; rewrite qcrM | rewrite qcr1].
Qed.
Canonical qcr_additive := Additive qcr_is_rmorphism.
Canonical qcr_rmorphism := RMorphism qcr_is_rmorphism.

Lemma qcrE (a : Z) (b : positive) : qcr (qc a b) = zr a / posr b.
Proof. by rewrite /qc qcr_Q2Qc. Qed.

Lemma qcr_le (x y : Qc) : x <= y -> qcr x <= qcr y.
Proof.
move=> /qc_leP; rewrite /Qcle /Qle => h; rewrite /qcr /qr.
rewrite ler_pdivr_mulr ?posr_gt0 // mulrAC ler_pdivl_mulr ?posr_gt0 //.
by have := zr_le h; rewrite !zrM.
Qed.
Lemma qcr_lt (x y : Qc) : x < y -> qcr x < qcr y.
Proof.
rewrite lt_neqAle => /andP [n le]; rewrite lt_neqAle qcr_le // andbT.
by apply: contraNneq n => /fmorph_inj ->.
Qed.
Lemma qcr_leE (x y : Qc) : (qcr x <= qcr y) = (x <= y).
Proof.
apply/idP/idP; last exact: qcr_le.
by case: (lerP x y) => // /qcr_lt h /(lt_le_trans h); rewrite ltxx.
Qed.
Lemma qcr_norm (x : Qc) : qcr `|x|%R = `|qcr x|.
Proof.
case: (lerP 0 x) => h; first by rewrite !ger0_norm // -qcr0 qcr_le.
by rewrite !ltr0_norm ?rmorphN // -qcr0 qcr_lt.
Qed.

End Emb.

(* a + b sqrt(d), d a non-zero integer that is used as a formal square *)
Record q2 (d : nat) := Q2 { re : Qc; im : Qc }.
Arguments Q2 {d} _ _.

Section Q2Ring.
Variable d : nat.
Notation T := (q2 d).
Definition q2_pair (x : T) : Qc * Qc := (re x, im x).
Definition pair_q2 (p : Qc * Qc) : T := Q2 p.1 p.2.
Lemma q2_pairK : cancel q2_pair pair_q2. Proof. by case. Qed.
Definition q2_eqMixin := CanEqMixin q2_pairK.
Canonical q2_eqType := Eval hnf in EqType T q2_eqMixin.
Definition q2_choiceMixin := CanChoiceMixin q2_pairK.
Canonical q2_choiceType := Eval hnf in ChoiceType T q2_choiceMixin.

Definition dd : Qc := Q2Qc (Qmake (Z.of_nat d) 1).
Definition q2add (x y : T) : T := Q2 (re x + re y)%R (im x + im y)%R.
Definition q2opp (x : T) : T := Q2 (- re x)%R (- im x)%R.
Definition q2mul (x y : T) : T :=
  Q2 (re x * re y + dd * (im x * im y))%R (re x * im y + im x * re y)%R.

Lemma q2_eq (x y : T) : re x = re y -> im x = im y -> x = y.
Proof. by case: x y => a b [c e] /= -> ->. Qed.
Lemma q2addA : associative q2add.
Proof. by move=> x y z; apply: q2_eq; rewrite /= addrA. Qed.
Lemma q2addC : commutative q2add.
Proof. by move=> x y; apply: q2_eq; rewrite /= addrC. Qed.
Lemma q2add0 : left_id (Q2 0%R 0%R) q2add.
Proof. by move=> x; apply: q2_eq; rewrite /= add0r. Qed.
Lemma q2addN : left_inverse (Q2 0%R 0%R) q2opp q2add.
Proof. by move=> x; apply: q2_eq; rewrite /= addNr. Qed.
Definition q2_zmodMixin := ZmodMixin q2addA q2addC q2add0 q2addN.
Canonical q2_zmodType := Eval hnf in ZmodType T q2_zmodMixin.

Lemma q2mulA : associative q2mul.
Proof.
move=> x y z; apply: q2_eq => /=; move: (re x) (im x) (re y) (im y) (re z) (im z) dd;
have com (R : comRingType) (a b c e f g k : R) :
   a * (c * f + k * (e * g)) + k * (b * (c * g + e * f)) =
   (a * c + k * (b * e)) * f + k * ((a * e + b * c) * g) by ring.
- by move=> *; apply: com.
have com' (R : comRingType) (a b c e f g k : R) :
   a * (c * g + e * f) + b * (c * f + k * (e * g)) =
   (a * c + k * (b * e)) * g + (a * e + b * c) * f by ring.
by move=> *; apply: com'.
Qed.
Lemma q2mulC : commutative q2mul.
Proof.
move=> x y; apply: q2_eq => /=.
  by rewrite (mulrC (re y)) (mulrC (im y)).
by rewrite addrC (mulrC (re y)) (mulrC (im y)).
Qed.
Lemma q2mul1 : left_id (Q2 1%R 0%R) q2mul.
Proof. by move=> x; apply: q2_eq; rewrite /= ?mul0r ?mulr0 ?addr0 mul1r. Qed.
Lemma q2mulD : left_distributive q2mul q2add.
Proof.
move=> x y z; apply: q2_eq => /=; rewrite !mulrDl ?mulrDr.
  by rewrite addrACA.
by rewrite addrACA.
Qed.
Lemma q2nz : Q2 1%R 0%R != Q2 0%R 0%R :> T. Proof. by apply/eqP => -[]. Qed.
Definition q2_ringMixin := ComRingMixin q2mulA q2mulC q2mul1 q2mulD q2nz.
Canonical q2_ringType := Eval hnf in RingType T q2_ringMixin.
Canonical q2_comRingType := Eval hnf in ComRingType T q2mulC.

(* value in a field where s is a square root of d *)
Variables (F : numFieldType) (s : F).
Definition q2v (x : T) : F := qcr F (re x) + qcr F (im x) * s.

Hypothesis sq : s * s = d%:R.

Lemma dd_v : qcr F dd = d%:R.
Proof. by rewrite /dd qcr_Q2Qc /qr /= zr_nat /posr divr1. Qed.

Lemma q2v_is_rmorphism : rmorphism q2v.
Proof.
split.
  move=> x y; rewrite /q2v /= !rmorphD !rmorphN.
  by rewrite mulrBl opprD addrACA.
split; last by rewrite /q2v /= rmorph1 rmorph0 mul0r addr0.
move=> x y; rewrite /q2v /= !rmorphD !rmorphM /= dd_v -sq.
have com (a b c e : F) : a * c + s * s * (b * e) + (a * e + b * c) * s =
  (a + b * s) * (c + e * s) by ring.
exact: com.
Qed.
End Q2Ring.

Definition q2v_additive d F s sq := Additive (@q2v_is_rmorphism d F s sq).
Definition q2v_rmorphism d F s sq := RMorphism (@q2v_is_rmorphism d F s sq).
