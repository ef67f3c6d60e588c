(* The canonical rationals of the standard library as a mathcomp realFieldType.
   Numbers are binary, so vm_compute is efficient on them.  No axioms. *)
From Coq Require Import ZArith QArith Qcanon Qcabs.
From mathcomp Require Import all_ssreflect all_algebra.
Set Implicit Arguments.
Unset Strict Implicit.
Unset Printing Implicit Defensive.
Import GRing.Theory Num.Theory.

Definition qc_eqb (x y : Qc) : bool := Qeq_bool x y.

Lemma qc_eqP : Equality.axiom qc_eqb.
Proof.
move=> x y; rewrite /qc_eqb; case E: (Qeq_bool x y); constructor.
  by apply: Qc_is_canon; apply/Qeq_bool_iff.
by move=> xy; move/negP: E; apply; rewrite xy; apply/Qeq_bool_iff; apply: Qeq_refl.
Qed.

Canonical qc_eqType := Eval hnf in EqType Qc (EqMixin qc_eqP).

(* choice structure by an injection into nat * nat * nat *)
Definition qc_code (x : Qc) : nat * nat * nat :=
  (Z.to_nat (Qnum x), Z.to_nat (Z.opp (Qnum x)), Pos.to_nat (Qden x)).
Definition qc_decode (c : nat * nat * nat) : Qc :=
  Q2Qc (Qmake (Z.sub (Z.of_nat c.1.1) (Z.of_nat c.1.2)) (Pos.of_nat c.2)).
Lemma qc_codeK : cancel qc_code qc_decode.
Proof.
move=> x; rewrite /qc_code /qc_decode /=.
rewrite Pos2Nat.id.
have -> : Z.sub (Z.of_nat (Z.to_nat (Qnum x))) (Z.of_nat (Z.to_nat (Z.opp (Qnum x)))) = Qnum x.
  case: (Z.le_gt_cases 0 (Qnum x)) => h.
    rewrite Z2Nat.id //.
    have -> : Z.to_nat (Z.opp (Qnum x)) = 0%nat by case: (Qnum x) h => // p /=; rewrite /Z.le.
    by rewrite Z.sub_0_r.
  have -> : Z.to_nat (Qnum x) = 0%nat by case: (Qnum x) h => // p /=; rewrite /Z.lt.
  by rewrite Z2Nat.id; [ring | apply Z.opp_nonneg_nonpos; apply Z.lt_le_incl].
apply: Qc_is_canon; apply: Qeq_trans (Qred_correct _) _.
by case: (this x) => n d; apply: Qeq_refl.
Qed.
Definition qc_choiceMixin := CanChoiceMixin qc_codeK.
Canonical qc_choiceType := Eval hnf in ChoiceType Qc qc_choiceMixin.
Definition qc_countMixin := CanCountMixin qc_codeK.
Canonical qc_countType := Eval hnf in CountType Qc qc_countMixin.

Lemma qc_addA : associative Qcplus. Proof. exact: Qcplus_assoc. Qed.
Lemma qc_addC : commutative Qcplus. Proof. exact: Qcplus_comm. Qed.
Lemma qc_add0 : left_id (Q2Qc 0) Qcplus. Proof. exact: Qcplus_0_l. Qed.
Lemma qc_addN : left_inverse (Q2Qc 0) Qcopp Qcplus.
Proof. by move=> x; rewrite Qcplus_comm Qcplus_opp_r. Qed.
Definition qc_zmodMixin := ZmodMixin qc_addA qc_addC qc_add0 qc_addN.
Canonical qc_zmodType := Eval hnf in ZmodType Qc qc_zmodMixin.

Lemma qc_mulA : associative Qcmult. Proof. exact: Qcmult_assoc. Qed.
Lemma qc_mulC : commutative Qcmult. Proof. exact: Qcmult_comm. Qed.
Lemma qc_mul1 : left_id (Q2Qc 1) Qcmult. Proof. exact: Qcmult_1_l. Qed.
Lemma qc_mulDl : left_distributive Qcmult Qcplus. Proof. exact: Qcmult_plus_distr_l. Qed.
Lemma qc_nz : Q2Qc 1 != Q2Qc 0 :> Qc. Proof. by []. Qed.
Definition qc_ringMixin := ComRingMixin qc_mulA qc_mulC qc_mul1 qc_mulDl qc_nz.
Canonical qc_ringType := Eval hnf in RingType Qc qc_ringMixin.
Canonical qc_comRingType := Eval hnf in ComRingType Qc qc_mulC.

Lemma qc_mulV (x : Qc) : x != (0%R : qc_ringType) -> Qcmult (Qcinv x) x = Q2Qc 1.
Proof. by move/eqP=> h; apply: Qcmult_inv_l. Qed.
Lemma qc_inv0 : Qcinv (0%R : qc_ringType) = (0%R : qc_ringType).
Proof. by apply: Qc_is_canon. Qed.
Definition qc_unitMixin := FieldUnitMixin qc_mulV qc_inv0.
Canonical qc_unitRingType := Eval hnf in UnitRingType Qc qc_unitMixin.
Canonical qc_comUnitRingType := Eval hnf in [comUnitRingType of Qc].
Fact qc_field_axiom : GRing.Field.mixin_of qc_unitRingType. Proof. exact. Qed.
Canonical qc_idomainType := Eval hnf in IdomainType Qc (FieldIdomainMixin qc_field_axiom).
Canonical qc_fieldType := FieldType Qc qc_field_axiom.

Definition qc_leb (x y : Qc) : bool := Qle_bool x y.
Definition qc_ltb (x y : Qc) : bool := ~~ qc_eqb x y && qc_leb x y.
Definition qc_norm (x : Qc) : Qc := if qc_leb (Q2Qc 0) x then x else Qcopp x.

Lemma qc_leP (x y : Qc) : reflect (x <= y)%Qc (qc_leb x y).
Proof.
rewrite /qc_leb; case E: (Qle_bool x y); constructor; first by apply/Qle_bool_iff.
by move=> h; move/negP: E; apply; apply/Qle_bool_iff.
Qed.

Lemma qc_le0D x y : qc_leb (Q2Qc 0) x -> qc_leb (Q2Qc 0) y -> qc_leb (Q2Qc 0) (Qcplus x y).
Proof.
move=> /qc_leP hx /qc_leP hy; apply/qc_leP.
have := Qcplus_le_compat _ _ _ _ hx hy; by rewrite Qcplus_0_l.
Qed.
Lemma qc_le0M x y : qc_leb (Q2Qc 0) x -> qc_leb (Q2Qc 0) y -> qc_leb (Q2Qc 0) (Qcmult x y).
Proof.
move=> /qc_leP hx /qc_leP hy; apply/qc_leP.
have := Qcmult_le_compat_r _ _ _ hx hy; by rewrite Qcmult_0_l.
Qed.
Lemma qc_le0_anti x : qc_leb (Q2Qc 0) x -> qc_leb x (Q2Qc 0) -> x = (Q2Qc 0).
Proof. by move=> /qc_leP hx /qc_leP hy; apply: Qcle_antisym. Qed.
Lemma qc_sub_ge0 x y : qc_leb (Q2Qc 0) (Qcplus y (Qcopp x)) = qc_leb x y.
Proof.
apply/qc_leP/qc_leP => h.
  have := Qcplus_le_compat _ _ _ _ h (Qcle_refl x).
  by rewrite Qcplus_0_l -Qcplus_assoc (Qcplus_comm (- x)%Qc) Qcplus_opp_r Qcplus_0_r.
have := Qcplus_le_compat _ _ _ _ h (Qcle_refl (- x)%Qc).
by rewrite Qcplus_opp_r.
Qed.
Lemma qc_le0_total x : qc_leb (Q2Qc 0) x || qc_leb x (Q2Qc 0).
Proof.
case: (Qclt_le_dec x (Q2Qc 0)) => h; last by apply/orP; left; apply/qc_leP.
by apply/orP; right; apply/qc_leP; apply: Qclt_le_weak.
Qed.
Lemma qc_normN x : qc_norm (Qcopp x) = qc_norm x.
Proof.
have nle y : qc_leb (Q2Qc 0) (Qcopp y) = qc_leb y (Q2Qc 0).
  by rewrite -(qc_sub_ge0 y) Qcplus_0_l.
rewrite /qc_norm nle Qcopp_involutive.
case h1: (qc_leb x _); case h2: (qc_leb _ x) => //.
  by rewrite (qc_le0_anti h2 h1).
by have := qc_le0_total x; rewrite h1 h2.
Qed.
Lemma qc_ge0_norm x : qc_leb (Q2Qc 0) x -> qc_norm x = x.
Proof. by rewrite /qc_norm => ->. Qed.
Lemma qc_lt_def x y : qc_ltb x y = (y != x) && qc_leb x y.
Proof. by rewrite /qc_ltb eq_sym. Qed.

Definition qcLeMixin : realLeMixin qc_idomainType :=
  RealLeMixin qc_le0D qc_le0M qc_le0_anti qc_sub_ge0
              qc_le0_total qc_normN qc_ge0_norm qc_lt_def.

Lemma qc_le_total : total qc_leb.
Proof.
move=> x y; rewrite -(qc_sub_ge0 x y) -(qc_sub_ge0 y x).
have -> : Qcplus x (Qcopp y) = Qcplus (Q2Qc 0) (Qcopp (Qcplus y (Qcopp x))) by ring.
rewrite (qc_sub_ge0 (Qcplus y (Qcopp x))); exact: qc_le0_total.
Qed.

Canonical qc_porderType := POrderType ring_display Qc qcLeMixin.
Canonical qc_latticeType := LatticeType Qc qcLeMixin.
Canonical qc_distrLatticeType := DistrLatticeType Qc qcLeMixin.
Canonical qc_orderType := OrderType Qc qc_le_total.
Canonical qc_numDomainType := NumDomainType Qc qcLeMixin.
Canonical qc_normedZmodType := NormedZmodType Qc Qc qcLeMixin.
Canonical qc_numFieldType := [numFieldType of Qc].
Canonical qc_realDomainType := [realDomainType of Qc].
Canonical qc_realFieldType := [realFieldType of Qc].

(* literal rationals  a / b  *)
Definition qc (a : Z) (b : positive) : Qc := Q2Qc (Qmake a b).
Arguments qc : simpl never.
