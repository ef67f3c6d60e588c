(* The real numbers of the standard library as a mathcomp realFieldType, with exp, ln, sqrt.
   Uses the axioms of Coq.Reals and the choice axiom of Coq.Logic.ClassicalEpsilon. *)
From Coq Require Import Reals ClassicalEpsilon.
From mathcomp Require Import all_ssreflect all_algebra.
Set Implicit Arguments.
Unset Strict Implicit.
Unset Printing Implicit Defensive.
Import GRing.Theory Num.Theory.

Definition r_eqb (x y : R) : bool := if Req_EM_T x y then true else false.
Lemma r_eqP : Equality.axiom r_eqb.
Proof. by move=> x y; rewrite /r_eqb; case: Req_EM_T => h; constructor. Qed.
Canonical r_eqType := Eval hnf in EqType R (EqMixin r_eqP).

Definition r_find (P : pred R) (n : nat) : option R :=
  match excluded_middle_informative (exists x, P x) with
  | left h => Some (proj1_sig (constructive_indefinite_description _ h))
  | right _ => None
  end.
Lemma r_find_correct (P : pred R) n x : r_find P n = Some x -> P x.
Proof.
rewrite /r_find; case: excluded_middle_informative => // h [<-].
by case: constructive_indefinite_description.
Qed.
Lemma r_find_complete (P : pred R) : (exists x, P x) -> exists n, r_find P n.
Proof. by move=> h; exists 0%N; rewrite /r_find; case: excluded_middle_informative. Qed.
Lemma r_find_ext (P Q : pred R) : P =1 Q -> r_find P =1 r_find Q.
Proof.
by move=> h n; have -> : P = Q by apply: FunctionalExtensionality.functional_extensionality.
Qed.
Definition r_choiceMixin := Choice.Mixin r_find_correct r_find_complete r_find_ext.
Canonical r_choiceType := Eval hnf in ChoiceType R r_choiceMixin.

Lemma r_addA : associative Rplus. Proof. by move=> x y z; rewrite Rplus_assoc. Qed.
Lemma r_addN : left_inverse R0 Ropp Rplus. Proof. exact: Rplus_opp_l. Qed.
Definition r_zmodMixin := ZmodMixin r_addA Rplus_comm Rplus_0_l r_addN.
Canonical r_zmodType := Eval hnf in ZmodType R r_zmodMixin.

Lemma r_mulA : associative Rmult. Proof. by move=> x y z; rewrite Rmult_assoc. Qed.
Lemma r_mulDl : left_distributive Rmult Rplus. Proof. by move=> x y z; rewrite Rmult_plus_distr_r. Qed.
Lemma r_nz : R1 != R0 :> R. Proof. by apply/eqP; apply: R1_neq_R0. Qed.
Definition r_ringMixin := ComRingMixin r_mulA Rmult_comm Rmult_1_l r_mulDl r_nz.
Canonical r_ringType := Eval hnf in RingType R r_ringMixin.
Canonical r_comRingType := Eval hnf in ComRingType R Rmult_comm.

(* the inverse of zero is left unspecified by older versions of the library *)
Definition r_inv (x : R) : R := if r_eqb x R0 then R0 else Rinv x.
Lemma r_mulV (x : R) : x != (0%R : r_ringType) -> Rmult (r_inv x) x = R1.
Proof.
move/eqP => h; rewrite /r_inv; case: r_eqP => // _; exact: Rinv_l.
Qed.
Lemma r_inv0 : r_inv (0%R : r_ringType) = (0%R : r_ringType).
Proof. by rewrite /r_inv; case: r_eqP. Qed.
Definition r_unitMixin := FieldUnitMixin r_mulV r_inv0.
Canonical r_unitRingType := Eval hnf in UnitRingType R r_unitMixin.
Canonical r_comUnitRingType := Eval hnf in [comUnitRingType of R].
Fact r_field_axiom : GRing.Field.mixin_of r_unitRingType. Proof. exact. Qed.
Canonical r_idomainType := Eval hnf in IdomainType R (FieldIdomainMixin r_field_axiom).
Canonical r_fieldType := FieldType R r_field_axiom.

Definition r_leb (x y : R) : bool := if Rle_dec x y then true else false.
Definition r_ltb (x y : R) : bool := (y != x) && r_leb x y.
Lemma r_leP (x y : R) : reflect (Rle x y) (r_leb x y).
Proof. by rewrite /r_leb; case: Rle_dec => h; constructor. Qed.

Lemma r_le0D x y : r_leb R0 x -> r_leb R0 y -> r_leb R0 (Rplus x y).
Proof. by move=> /r_leP hx /r_leP hy; apply/r_leP; apply: Rplus_le_le_0_compat. Qed.
Lemma r_le0M x y : r_leb R0 x -> r_leb R0 y -> r_leb R0 (Rmult x y).
Proof. by move=> /r_leP hx /r_leP hy; apply/r_leP; apply: Rmult_le_pos. Qed.
Lemma r_le0_anti x : r_leb R0 x -> r_leb x R0 -> x = R0.
Proof. by move=> /r_leP hx /r_leP hy; apply: Rle_antisym. Qed.
Lemma r_sub_ge0 x y : r_leb R0 (Rplus y (Ropp x)) = r_leb x y.
Proof.
apply/r_leP/r_leP => h; last exact: Rge_le (Rge_minus _ _ (Rle_ge _ _ h)).
exact: Rge_le (Rminus_ge _ _ (Rle_ge _ _ h)).
Qed.
Lemma r_le0_total x : r_leb R0 x || r_leb x R0.
Proof. by case: (Rle_lt_dec R0 x) => h; apply/orP; [left|right]; apply/r_leP => //; apply: Rlt_le. Qed.
Lemma r_ge0_norm x : r_leb R0 x -> Rabs x = x.
Proof. by move=> /r_leP h; apply: Rabs_right; apply: Rle_ge. Qed.
Lemma r_lt_def x y : r_ltb x y = (y != x) && r_leb x y. Proof. by []. Qed.
Definition rLeMixin : realLeMixin r_idomainType :=
  RealLeMixin r_le0D r_le0M r_le0_anti r_sub_ge0 r_le0_total Rabs_Ropp r_ge0_norm r_lt_def.
Lemma r_le_total : total r_leb.
Proof.
move=> x y; case: (Rle_lt_dec x y) => h; apply/orP; [left|right]; apply/r_leP => //.
exact: Rlt_le.
Qed.
Canonical r_porderType := POrderType ring_display R rLeMixin.
Canonical r_latticeType := LatticeType R rLeMixin.
Canonical r_distrLatticeType := DistrLatticeType R rLeMixin.
Canonical r_orderType := OrderType R r_le_total.
Canonical r_numDomainType := NumDomainType R rLeMixin.
Canonical r_normedZmodType := NormedZmodType R R rLeMixin.
Canonical r_numFieldType := [numFieldType of R].
Canonical r_realDomainType := [realDomainType of R].
Canonical r_realFieldType := [realFieldType of R].

(* translations *)
Lemma rleE (x y : R) : (x <= y)%R <-> Rle x y.
Proof. by split; move/r_leP. Qed.
Lemma rltE (x y : R) : (x < y)%R <-> Rlt x y.
Proof.
split=> [/andP [/eqP ne /r_leP [//|e]]|h]; first by case: ne.
apply/andP; split; last by apply/r_leP; apply: Rlt_le.
by apply/eqP => e; move: h; rewrite e; apply: Rlt_irrefl.
Qed.
Lemma rinvE (x : R) : (x != 0)%R -> (x^-1)%R = Rinv x.
Proof. by move=> /eqP h; rewrite /GRing.inv /= /r_inv; case: r_eqP. Qed.
Lemma rdivE (x y : R) : (y != 0)%R -> (x / y)%R = Rdiv x y.
Proof. by move=> h; rewrite rinvE. Qed.
Lemma rnatE (n : nat) : (n%:R)%R = INR n :> R.
Proof. by elim: n => // n ih; rewrite S_INR -addn1 natrD ih. Qed.
Lemma rexpE (x : R) n : (x ^+ n)%R = pow x n.
Proof. by elim: n => // n ih; rewrite exprS ih. Qed.
