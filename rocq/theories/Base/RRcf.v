(* The real numbers are a real closed field. *)
From Coq Require Import Reals.
From mathcomp Require Import all_ssreflect all_algebra.
From Verif.Base Require Import RField.
Set Implicit Arguments.
Unset Strict Implicit.
Unset Printing Implicit Defensive.
Import GRing.Theory Num.Theory.

Lemma horner_continuity (p : {poly r_realFieldType}) : continuity (fun x : R => (p.[x])%R).
Proof.
elim/poly_ind: p => [|p c ih].
  have -> : (fun x : R => (0 : {poly r_realFieldType}).[x]%R) = fct_cte R0.
    by apply: FunctionalExtensionality.functional_extensionality => x; rewrite horner0.
  exact: continuity_const.
have -> : (fun x : R => (p * 'X + c%:P)%R.[x]%R) = plus_fct (mult_fct (fun x : R => (p.[x])%R) id) (fct_cte c).
  apply: FunctionalExtensionality.functional_extensionality => x.
  by rewrite hornerMXaddC.
apply: continuity_plus; last exact: continuity_const.
apply: continuity_mult => //; exact: derivable_continuous derivable_id.
Qed.

Lemma r_real_closed : Num.real_closed_axiom r_realFieldType.
Proof.
move=> p a b /rleE ab /andP [/rleE pa /rleE pb].
have [|z [[z1 z2] e]] := IVT_cor (fun x : R => (p.[x])%R) a b (horner_continuity p) ab.
  by rewrite -(Rmult_0_l (p.[b])%R); apply: Rmult_le_compat_r.
exists z; last by apply/eqP.
by apply/andP; split; apply/rleE.
Qed.
Canonical r_rcfType := Eval hnf in RcfType R r_real_closed.
Lemma r_rcf_same : Num.RealClosedField.realFieldType r_rcfType = r_realFieldType. Proof. by []. Qed.
