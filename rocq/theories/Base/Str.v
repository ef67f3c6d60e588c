(* Strings (Python str) with decidable equality. *)
From Coq Require Export String.
From mathcomp Require Import all_ssreflect.
Lemma string_eqP : Equality.axiom String.eqb.
Proof. exact: String.eqb_spec. Qed.
Canonical string_eqType := Eval hnf in EqType string (EqMixin string_eqP).
