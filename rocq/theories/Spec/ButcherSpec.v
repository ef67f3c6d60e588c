(* Accuracy with which the coefficients of the registered tables are given: exact for most
   of them, rounded to 10 digits for ARK343, and to full double (or better) precision for the
   tables printed as long fractions. *)
From Coq Require Import ZArith.
From Verif.Base Require Import Str.
From mathcomp Require Import all_ssreflect all_algebra.
From Verif.Base Require Import QcField QcEmb.
Set Implicit Arguments.
Unset Strict Implicit.
Unset Printing Implicit Defensive.
Open Scope string_scope.

Definition ten_digits : seq string := [:: "ARK343ESDIRK"; "ARK343ERK"].
Definition fractions : seq string :=
  [:: "SDIRK3"; "ESDIRK43"; "ESDIRK53"; "ARK548L2SAERK"; "ARK548L2SAESDIRK";
      "ARK548L2SAESDIRK2"; "ARK548L2SAERK2"; "ARK324L2SAERK"; "ARK324L2SAESDIRK"].
Definition tolz (name : string) : Z * positive :=
  if name \in ten_digits then (Z.one, 1000000000%positive)
  else if name \in fractions then (Z.one, 1000000000000000%positive)
  else (Z0, 1%positive).
(* 1e-9, 1e-15 or 0 *)
Definition tol (F : numFieldType) (name : string) : F :=
  qcr F (qc (tolz name).1 (tolz name).2).
