(* What the methods of a QDelta generator should return, without any cache. *)
From mathcomp Require Import all_ssreflect all_algebra.
From Verif.Base Require Import Outcome Str.
From Verif.Model Require Import Cache.
Set Implicit Arguments.
Unset Strict Implicit.
Unset Printing Implicit Defensive.

Section Spec.
Variables (V : Type) (v0 : V) (smatV : V -> V).
(* computeQDelta of the class, for the parameter array given to the constructor *)
Variable comp : kval -> outcome V.

(* the content of what was returned, right after the call *)
Inductive ans := AArr of V | AStack of seq V.
Definition read (h : heap V) (r : res V) : ans :=
  match r with RArr l => AArr (get v0 h l) | RStack vs => AStack vs end.

Definition value (form : string) (k : option int) : outcome V :=
  if form == "Z2N"%string then comp (KOne k)
  else if form == "N2N"%string then omapo smatV (comp (KOne k)) else Raise ValueError.

Definition expected (a : op V) : outcome ans :=
  match a with
  | OGet k _ => omapo AArr (value "Z2N" k)
  | OGetS k => omapo AArr (value "N2N" k)
  | OGen (KOne k) form => omapo AArr (value form k)
  | OGen (KList ks) form =>
    if (form == "Z2N"%string) || (form == "N2N"%string) then omapo AStack (omap_seq (value form) ks)
    else Raise ValueError
  | OPut _ _ => Ok (AStack [::])
  end.

(* Histories in which arrays are obtained by copying calls, and only the arrays returned so far
   (the list U) are changed in place. The excluded calls are getQDelta(copy=False) and genCoeffs
   with a scalar k in the Z2N form. *)
Definition copying (a : op V) : bool :=
  match a with
  | OGet _ copy => copy
  | OGen (KOne _) form => form != "Z2N"%string
  | _ => true
  end.
Fixpoint polite (U : seq nat) (t : seq (op V * heap V * outcome (res V))) : bool :=
  if t is (a, _, r) :: t then
    [&& copying a, (if a is OPut l _ then l \in U else true) &
        polite (if r is Ok (RArr l) then l :: U else U) t]
  else true.

(* Classes: k-independent ones do not look at k, k-dependent ones reject a list (k < 1 raises
   TypeError), and the memo holds a matrix which is the same for every k that uses it. *)
Definition class_ok (c : cls V) : Prop :=
  [/\ ~~ c_kdep c -> forall k k' v, c_comp c k v = c_comp c k' v,
      c_kdep c -> forall ks v, c_comp c (KList ks) v = Raise TypeError &
      forall k k' v, c_memo c k -> c_memo c k' -> c_comp c k v = c_comp c k' v].
End Spec.
