(* What genQDeltaCoeffs should return: the sweeps and their matrices. *)
From Verif.Base Require Import Str.
From mathcomp Require Import all_ssreflect all_algebra.
From Verif.Base Require Import Outcome.
From Verif.Model Require Import Cache Gen.
From Verif.Spec Require Import CacheSpec.
Set Implicit Arguments.
Unset Strict Implicit.
Unset Printing Implicit Defensive.

Section Spec.
Variables (V : Type) (v0 : V) (smatV : V -> V) (reg : string -> option (gcls V)).

(* the names of the sweeps 1, 2, ...; None if one matrix is required *)
Definition sweeps (q : qarg) (ns : nsw) : outcome (option (seq string)) :=
  match q, ns with
  | QStr s, NNone => Ok None
  | QStr s, NInt (Posz n.+1) => Ok (Some (nseq n.+1 s))
  | QLst [::], _ => Raise AssertionError
  | QLst l, NNone => Ok (Some l)
  | QLst l, NInt (Posz n.+1) =>
    if (size l <= n.+1)%N then Ok (Some (l ++ nseq (n.+1 - size l) (last ""%string l)))
    else Raise AssertionError
  | _, _ => Raise ValueError
  end.

(* the class of a name, and the class with its parameters *)
Definition class_of (s : string) : outcome (gcls V) := if reg s is Some g then Ok g else Raise ValueError.
Definition inst (g : gcls V) : outcome (gcls V * V) := omapo (pair g) (g_init g).
(* matrix of the sweep k *)
Definition sweep_mat (form : string) (gQ : gcls V * V) (k : option int) : outcome V :=
  value smatV (fun k => c_comp (g_cls gQ.1) k gQ.2) form k.
Definition first_dTau (dTau : bool) (gQ : gcls V * V) : outcome (option V) :=
  if dTau then omapo (@Some V) (g_dTau gQ.1 gQ.2) else Ok None.

Definition expected_gen (q : qarg) (ns : nsw) (form : string) (dTau : bool) : outcome (ans V * option V) :=
  dop sw <- sweeps q ns;
  match sw with
  | None =>
    dop g <- class_of (if q is QStr s then s else ""%string);
    dop gQ <- inst g;
    dop v <- sweep_mat form gQ None;
    dop d <- first_dTau dTau gQ; Ok (AArr v, d)
  | Some names =>
    dop gs <- omap_seq class_of names;
    dop gQs <- omap_seq inst gs;
    dop vs <- omap_seq (fun p => sweep_mat form p.2 (Some (p.1.+1)%:Z%R)) (zip (iota 0 (size gQs)) gQs);
    if gQs is gQ :: _ then dop d <- first_dTau dTau gQ; Ok (AStack vs, d) else Raise AssertionError
  end.

Definition read_gen (r : heap V * gres V) : ans V * option V := (read v0 r.1 r.2.1, r.2.2).
End Spec.
