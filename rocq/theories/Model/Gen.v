(* qmat/qdelta/__init__.py lines 234-312: genQDeltaCoeffs, on top of the generator objects of
   Cache.v. Matrices are abstract values in a heap. *)
From Verif.Base Require Import Str.
From mathcomp Require Import all_ssreflect all_algebra.
From Verif.Base Require Import Outcome.
From Verif.Model Require Import Cache.
Set Implicit Arguments.
Unset Strict Implicit.
Unset Printing Implicit Defensive.

(* the arguments qDeltaType and nSweeps; QOther and NOther stand for values of other types.
   The entries of a list are taken to be strings. *)
Inductive qarg := QStr of string | QLst of seq string | QOther.
Inductive nsw := NNone | NInt of int | NOther.

Section Gen.
Variable V : Type.
Variable v0 : V.
Variable smatV : V -> V.

(* a registered class: its methods; the constructor applied to the given **params, which yields
   the content of the parameter array or raises; and the property dTau (lines 170-173 and
   overrides in timestepping.py) *)
Record gcls := Gcls { g_cls : cls V; g_init : outcome V; g_dTau : V -> outcome V }.
(* QDELTA_GENERATORS *)
Variable reg : string -> option gcls.

(* the returned value: one matrix or a stack, and dTau if required *)
Definition gres : Type := res V * option V.

(* gen = Generator(params) *)
Definition new_gen (g : gcls) (h : heap V) : outcome (heap V * obj) :=
  dop v <- g_init g; let (h, p) := alloc h v in Ok (h, new_obj p).

(* gens = [Gen(params) for Gen in Generators] *)
Fixpoint new_gens (gs : seq gcls) (h : heap V) : outcome (heap V * seq (gcls * obj)) :=
  if gs is g :: gs then
    dop ho <- new_gen g h;
    dop hr <- new_gens gs ho.1;
    Ok (hr.1, (g, ho.2) :: hr.2)
  else Ok (h, [::]).

(* genCoeffs(k, form, dTau), lines 175-211, with dTau *)
Definition genCoeffs_dTau (g : gcls) (h : heap V) (o : obj) (k : kval) (form : string) (dTau : bool) :
    outcome (heap V * gres) :=
  let: (h, o, r) := genCoeffs v0 smatV (g_cls g) h o k form in
  dop r <- r;
  if dTau then dop d <- g_dTau g (get v0 h (o_param o)); Ok (h, (r, Some d))
  else Ok (h, (r, None)).

(* [gen.genCoeffs(k+1, form) for k, gen in enumerate(gens)]; the matrices of the resulting stack
   are copies made at the end; they are assumed to have the same shape *)
Fixpoint gen_each (h : heap V) (i : nat) (gens : seq (gcls * obj)) (form : string) :
    outcome (heap V * seq nat) :=
  if gens is (g, o) :: gens then
    dop hr <- genCoeffs_dTau g h o (KOne (Some (i.+1)%:Z%R)) form false;
    dop hl <- gen_each hr.1 i.+1 gens form;
    if hr.2.1 is RArr l then Ok (hl.1, l :: hl.2) else Raise TypeError
  else Ok (h, [::]).

(* the checks of lines 258-279: the list of types and the number of sweeps (None for a single
   matrix), and the caller's argument afterwards: a list is extended in place *)
Definition check_args (q : qarg) (ns : nsw) : qarg * outcome (seq string * option int) :=
  match q with
  | QStr s =>
    match ns with
    | NNone => (q, Ok ([:: s], None))
    | NInt n => if (0 < n)%R then (q, Ok ([:: s], Some n)) else (q, Raise ValueError)
    | NOther => (q, Raise ValueError)
    end
  | QLst l =>
    if size l == 0%N then (q, Raise AssertionError) else
    match ns with
    | NNone => (q, Ok (l, Some (size l)%:Z%R))
    | NInt n =>
      if (0 < n)%R then
        if (n < (size l)%:Z)%R then (q, Raise AssertionError)
        else let l' := l ++ nseq (absz (n - (size l)%:Z)%R) (last ""%string l) in (QLst l', Ok (l', Some n))
      else (q, Raise ValueError)
    | NOther => (q, Raise ValueError)
    end
  | QOther => (q, Raise ValueError)
  end.

(* Generators = [QDELTA_GENERATORS[qDT] for qDT in qDeltaType] *)
Definition find_gens (l : seq string) : outcome (seq gcls) :=
  omap_seq (fun s => if reg s is Some g then Ok g else Raise ValueError) l.

Definition genQDeltaCoeffs (h : heap V) (q : qarg) (ns : nsw) (form : string) (dTau : bool) :
    qarg * outcome (heap V * gres) :=
  let (q', r) := check_args q ns in
  (q',
   dop ln <- r;
   let: (l, n) := ln in
   dop gs <- find_gens l;
   match n, gs with
   | None, g :: _ =>
     dop ho <- new_gen g h; genCoeffs_dTau g ho.1 ho.2 (KOne None) form dTau
   | Some n, [:: g] =>
     dop ho <- new_gen g h;
     genCoeffs_dTau g ho.1 ho.2 (KList [seq Some (k.+1)%:Z%R | k <- iota 0 (absz n)]) form dTau
   | Some n, _ =>
     dop ho <- new_gens gs h;
     dop hl <- gen_each ho.1 0 ho.2 form;
     let st := RStack [seq get v0 hl.1 l | l <- hl.2] in
     if dTau then
       if ho.2 is (g, o) :: _ then dop d <- g_dTau g (get v0 hl.1 (o_param o)); Ok (hl.1, (st, Some d))
       else Raise TypeError
     else Ok (hl.1, (st, None))
   | None, [::] => Raise TypeError (* does not occur *)
   end).
End Gen.
