(* qmat/utils/__init__.py: storeAlias, storeClass, getClasses and useQGen; the steps of register
   (qdelta/__init__.py lines 216-231) that concern them. *)
From Verif.Base Require Import Str.
From mathcomp Require Import all_ssreflect.
From Verif.Base Require Import Outcome.
Set Implicit Arguments.
Unset Strict Implicit.
Unset Printing Implicit Defensive.

(* Python dictionaries with string keys, in insertion order *)
Section Dict.
Variable V : Type.
Definition dict := seq (string * V).
Definition dkeys (d : dict) : seq string := [seq p.1 | p <- d].
Fixpoint dget (x : string) (d : dict) : option V :=
  if d is (y, v) :: d then if x == y then Some v else dget x d else None.
(* d[x] = v *)
Fixpoint dset (x : string) (v : V) (d : dict) : dict :=
  if d is (y, w) :: d then if x == y then (y, v) :: d else (y, w) :: dset x v d
  else [:: (x, v)].
(* d.update(e) *)
Definition dupdate (d e : dict) : dict := foldl (fun d p => dset p.1 p.2 d) d e.
(* the dictionary after d.pop(x, None) *)
Definition dpop (x : string) (d : dict) : dict := [seq p <- d | p.1 != x].
(* {name: value for name, value in zip(names, args)} *)
Definition dzip (names : seq string) (args : seq V) : dict := dupdate [::] (zip names args).
End Dict.

Section Registry.
Variable C : eqType. (* classes *)

(* storeAlias, lines 43-46 *)
Definition storeAlias (c : C) (d : dict C) (alias : string) : dict C * outcome unit :=
  if alias \in dkeys d then (d, Raise AssertionError) else (dset alias c d, Ok tt).

(* the attribute aliases: absent, None or empty; a list; or some other true value *)
Inductive aliases := ANone | AList of seq string | ABad.

(* the loop of lines 56-57 *)
Fixpoint storeAliases (c : C) (d : dict C) (l : seq string) : dict C * outcome unit :=
  if l is a :: l then
    let (d, r) := storeAlias c d a in
    if r is Ok _ then storeAliases c d l else (d, r)
  else (d, Ok tt).

(* storeClass, lines 49-57; the dictionary is changed in place, also when an exception is raised *)
Definition storeClass (c : C) (name : string) (al : aliases) (d : dict C) : dict C * outcome unit :=
  let (d, r) := storeAlias c d name in
  if r is Ok _ then
    match al with
    | ANone => (d, Ok tt)
    | ABad => (d, Raise AssertionError)
    | AList l => storeAliases c d l
    end
  else (d, r).

(* getattr(cls, "aliases", None) for a class with the given chain of base classes, each of them
   with its own attribute or none *)
Definition getaliases (chain : seq (option aliases)) : aliases :=
  nth ANone (pmap id chain) 0.

(* a sequence of registrations, where exceptions are caught *)
Definition storeAll (d : dict C) (s : seq (C * string * aliases)) : dict C :=
  foldl (fun d p => (storeClass p.1.1 p.1.2 p.2 d).1) d s.

(* getClasses, lines 68-78; check is the test on the module *)
Definition getClasses (check : C -> bool) (d : dict C) : dict C :=
  foldl (fun cl p => if (p.2 \notin [seq q.2 | q <- cl]) && check p.2 then dset p.1 p.2 cl else cl) [::] d.
End Registry.

Section UseQGen.
Variables (V G R : Type).
(* Values of keyword arguments: a Q-generator (as given with qGen or coll), None or another value *)
Inductive arg := AGen of G | ANoneV | AVal of V.
(* __init__ of the class, called with keyword arguments only *)
Variable init : dict arg -> outcome R.
(* self.extractParams: raises AssertionError if the generator has the wrong type, also when
   something else than a generator is given *)
Variable extract : arg -> outcome (dict arg).
(* the names of the parameters of __init__ that are not *args or **kwargs, without self *)
Variable pNames : seq string.

(* useQGen, lines 80-112: the wrapper *)
Definition wrapper (args : seq arg) (kwargs : dict arg) : outcome R :=
  dop kwargs <-
    (if dget "coll" kwargs is Some c then
       if dget "qGen" kwargs is Some _ then Raise AssertionError
       else Ok (dset "qGen" c (dpop "coll" kwargs))
     else Ok kwargs);
  let params := dzip pNames args in
  let qGen := dget "qGen" kwargs in
  let kwargs := dpop "qGen" kwargs in
  let params := dupdate params kwargs in
  match qGen with
  | None | Some ANoneV => init params
  | Some g => dop e <- extract g; init (dupdate e params)
  end.
End UseQGen.

(* Binding of the keyword arguments by the call __init__(self, params) of a constructor with a
   kwargs parameter: named parameters, some of them with a default value; other keywords are
   accepted and ignored *)
Definition bind (A : Type) (sig : seq (string * option A)) (d : dict A) : outcome (seq A) :=
  omap_seq (fun p => if dget p.1 d is Some v then Ok v
                     else if p.2 is Some v then Ok v else Raise TypeError) sig.
