(* qmat/qdelta/__init__.py: the QDeltaGenerator objects, their cache of matrices and genCoeffs;
   qmat/qcoeff/__init__.py and butcher.py: the arrays returned by the generators of Q.

   Arrays live in a heap: a location is an index, and in-place modification of an array changes
   the content of its location. The content of arrays is left abstract (type V). What a class
   computes is the field c_comp: computeQDelta as function of k and of the content of the
   parameter array (Q or nodes). *)
From mathcomp Require Import all_ssreflect all_algebra.
From Verif.Base Require Import Outcome Str.
Set Implicit Arguments.
Unset Strict Implicit.
Unset Printing Implicit Defensive.

(* the argument k: None, an integer or a list of these *)
Inductive kval := KOne of option int | KList of seq (option int).

Section Cache.
Variable V : Type.
Variable v0 : V. (* content of locations that do not exist *)
Variable smatV : V -> V. (* T @ QDelta, lines 165-168; see QGen.smat *)

(* A registered class. c_kdep is _K_DEPENDENT (set by register, lines 218-219). c_memo tells for
   which k computeQDelta returns the array stored in self._QDelta_MIN_SR_S (diag.py lines 288-293,
   only MIN_SR_FLEX); for every other k computeQDelta returns a new array. *)
Record cls := Cls { c_kdep : bool; c_comp : kval -> V -> outcome V; c_memo : kval -> bool }.

(* the attribute _QDelta: absent, one array, or a dictionary *)
Inductive cache := CNone | COne of nat | CDict of seq (option int * nat).
Record obj := Obj { o_param : nat; o_cache : cache; o_memo : option nat }.
Definition heap := seq V.
Definition get (h : heap) (l : nat) : V := nth v0 h l.
(* a new array *)
Definition alloc (h : heap) (v : V) : heap * nat := (rcons h v, size h).
(* in-place modification *)
Definition put (h : heap) (l : nat) (v : V) : heap := set_nth v0 h l v.

(* __init__ *)
Definition new_obj (p : nat) : obj := Obj p CNone None.

Definition lookup (k : option int) (d : seq (option int * nat)) : option nat :=
  omap snd (ohead [seq p <- d | p.1 == k]).

(* computeQDelta with the arrays it creates *)
Definition compute (c : cls) (h : heap) (o : obj) (k : kval) : outcome (heap * obj * nat) :=
  if c_memo c k then
    if o_memo o is Some l then Ok (h, o, l)
    else dop v <- c_comp c k (get h (o_param o));
      let (h', l) := alloc h v in Ok (h', Obj (o_param o) (o_cache o) (Some l), l)
  else dop v <- c_comp c k (get h (o_param o)); let (h', l) := alloc h v in Ok (h', o, l).

(* lines 140-149; the result is the location of the array in the cache *)
Definition cached (c : cls) (h : heap) (o : obj) (k : kval) : outcome (heap * obj * nat) :=
  if c_kdep c then
    match o_cache o with
    | CNone => (* AttributeError *)
      dop r <- compute c h o k;
      let: (h, o, l) := r in
      if k is KOne k then Ok (h, Obj (o_param o) (CDict [:: (k, l)]) (o_memo o), l)
      else Raise TypeError (* unhashable key *)
    | CDict d =>
      match k with
      | KOne k1 =>
        if lookup k1 d is Some l then Ok (h, o, l)
        else (* KeyError *)
          dop r <- compute c h o k;
          let: (h, o, l) := r in Ok (h, Obj (o_param o) (CDict ((k1, l) :: d)) (o_memo o), l)
      | KList _ => (* TypeError *) dop r <- compute c h o k; Raise WeirdBug
      end
    | COne _ => (* an array is not indexed by k *) Raise WeirdBug
    end
  else
    match o_cache o with
    | COne l => Ok (h, o, l)
    | _ => dop r <- compute c h o k;
           let: (h, o, l) := r in Ok (h, Obj (o_param o) (COne l) (o_memo o), l)
    end.

(* getQDelta, lines 124-149 *)
Definition getQDelta (c : cls) (h : heap) (o : obj) (k : kval) (copy : bool) : outcome (heap * obj * nat) :=
  dop r <- cached c h o k;
  let: (h, o, l) := r in
  if copy then let (h', l') := alloc h (get h l) in Ok (h', o, l') else Ok (h, o, l).

(* getSDelta, lines 151-168 *)
Definition getSDelta (c : cls) (h : heap) (o : obj) (k : kval) : outcome (heap * obj * nat) :=
  dop r <- getQDelta c h o k true;
  let: (h, o, l) := r in
  let (h', l') := alloc h (smatV (get h l)) in Ok (h', o, l').

(* genCoeffs, lines 197-210: the function gen for the two forms *)
Definition gen (c : cls) (form : string) (h : heap) (o : obj) (k : kval) : outcome (heap * obj * nat) :=
  if form == "Z2N"%string then getQDelta c h o k false else getSDelta c h o k.

(* the list comprehension; the state changes made before an exception are kept *)
Fixpoint gen_list (c : cls) (form : string) (h : heap) (o : obj) (ks : seq (option int)) :
    heap * obj * outcome (seq V) :=
  match ks with
  | [::] => (h, o, Ok [::])
  | k :: ks =>
    match gen c form h o (KOne k) with
    | Raise e => (h, o, Raise e)
    | Ok (h1, o1, l) =>
      let: (h2, o2, r) := gen_list c form h1 o1 ks in
      (* the entries are copied into the new array only after all of them were computed *)
      (h2, o2, omapo (cons (get h2 l)) r)
    end
  end.

(* result of a call: one array, or a new array made of several matrices *)
Inductive res := RArr of nat | RStack of seq V.

(* calls that raise leave the object as it is, except in the list comprehension *)
Definition keep (h : heap) (o : obj) (r : outcome (heap * obj * nat)) : heap * obj * outcome res :=
  match r with Ok (h', o', l) => (h', o', Ok (RArr l)) | Raise e => (h, o, Raise e) end.

(* genCoeffs, lines 197-214, without dTau *)
Definition genCoeffs (c : cls) (h : heap) (o : obj) (k : kval) (form : string) : heap * obj * outcome res :=
  if (form != "Z2N"%string) && (form != "N2N"%string) then (h, o, Raise ValueError) else
  match k with
  | KOne _ => keep h o (gen c form h o k)
  | KList ks =>
    let: (h', o', r) := gen_list c form h o ks in
    match r with
    | Ok vs => (h', o', Ok (RStack vs))
    | Raise TypeError => keep h' o' (gen c form h' o' k)
    | Raise e => (h', o', Raise e)
    end
  end.

(* What a user can do with an object: the three methods, and changing an array in place. *)
Inductive op :=
  | OGet of option int & bool
  | OGetS of option int
  | OGen of kval & string
  | OPut of nat & V.

Definition do_op (c : cls) (h : heap) (o : obj) (a : op) : heap * obj * outcome res :=
  match a with
  | OGet k copy => keep h o (getQDelta c h o (KOne k) copy)
  | OGetS k => keep h o (getSDelta c h o (KOne k))
  | OGen k form => genCoeffs c h o k form
  | OPut l v => (put h l v, o, Ok (RStack [::]))
  end.

(* a history: the states and results, in order; each result is given with the heap after the call *)
Fixpoint run (c : cls) (h : heap) (o : obj) (s : seq op) : seq (op * heap * outcome res) :=
  if s is a :: s then let: (h', o', r) := do_op c h o a in (a, h', r) :: run c h' o' s else [::].

(* The three kinds of registered classes: computeQDelta without k; computeQDelta with a check of k
   (diag.py lines 30-34: the comparison of a list with 1 raises TypeError); and MIN_SR_FLEX, whose
   matrices for k larger than the number n of nodes are the memo. *)
Definition cls_kindep (f : V -> outcome V) : cls := Cls false (fun _ v => f v) (fun _ => false).
Definition cls_kdep (f : option int -> V -> outcome V) : cls :=
  Cls true (fun k v => if k is KOne k then f k v else Raise TypeError) (fun _ => false).
Definition cls_flex (n : nat) (f : option int -> V -> outcome V) : cls :=
  Cls true (fun k v => if k is KOne k then f k v else Raise TypeError)
    (fun k => if k is KOne (Some k) then (n%:Z < k)%R else false).

(* Generators of Q: the class attributes A, b and c of a Runge-Kutta class (butcher.py lines 40-47,
   checkAndStore lines 101-103). __init__ (lines 49-71): without padding the instance uses the
   arrays of the class, with padding it gets new ones (padA, padb, padc: their contents, see
   Butcher.v). The properties nodes, weights and Q (lines 75-91) return the arrays themselves, as
   does genCoeffs (qcoeff/__init__.py lines 96-134) in the Z2N form; genQCoeffs (lines 243-270)
   makes a new instance for each call. *)
Record rkarr := Rkarr { k_A : nat; k_b : nat; k_c : nat }.
Section RK.
Variables (padA : V -> V -> V) (padb padc : V -> V).
Definition rk_init (cl : rkarr) (h : heap) (padding : bool) : heap * rkarr :=
  if padding then
    let (h, c') := alloc h (padc (get h (k_c cl))) in
    let (h, b') := alloc h (padb (get h (k_b cl))) in
    let (h, A') := alloc h (padA (get h (k_A cl)) (get h (k_b cl))) in
    (h, Rkarr A' b' c')
  else (h, cl).
(* genQCoeffs(qType, padding=...): nodes, weights, Q *)
Definition rk_genQCoeffs (cl : rkarr) (h : heap) (padding : bool) : heap * (nat * nat * nat) :=
  let (h, g) := rk_init cl h padding in (h, (k_c g, k_b g, k_A g)).
End RK.
End Cache.
