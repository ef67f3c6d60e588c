(* The class decorators that register generators: checkOverriding and checkGenericConstr
   (qmat/utils/__init__.py lines 17-39), register (qmat/qcoeff/__init__.py lines 215-236),
   register (qmat/qdelta/__init__.py lines 217-231), checkAndStore and registerRK
   (qmat/qcoeff/butcher.py lines 99-122), registerTable (qmat/qdelta/diag.py lines 99-106).
   Simplifications: a class is a name, a method resolution order and a dictionary of its own
   attributes (no metaclass, no __new__, no descriptors); arrays are represented by their shape;
   the bodies of constructors are a parameter. *)
From Verif.Base Require Import Str.
From mathcomp Require Import all_ssreflect.
From Verif.Base Require Import Outcome.
From Verif.Model Require Import Registry.
Set Implicit Arguments.
Unset Strict Implicit.
Unset Printing Implicit Defensive.
Local Open Scope string_scope.

(* inspect.Parameter: kind and default; default is inspect.Parameter.empty when there is none *)
Inductive pkind := PosOrKw | VarPos | VarKw | KwOnly.
Inductive pdefault := DEmpty | DNone | DValue.
Record param := Param { p_name : string; p_kind : pkind; p_default : pdefault }.
Definition is_poskw k := if k is PosOrKw then true else false.
Definition is_varkw k := if k is VarKw then true else false.
Definition is_none d := if d is DNone then true else false.
Definition is_empty d := if d is DEmpty then true else false.

(* attributes of classes *)
Inductive attr :=
  | AFun of nat & seq param & nat  (* function: identity, signature, layers of useQGen around it *)
  | AProp of nat                   (* property object *)
  | ANil                           (* None *)
  | AFlag of bool
  | ANames of seq string           (* list of strings *)
  | AKeys of seq string            (* dictionary of parameters, its keys *)
  | AArr of seq nat                (* number, array or nested lists: the shape *)
  | ARagged                        (* nested lists of unequal lengths *)
  | AObj of nat.                   (* anything else, true in a test *)

Record klass := Klass { k_name : string; k_mro : seq nat; k_attrs : dict attr }.
(* the classes, numbered; k_mro starts with the class itself *)
Definition world := nat -> klass.

(* getattr(cls, x) *)
Definition getattr (w : world) (i : nat) (x : string) : option attr :=
  ohead (pmap (fun j => dget x (k_attrs (w j))) (k_mro (w i))).
(* cls.x = a *)
Definition setattr (w : world) (i : nat) (x : string) (a : attr) : world := fun j =>
  let k := w j in
  if j == i then Klass (k_name k) (k_mro k) (dset x a (k_attrs k)) else k.

(* attributes are functions and properties, compared by identity, in the uses of checkOverriding *)
Definition attr_eq (a b : attr) : bool :=
  match a, b with
  | AFun i _ n, AFun j _ m => (i == j) && (n == m)
  | AProp i, AProp j => i == j
  | ANil, ANil => true
  | AFlag x, AFlag y => x == y
  | ANames s, ANames t => s == t
  | AKeys s, AKeys t => s == t
  | AObj i, AObj j => i == j
  | AArr s, AArr t => s == t
  | ARagged, ARagged => true
  | _, _ => false
  end.
Definition is_prop a := if a is AProp _ then true else false.

(* cls.mro()[-2] *)
Definition mro_m2 (w : world) (i : nat) : option nat :=
  ohead (behead (rev (k_mro (w i)))).

(* checkOverriding, lines 17-28 *)
Definition checkOverriding (w : world) (i : nat) (x : string) (isProperty : bool) : outcome unit :=
  if getattr w i x is Some method then
    if mro_m2 w i is Some b then
      if getattr w b x is Some parent then
        if attr_eq method parent then Raise AssertionError
        else if isProperty && ~~ is_prop method then Raise AssertionError
        else Ok tt
      else Raise AttributeError
    else Raise IndexError
  else Raise AttributeError.

(* sig.parameters[x] *)
Definition getparam (s : seq param) (x : string) : option param :=
  ohead [seq p <- s | p_name p == x].

(* checkGenericConstr, lines 31-38; inspect.signature raises TypeError for what is not callable *)
Definition checkGenericConstr (w : world) (i : nat) : outcome unit :=
  match getattr w i "__init__" with
  | Some (AFun _ s _) =>
      if getparam s "kwargs" is Some p then
        if is_varkw (p_kind p) then Ok tt else Raise AssertionError
      else Raise AssertionError
  | Some _ => Raise TypeError
  | None => Raise AttributeError
  end.

(* getattr(cls, "aliases", None): see storeClass in Registry.v *)
Definition aliases_of (w : world) (i : nat) : aliases :=
  match getattr w i "aliases" with
  | None | Some ANil => ANone
  | Some (AFlag b) => if b then ABad else ANone
  | Some (ANames l) => AList l
  | Some (AKeys l) => if l is [::] then ANone else ABad
  | Some _ => ABad
  end.
Definition store (w : world) (i : nat) (d : dict nat) : dict nat * outcome unit :=
  storeClass (i : nat_eqType) (k_name (w i)) (aliases_of w i) d.

(* register of qdelta/__init__.py, lines 217-231.  The class is changed before it is stored:
   lines 225-226 set _K_DEPENDENT, line 229 replaces the constructor *)
Definition registerQD (w : world) (i : nat) (d : dict nat) : world * dict nat * outcome unit :=
  match checkGenericConstr w i with Raise e => (w, d, Raise e) | Ok _ =>
  match checkOverriding w i "computeQDelta" false with Raise e => (w, d, Raise e) | Ok _ =>
  match getattr w i "computeQDelta" with
  | Some (AFun _ s _) =>
      if getparam s "k" is Some p then
        if is_poskw (p_kind p) then
          let w := if is_none (p_default p) then w else setattr w i "_K_DEPENDENT" (AFlag true) in
          let w := if getattr w i "__init__" is Some (AFun f s n)
                   then setattr w i "__init__" (AFun f s n.+1) else w in
          let (d, r) := store w i d in (w, d, r)
        else (w, d, Raise AssertionError)
      else (w, d, Raise AssertionError)
  | _ => (w, d, Raise TypeError)
  end end end.

(* isKDependent, lines 78-80: the attribute, as it is *)
Definition isKDependent (w : world) (i : nat) : outcome attr :=
  if getattr w i "_K_DEPENDENT" is Some a then Ok a else Raise AttributeError.

(* registerTable of diag.py, lines 99-106; tables are the names in the module mincoeffs *)
Definition registerTable (tables : seq string) (w : world) (i : nat) (d : dict nat) :=
  if k_name (w i) \in tables then registerQD w i d else (w, d, Raise AttributeError).

Section Q.
(* the body of a constructor (function identity) of a class, called with the given keywords *)
Variable body : world -> nat -> nat -> seq string -> outcome unit.

(* binding of self and of keyword arguments to a signature whose first parameter is self *)
Definition named p := match p_kind p with PosOrKw | KwOnly => true | _ => false end.
Definition binds (s : seq param) (keys : seq string) : bool :=
  if s is self :: s then
    [&& is_poskw (p_kind self), p_name self \notin keys,
        all (fun p => (p_name p \in keys) || ~~ is_empty (p_default p) || ~~ named p) s &
        has (fun p => is_varkw (p_kind p)) s ||
        all (fun x => has (fun p => named p && (p_name p == x)) s) keys]
  else false.
(* cls() and cls( ** params) *)
Definition instantiate (w : world) (i : nat) (keys : seq string) : outcome unit :=
  match getattr w i "__init__" with
  | Some (AFun f s _) => if binds s keys then body w i f keys else Raise TypeError
  | _ => Raise TypeError
  end.

(* lines 218-220: the loop over the four properties *)
Fixpoint checkAll (w : world) (i : nat) (xs : seq string) : outcome unit :=
  if xs is x :: xs then dop _ <- checkOverriding w i x true; checkAll w i xs else Ok tt.
(* lines 221-234 *)
Definition checkDefault (w : world) (i : nat) : outcome unit :=
  match instantiate w i [::] with
  | Raise TypeError =>
      match getattr w i "DEFAULT_PARAMS" with
      | None => Raise AttributeError
      | Some (AKeys l) => if instantiate w i l is Ok _ then Ok tt else Raise TypeError
      | Some _ => Raise TypeError
      end
  | r => r
  end.
(* register of qcoeff/__init__.py, lines 215-236 *)
Definition registerQ (w : world) (i : nat) (d : dict nat) : dict nat * outcome unit :=
  match checkAll w i [:: "nodes"; "Q"; "weights"; "order"] with Raise e => (d, Raise e) | Ok _ =>
  match checkDefault w i with Raise e => (d, Raise e) | Ok _ => store w i d end end.

(* np.array(a, dtype=float): the shape; None becomes the number nan *)
Definition np_array (a : attr) : outcome (seq nat) :=
  match a with
  | ANil | AFlag _ => Ok [::]
  | AArr s => Ok s
  | ARagged | ANames _ => Raise ValueError
  | _ => Raise TypeError
  end.
(* cls.x = np.array(cls.x, dtype=float) *)
Definition convert (w : world) (i : nat) (x : string) : outcome (world * seq nat) :=
  if getattr w i x is Some a then
    dop s <- np_array a; Ok (setattr w i x (AArr s), s)
  else Raise AttributeError.
(* lines 101-106; the class keeps the attributes converted before an exception *)
Definition convertTable (w : world) (i : nat) : world * outcome (seq nat * seq nat * seq nat) :=
  match convert w i "A" with Raise e => (w, Raise e) | Ok (w, sA) =>
  match convert w i "b" with Raise e => (w, Raise e) | Ok (w, sb) =>
  match convert w i "c" with Raise e => (w, Raise e) | Ok (w, sc) =>
  match getattr w i "b2" with
  | None => (w, Raise AttributeError)
  | Some ANil => (w, Ok (sA, sb, sc))
  | Some _ => match convert w i "b2" with
              | Raise e => (w, Raise e) | Ok (w, _) => (w, Ok (sA, sb, sc)) end
  end end end end.
Definition np_size (s : seq nat) : nat := foldr muln 1 s.
(* lines 108-115 *)
Definition checkTable (w : world) (i : nat) (sA sb sc : seq nat) : outcome unit :=
  if rev sb is n :: _ then
    if n != np_size sc then Raise AssertionError
    else if sA != [:: np_size sc; np_size sc] then Raise AssertionError
    else match getattr w i "order" with
         | None => Raise AttributeError
         | Some ANil => Raise AssertionError
         | Some _ => Ok tt
         end
  else Raise IndexError.
(* checkAndStore, lines 99-118; rk is the dictionary RK_SCHEMES *)
Definition checkAndStore (w : world) (i : nat) (rk : dict nat) : world * dict nat * outcome unit :=
  match convertTable w i with
  | (w, Raise e) => (w, rk, Raise e)
  | (w, Ok (sA, sb, sc)) =>
      if checkTable w i sA sb sc is Raise e then (w, rk, Raise e)
      else let (rk, r) := store w i rk in (w, rk, r)
  end.
(* registerRK, lines 120-122; d is the dictionary Q_GENERATORS *)
Definition registerRK (w : world) (i : nat) (rk d : dict nat) : world * dict nat * dict nat * outcome unit :=
  match checkAndStore w i rk with
  | (w, rk, Raise e) => (w, rk, d, Raise e)
  | (w, rk, Ok _) => let (d, r) := registerQ w i d in (w, rk, d, r)
  end.
End Q.
