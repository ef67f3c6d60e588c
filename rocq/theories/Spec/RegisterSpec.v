(* Vocabulary used to state the properties of the registration decorators. *)
From Verif.Base Require Import Str.
From mathcomp Require Import all_ssreflect.
From Verif.Base Require Import Outcome.
From Verif.Model Require Import Registry Register.
Set Implicit Arguments.
Unset Strict Implicit.
Unset Printing Implicit Defensive.

(* the attribute x of class i, found in the first class of its resolution order that has one *)
Definition attr_is (w : world) (i : nat) (x : string) (a : attr) : Prop :=
  exists pre j post, [/\ k_mro (w i) = pre ++ j :: post,
    forall h, h \in pre -> dget x (k_attrs (w h)) = None & dget x (k_attrs (w j)) = Some a].
Definition no_attr (w : world) (i : nat) (x : string) : Prop :=
  forall h, h \in k_mro (w i) -> dget x (k_attrs (w h)) = None.
(* the last but one class of the resolution order *)
Definition base_of (w : world) (i b : nat) : Prop := exists s o, k_mro (w i) = s ++ [:: b; o].
(* the parameter x of a signature *)
Definition param_is (s : seq param) (x : string) (p : param) : Prop :=
  exists l1 l2, [/\ s = l1 ++ p :: l2, p_name p = x & x \notin [seq p_name q | q <- l1]].
(* the same object: functions have an identity, and a number of wrappers around them *)
Definition same_object (a b : attr) : Prop :=
  a = b \/ exists f s t n, a = AFun f s n /\ b = AFun f t n.
(* the attribute x of i is a, and is not the one of its base *)
Definition overrides (w : world) (i : nat) (x : string) (a : attr) : Prop :=
  attr_is w i x a /\ exists b a', [/\ base_of w i b, attr_is w b x a' & ~ same_object a a'].
(* a function with signature s can be called with an object and the given keywords: every parameter
   without default is given, and every keyword names a parameter unless there is a ** parameter *)
Definition by_name (p : param) : Prop := p_kind p = PosOrKw \/ p_kind p = KwOnly.
Definition accepts (s : seq param) (keys : seq string) : Prop := exists self s',
  [/\ s = self :: s', p_kind self = PosOrKw & p_name self \notin keys] /\
  (forall p, List.In p s' -> by_name p -> p_default p = DEmpty -> p_name p \in keys) /\
  ((exists2 p, List.In p s' & p_kind p = VarKw) \/
   forall x, x \in keys -> exists p, [/\ List.In p s', by_name p & p_name p = x]).
(* the name and the aliases of a class *)
Definition names_are (w : world) (i : nat) (l : seq string) : Prop :=
  (exists2 al, attr_is w i "aliases"%string (ANames al) & l = k_name (w i) :: al) \/
  ((no_attr w i "aliases"%string \/ exists2 a, attr_is w i "aliases"%string a &
      [\/ a = ANil, a = AFlag false | a = AKeys [::]]) /\ l = [:: k_name (w i)]).
(* the names can be added to a dictionary *)
Definition new_names (d : dict nat) (l : seq string) : Prop :=
  uniq l /\ forall x, x \in l -> x \notin dkeys d.
(* only the own attributes xs of class i differ *)
Definition same_but (w w' : world) (i : nat) (xs : seq string) : Prop :=
  (forall j, j <> i -> w' j = w j) /\ k_name (w' i) = k_name (w i) /\ k_mro (w' i) = k_mro (w i) /\
  forall x, x \notin xs -> dget x (k_attrs (w' i)) = dget x (k_attrs (w i)).
