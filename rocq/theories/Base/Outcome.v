(* Results of Python calls: a value or an exception. *)
From mathcomp Require Import all_ssreflect.
Set Implicit Arguments.
Unset Strict Implicit.
Unset Printing Implicit Defensive.

Inductive exn :=
  | ValueError | AssertionError | NotImplementedError | TypeError | KeyError
  | LinAlgError | IndexError | ZeroDivisionError | AttributeError
  | WeirdBug (* raise Exception("some very weird bug happened ...") *).

Inductive outcome (A : Type) := Ok of A | Raise of exn.
Arguments Ok {A} _.
Arguments Raise {A} _.

Definition obind A B (o : outcome A) (f : A -> outcome B) : outcome B :=
  match o with Ok a => f a | Raise e => Raise e end.
Definition omapo A B (f : A -> B) (o : outcome A) : outcome B :=
  match o with Ok a => Ok (f a) | Raise e => Raise e end.
Notation "'dop' x <- o ; e" := (obind o (fun x => e))
  (at level 200, x name, o at level 100, e at level 200).

Definition is_ok A (o : outcome A) : bool := if o is Ok _ then true else false.

(* list comprehension whose body may raise: stops at the first exception *)
Fixpoint omap_seq A B (f : A -> outcome B) (s : seq A) : outcome (seq B) :=
  match s with
  | [::] => Ok [::]
  | a :: s' => obind (f a) (fun b => omapo (cons b) (omap_seq f s'))
  end.

Definition exn_eqb (a b : exn) : bool :=
  match a, b with
  | ValueError, ValueError | AssertionError, AssertionError
  | NotImplementedError, NotImplementedError | TypeError, TypeError
  | KeyError, KeyError | LinAlgError, LinAlgError | IndexError, IndexError
  | ZeroDivisionError, ZeroDivisionError | AttributeError, AttributeError
  | WeirdBug, WeirdBug => true
  | _, _ => false
  end.
Lemma exn_eqP : Equality.axiom exn_eqb.
Proof. by case; case; constructor. Qed.
Canonical exn_eqType := Eval hnf in EqType exn (EqMixin exn_eqP).

Lemma omap_seq_ok A B (f : A -> outcome B) (g : A -> B) s :
  (forall a, f a = Ok (g a)) -> omap_seq f s = Ok (map g s).
Proof. by move=> h; elim: s => //= a s ->; rewrite h. Qed.

Lemma omap_seq_ext A B (f g : A -> outcome B) s :
  (forall a, f a = g a) -> omap_seq f s = omap_seq g s.
Proof. by move=> h; elim: s => //= a s ->; rewrite h. Qed.

Lemma omap_seq_okI (A : eqType) B (f : A -> outcome B) (g : A -> B) s :
  (forall a, a \in s -> f a = Ok (g a)) -> omap_seq f s = Ok (map g s).
Proof.
elim: s => //= a s ih h; rewrite h ?inE ?eqxx //= ih // => b bs.
by apply: h; rewrite inE bs orbT.
Qed.

Definition ok_or A (d : A) (o : outcome A) : A := if o is Ok a then a else d.
Lemma ok_orE A (d : A) o : is_ok o -> o = Ok (ok_or d o).
Proof. by case: o. Qed.

(* comparison of outcomes, to check computed values *)
Definition ok_eq (A : eqType) (o : outcome A) (a : A) : bool := if o is Ok b then b == a else false.
Lemma ok_eqP (A : eqType) (o : outcome A) a : ok_eq o a -> o = Ok a.
Proof. by case: o => //= b /eqP ->. Qed.
