(* Butcher tables whose numbers are stored with a relative error, and the size of the terms
   that are added up in their order conditions. *)
From Coq Require Import ZArith List.
From Verif.Base Require Import Str.
From mathcomp Require Import all_ssreflect all_algebra.
From Verif.Model Require Import QGen.
Set Implicit Arguments.
Unset Strict Implicit.
Unset Printing Implicit Defensive.
Import GRing.Theory Num.Theory.
Local Open Scope ring_scope.

Section Stored.
Variable F : numFieldType.
(* a' is stored for a, with relative error at most e *)
Definition stored_num (e a a' : F) : Prop := `|a' - a| <= e * `|a|.
Definition stored_vec (e : F) : seq F -> seq F -> Prop := Forall2 (stored_num e).
Definition stored_mat (e : F) : seq (seq F) -> seq (seq F) -> Prop := Forall2 (stored_vec e).
Definition stored_opt (e : F) (o o' : option (seq F)) : Prop :=
  match o, o' with
  | None, None => True
  | Some v, Some v' => stored_vec e v v'
  | _, _ => False
  end.
Definition stored (e : F) (t t' : table F) : Prop :=
  [/\ stored_mat e (tA t) (tA t'), stored_vec e (tb t) (tb t'), stored_vec e (tc t) (tc t'),
      stored_opt e (tb2 t) (tb2 t') & (torder t', torderE t') = (torder t, torderE t)].
(* every number rounded *)
Definition round_table (rnd : F -> F) (t : table F) : table F :=
  @Table F [seq [seq rnd a | a <- row] | row <- tA t] [seq rnd a | a <- tb t]
    [seq rnd a | a <- tc t] (omap (map rnd) (tb2 t)) (torder t) (torderE t).
End Stored.

(* bound of the sums of the moduli of the products in the order conditions up to the declared
   order, of the rows and of the weights *)
Definition large_terms : seq string := [:: "ARK548L2SAERK"%string].
Definition medium_terms : seq string :=
  [:: "SDIRK54"; "EDIRK43"; "EDIRK4"; "ESDIRK53"; "ARK548L2SAESDIRK"; "ARK4EDIRK"]%string.
Definition magnp (name : string) : positive :=
  if name \in large_terms then 500000%positive
  else if name \in medium_terms then 2000%positive else 100%positive.
Definition magn (name : string) : nat := Pos.to_nat (magnp name).
