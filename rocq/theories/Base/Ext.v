(* Field elements extended with the IEEE special values.  There is a single
   unsigned zero: 1/0 is +inf (numpy also returns +inf for x - x = +0). *)
From mathcomp Require Import all_ssreflect all_algebra.
From Verif.Base Require Import Arr.
Set Implicit Arguments.
Unset Strict Implicit.
Unset Printing Implicit Defensive.
Import GRing.Theory Num.Theory Order.TTheory.
Local Open Scope ring_scope.

Section Ext.
Variable F : realFieldType.

Inductive ext := Fin of F | PInf | NInf | NaN.

Definition ext_eqb (a b : ext) : bool :=
  match a, b with
  | Fin x, Fin y => x == y
  | PInf, PInf | NInf, NInf | NaN, NaN => true
  | _, _ => false
  end.
Lemma ext_eqP : Equality.axiom ext_eqb.
Proof.
case=> [x|||] [y|||]; try by constructor.
by apply: (iffP eqP) => [->|[->]].
Qed.
Canonical ext_eqType := Eval hnf in EqType ext (EqMixin ext_eqP).

Definition is_fin (a : ext) := if a is Fin _ then true else false.
Definition is_inf (a : ext) := match a with PInf | NInf => true | _ => false end.
(* the real value, 0 for the special values: used in specifications only next to is_fin *)
Definition unfin (a : ext) : F := if a is Fin x then x else 0.

Definition inf_of (x : F) : ext := if 0 < x then PInf else if x < 0 then NInf else NaN.
Definition eopp (a : ext) :=
  match a with Fin x => Fin (- x) | PInf => NInf | NInf => PInf | NaN => NaN end.
Definition eadd (a b : ext) : ext :=
  match a, b with
  | NaN, _ | _, NaN => NaN
  | PInf, NInf | NInf, PInf => NaN
  | PInf, _ | _, PInf => PInf
  | NInf, _ | _, NInf => NInf
  | Fin x, Fin y => Fin (x + y)
  end.
Definition esub (a b : ext) : ext := eadd a (eopp b).
Definition emul (a b : ext) : ext :=
  match a, b with
  | NaN, _ | _, NaN => NaN
  | Fin x, Fin y => Fin (x * y)
  | Fin x, PInf | PInf, Fin x => inf_of x
  | Fin x, NInf | NInf, Fin x => inf_of (- x)
  | PInf, PInf | NInf, NInf => PInf
  | PInf, NInf | NInf, PInf => NInf
  end.
Definition ediv (a b : ext) : ext :=
  match a, b with
  | NaN, _ | _, NaN => NaN
  | Fin x, Fin y => if y == 0 then inf_of x else Fin (x / y)
  | Fin _, PInf | Fin _, NInf => Fin 0
  | PInf, Fin y => if y < 0 then NInf else PInf
  | NInf, Fin y => if y < 0 then PInf else NInf
  | _, _ => NaN
  end.
Definition eabs (a : ext) : ext :=
  match a with Fin x => Fin `|x| | PInf | NInf => PInf | NaN => NaN end.
(* np.sign *)
Definition esign (a : ext) : ext :=
  match a with Fin x => Fin (Num.sg x) | PInf => Fin 1 | NInf => Fin (-1) | NaN => NaN end.
(* maximum with NaN propagation, as np.max *)
Definition emax2 (a b : ext) : ext :=
  match a, b with
  | NaN, _ | _, NaN => NaN
  | PInf, _ | _, PInf => PInf
  | NInf, c | c, NInf => c
  | Fin x, Fin y => Fin (Num.max x y)
  end.
Definition esum (s : seq ext) : ext := foldr eadd (Fin 0) s.
Definition eprod (s : seq ext) : ext := foldr emul (Fin 1) s.
(* np.max of a non-empty array (the caller handles the empty one) *)
Definition emax (s : seq ext) : ext := foldr emax2 NInf s.

Lemma esum_fin (s : seq F) : esum [seq Fin a | a <- s] = Fin (vsum s).
Proof. by elim: s => //= a s ->. Qed.
Lemma eprod_fin (s : seq F) : eprod [seq Fin a | a <- s] = Fin (vprod s).
Proof. by elim: s => //= a s ->. Qed.
Lemma esum_mkseq f g n : (forall i, (i < n)%N -> f i = Fin (g i)) ->
  esum (mkseq f n) = Fin (\sum_(i < n) g i).
Proof.
move=> h; have -> : mkseq f n = [seq Fin a | a <- mkseq g n].
  rewrite /mkseq -map_comp; apply/eq_in_map => i; rewrite mem_iota add0n.
  by move=> /h.
by rewrite esum_fin vsum_mkseq.
Qed.
Lemma eprod_mkseq f g n : (forall i, (i < n)%N -> f i = Fin (g i)) ->
  eprod (mkseq f n) = Fin (\prod_(i < n) g i).
Proof.
move=> h; have -> : mkseq f n = [seq Fin a | a <- mkseq g n].
  rewrite /mkseq -map_comp; apply/eq_in_map => i; rewrite mem_iota add0n.
  by move=> /h.
by rewrite eprod_fin vprod_mkseq.
Qed.
Lemma ediv_fin x y : y != 0 -> ediv (Fin x) (Fin y) = Fin (x / y).
Proof. by move=> /negPf /= ->. Qed.
End Ext.
Arguments PInf {F}.
Arguments NInf {F}.
Arguments NaN {F}.
