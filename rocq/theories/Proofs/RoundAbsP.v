(* Absolute errors relative to a magnitude. *)
From mathcomp Require Import all_ssreflect all_algebra ring zify.
From Verif.Base Require Import Arr Ext.
From Verif.Model Require Import Rounded.
From Verif.Spec Require Import RoundSpec.
From Verif.Proofs Require Import RoundP RoundRowP.
Set Implicit Arguments.
Unset Strict Implicit.
Unset Printing Implicit Defensive.
Import GRing.Theory Num.Theory Order.TTheory.
Local Open Scope ring_scope.

Section Abs.
Variable F : realFieldType.
Variables (u : F) (rnd : F -> F).
Hypothesis std : std_model u rnd.
Variable sumt : nat -> stree.
Hypothesis hs : any_order sumt.
Notation near := (near u).
Notation gg := (gg u).

(* b is a computed value of a, which is at most A in modulus *)
Definition aerr (e A a b : F) : Prop := `|a| <= A /\ `|b - a| <= e * A.

Lemma near_aerr k a b : near k a b -> aerr (gg k) `|a| a b.
Proof. by move=> h; split=> //; exact: (near_err std h). Qed.
Lemma aerr_ge0 e A a b : aerr e A a b -> 0 <= A.
Proof. by case=> h _; apply: le_trans h. Qed.
Lemma aerr_weak e e' A a b : e <= e' -> aerr e A a b -> aerr e' A a b.
Proof. by move=> le h; have A0 := aerr_ge0 h; case: h => h1 h2; split=> //; apply: (le_trans h2); rewrite ler_wpmul2r. Qed.
Lemma aerr_grow e A A' a b : 0 <= e -> A <= A' -> aerr e A a b -> aerr e A' a b.
Proof.
move=> e0 le [h1 h2]; split; first exact: le_trans le.
by apply: (le_trans h2); rewrite ler_wpmul2l.
Qed.
Lemma aerr_norm e A a b : aerr e A a b -> `|b| <= (1 + e) * A.
Proof.
case=> h1 h2; have -> : b = a + (b - a) by ring.
by apply: (le_trans (ler_norm_add _ _)); rewrite mulrDl mul1r ler_add.
Qed.
Lemma aerr_add e A B a b a' b' : aerr e A a a' -> aerr e B b b' -> aerr e (A + B) (a + b) (a' + b').
Proof.
move=> [h1 h2] [g1 g2]; split; first by apply: (le_trans (ler_norm_add _ _)); rewrite ler_add.
have -> : a' + b' - (a + b) = (a' - a) + (b' - b) by ring.
by apply: (le_trans (ler_norm_add _ _)); rewrite mulrDr ler_add.
Qed.
Lemma aerr_opp e A a b : aerr e A a b -> aerr e A (- a) (- b).
Proof. by case=> h1 h2; split; rewrite ?normrN // -opprD normrN. Qed.
Lemma aerr_trans e f A a b c : aerr e A a b -> `|c - b| <= f * `|b| -> 0 <= f ->
  aerr ((1 + e) * (1 + f) - 1) A a c.
Proof.
move=> h hc f0; have nb := aerr_norm h; case: h => h1 h2; split=> //.
have -> : c - a = (c - b) + (b - a) by ring.
apply: (le_trans (ler_norm_add _ _)); apply: le_trans (_ : f * ((1 + e) * A) + e * A <= _).
  by rewrite ler_add //; apply: (le_trans hc); rewrite ler_wpmul2l.
by rewrite le_eqVlt; apply/orP; left; apply/eqP; ring.
Qed.
Lemma aerr_mul e f A B a b a' b' : 0 <= e -> aerr e A a a' -> aerr f B b b' ->
  aerr ((1 + e) * (1 + f) - 1) (A * B) (a * b) (a' * b').
Proof.
move=> e0 h g; have A0 := aerr_ge0 h; have B0 := aerr_ge0 g; have na := aerr_norm h.
case: h g => [h1 h2] [g1 g2]; split; first by rewrite normrM ler_pmul.
have -> : a' * b' - a * b = a' * (b' - b) + b * (a' - a) by ring.
apply: (le_trans (ler_norm_add _ _)); rewrite !normrM.
apply: le_trans (_ : (1 + e) * A * (f * B) + B * (e * A) <= _); first by rewrite ler_add // ler_pmul.
by rewrite le_eqVlt; apply/orP; left; apply/eqP; ring.
Qed.
Lemma ggE j k : (1 + gg j) * (1 + gg k) - 1 = gg (j + k).
Proof. by rewrite gg_add addrC addKr. Qed.
Lemma aerr_rnd e A a b : aerr e A a b -> aerr ((1 + e) * (1 + gg 1) - 1) A a (rnd b).
Proof. by move=> h; apply: (aerr_trans h) (gg_ge0 std _); apply: (near_err std); exact: rnd_near. Qed.
Lemma aerr_rndg k A a b : aerr (gg k) A a b -> aerr (gg k.+1) A a (rnd b).
Proof. by move=> /aerr_rnd; rewrite ggE addn1. Qed.
Lemma aerr_mulg j k A B a b a' b' : aerr (gg j) A a a' -> aerr (gg k) B b b' ->
  aerr (gg (j + k)) (A * B) (a * b) (a' * b').
Proof. by move=> h g; rewrite -ggE; apply: aerr_mul => //; apply: (gg_ge0 std). Qed.

Lemma aerr_rsum e n (A p g : nat -> F) : (0 < n)%N ->
  (forall i, (i < n)%N -> aerr e (A i) (p i) (g i)) ->
  exists2 y, rsum rnd sumt (mkseq (fun i => Fin (g i)) n) = Fin y &
    aerr ((1 + e) * (1 + gg n.-1) - 1) (\sum_(i < n) A i) (\sum_(i < n) p i) y.
Proof.
move=> n0 h; have [y ey hy] := rsum_err std hs g n0; exists y => //.
have h1 : aerr e (\sum_(i < n) A i) (\sum_(i < n) p i) (\sum_(i < n) g i).
  split.
    apply: (le_trans (ler_norm_sum _ _ _)); apply: ler_sum => i _; by have [] := h i (ltn_ord i).
  rewrite -sumrB mulr_sumr; apply: (le_trans (ler_norm_sum _ _ _)); apply: ler_sum => i _.
  by have [] := h i (ltn_ord i).
have h2 : \sum_(i < n) `|g i| <= (1 + e) * \sum_(i < n) A i.
  by rewrite mulr_sumr; apply: ler_sum => i _; apply: aerr_norm (h i (ltn_ord i)).
case: h1 => a1 a2; split=> //.
have -> : y - \sum_(i < n) p i = (y - \sum_(i < n) g i) + (\sum_(i < n) g i - \sum_(i < n) p i) by ring.
apply: (le_trans (ler_norm_add _ _)); move: h2 a2; set S := \sum_(i < n) A i => h2 a2.
have h3 : gg n.-1 * (\sum_(i < n) `|g i|) <= gg n.-1 * ((1 + e) * S) by rewrite ler_wpmul2l // (gg_ge0 std).
apply: (le_trans (ler_add (le_trans hy h3) a2)).
by rewrite le_eqVlt; apply/orP; left; apply/eqP; ring.
Qed.
Lemma aerr_rsumg k n (A p g : nat -> F) : (0 < n)%N ->
  (forall i, (i < n)%N -> aerr (gg k) (A i) (p i) (g i)) ->
  exists2 y, rsum rnd sumt (mkseq (fun i => Fin (g i)) n) = Fin y &
    aerr (gg (k + n.-1)) (\sum_(i < n) A i) (\sum_(i < n) p i) y.
Proof. by move=> n0 h; rewrite -ggE; apply: aerr_rsum. Qed.
Lemma aerr_gam k A a b : k%:R * u < 1 -> aerr (gg k) A a b -> `|b - a| <= gam u k * A.
Proof. by move=> ku h; have [_] := aerr_weak (gg_gam std ku) h. Qed.
End Abs.
