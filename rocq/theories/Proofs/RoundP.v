(* Accumulation of relative rounding errors. *)
From mathcomp Require Import all_ssreflect all_algebra ring.
From Verif.Base Require Import Arr Ext.
From Verif.Model Require Import Rounded.
From Verif.Spec Require Import RoundSpec.
Set Implicit Arguments.
Unset Strict Implicit.
Unset Printing Implicit Defensive.
Import GRing.Theory Num.Theory Order.TTheory.
Local Open Scope ring_scope.

Section Near.
Variable F : realFieldType.
Variables (u : F) (rnd : F -> F).
Hypothesis std : std_model u rnd.
Let u0 : 0 <= u. Proof. by case: std => /andP []. Qed.
Let u1 : 0 < 1 - u. Proof. by rewrite subr_gt0; case: std => /andP []. Qed.
Let v1 : 1 - u <= 1. Proof. by rewrite ler_subl_addr ler_addl. Qed.

(* y is x with at most k relative errors *)
Definition near (k : nat) (x y : F) : Prop :=
  exists2 th, y = x * th & (1 - u) ^+ k <= th <= (1 - u) ^- k.

Lemma pw_gt0 k : 0 < (1 - u) ^+ k. Proof. exact: exprn_gt0. Qed.
Lemma pw_le1 k : (1 - u) ^+ k <= 1. Proof. by apply: exprn_ile1 => //; apply: ltW. Qed.
Lemma ipw_ge1 k : 1 <= (1 - u) ^- k.
Proof. by rewrite -[X in X <= _]invr1 lef_pinv ?posrE ?ltr01 ?pw_gt0 // pw_le1. Qed.
Lemma pw_anti j k : (j <= k)%N -> (1 - u) ^+ k <= (1 - u) ^+ j.
Proof. by move=> jk; rewrite -(subnK jk) exprD ler_pimull ?pw_le1 // ltW ?pw_gt0. Qed.
Lemma ipw_mono j k : (j <= k)%N -> (1 - u) ^- j <= (1 - u) ^- k.
Proof. by move=> jk; rewrite lef_pinv ?posrE ?pw_gt0 // pw_anti. Qed.

Lemma near_refl k x : near k x x.
Proof. by exists 1; rewrite ?mulr1 // pw_le1 ipw_ge1. Qed.
Lemma near_weak j k x y : (j <= k)%N -> near j x y -> near k x y.
Proof.
move=> jk [th -> /andP [h1 h2]]; exists th => //.
by rewrite (le_trans (pw_anti jk) h1) (le_trans h2 (ipw_mono jk)).
Qed.
Lemma near_trans j k x y z : near j x y -> near k y z -> near (j + k) x z.
Proof.
move=> [t -> /andP [h1 h2]] [s -> /andP [g1 g2]]; exists (t * s); first by rewrite mulrA.
have t0 := lt_le_trans (pw_gt0 _) h1; have s0 := lt_le_trans (pw_gt0 _) g1.
by rewrite exprD invfM !ler_pmul // ltW // ?pw_gt0 ?invr_gt0 ?pw_gt0.
Qed.
Lemma near_mul j k a b a' b' : near j a a' -> near k b b' -> near (j + k) (a * b) (a' * b').
Proof.
move=> [t -> /andP [h1 h2]] [s -> /andP [g1 g2]]; exists (t * s); first by ring.
have t0 := lt_le_trans (pw_gt0 _) h1; have s0 := lt_le_trans (pw_gt0 _) g1.
by rewrite exprD invfM !ler_pmul // ltW // ?pw_gt0 ?invr_gt0 ?pw_gt0.
Qed.
Lemma near_inv k a b : near k a b -> near k a^-1 b^-1.
Proof.
move=> [t -> /andP [h1 h2]]; exists t^-1; first by rewrite invfM.
have t0 := lt_le_trans (pw_gt0 _) h1.
by rewrite -[X in X <= _ <= _]invrK !lef_pinv ?posrE ?invr_gt0 ?pw_gt0 // h1 h2.
Qed.
Lemma near_div j k a b a' b' : near j a a' -> near k b b' -> near (j + k) (a / b) (a' / b').
Proof. by move=> h /near_inv; apply: near_mul. Qed.
Lemma near_opp k a b : near k a b -> near k (- a) (- b).
Proof. by move=> [t -> h]; exists t; rewrite // mulNr. Qed.
Lemma near_eq0 k a b : near k a b -> (b == 0) = (a == 0).
Proof.
move=> [t -> /andP [h1 h2]]; rewrite mulf_eq0 orb_idr // => /eqP t0.
by move: (lt_le_trans (pw_gt0 _) h1); rewrite t0 ltxx.
Qed.
Lemma near_scale c k a b : near k a b -> near k (c * a) (c * b).
Proof. exact: (near_mul (near_refl 0 c)). Qed.

Lemma rnd_near x : near 1 x (rnd x).
Proof.
have [_ /(_ x) h _ _] := std; case: (x =P 0) h => [-> | /eqP x0 h].
  by rewrite normr0 mulr0 subr0 normr_le0 => /eqP ->; exists 1; rewrite ?mul0r // expr1 v1 -[X in X <= _]invr1 lef_pinv ?posrE ?ltr01.
exists (rnd x / x); first by rewrite mulrCA mulfV // mulr1.
have {}h : `|rnd x / x - 1| <= u.
  have -> : rnd x / x - 1 = (rnd x - x) / x by rewrite mulrBl mulfV.
  by rewrite normrM normfV ler_pdivr_mulr ?normr_gt0.
move: h; rewrite expr1 ler_norml => /andP []; rewrite ler_subr_addl => h1; rewrite ler_subl_addr => h2; rewrite h1 /=.
apply: (le_trans h2); rewrite -[X in _ <= X]mul1r ler_pdivl_mulr //.
have -> : (u + 1) * (1 - u) = 1 - u ^+ 2 by ring.
by rewrite ler_subl_addr ler_addl sqr_ge0.
Qed.
Lemma near_rnd k x y : near k x y -> near k.+1 x (rnd y).
Proof. by move=> h; rewrite -addn1; apply: near_trans (rnd_near _). Qed.
Lemma rnd_eq0 x : (rnd x == 0) = (x == 0).
Proof. exact: near_eq0 (rnd_near x). Qed.

(* the bound as an error *)
Definition gg (k : nat) : F := (1 - u) ^- k - 1.
Lemma gg_ge0 k : 0 <= gg k. Proof. by rewrite subr_ge0 ipw_ge1. Qed.
Lemma gg_mono j k : (j <= k)%N -> gg j <= gg k.
Proof. by move=> jk; rewrite ler_sub // ipw_mono. Qed.
Lemma gg_add j k : (1 + gg j) * (1 + gg k) = 1 + gg (j + k).
Proof. by rewrite /gg ![1 + (_ - 1)]addrC !subrK exprD invfM. Qed.
Lemma near_err k x y : near k x y -> `|y - x| <= gg k * `|x|.
Proof.
move=> [t -> /andP [h1 h2]]; have -> : x * t - x = (t - 1) * x by ring.
rewrite normrM ler_wpmul2r // /gg ler_norml ler_sub // andbT.
rewrite ler_oppl opprB; apply: le_trans (_ : 1 - (1 - u) ^+ k <= _); first by rewrite ler_sub.
have := pw_gt0 k; move: ((1 - u) ^+ k) => w w0; rewrite -subr_ge0.
have -> : w^-1 - 1 - (1 - w) = (1 - w) ^+ 2 / w by field; rewrite gt_eqF.
by rewrite divr_ge0 ?sqr_ge0 // ltW.
Qed.
Lemma near_norm k x y : near k x y -> `|y| <= (1 + gg k) * `|x|.
Proof.
move=> /near_err h; have -> : y = x + (y - x) by ring.
by apply: (le_trans (ler_norm_add _ _)); rewrite mulrDl mul1r ler_add.
Qed.

(* the usual form of the bound *)
Lemma gg_gam k : k%:R * u < 1 -> gg k <= gam u k.
Proof.
move=> ku; have w0 : 0 < 1 - k%:R * u by rewrite subr_gt0.
have bern : 1 - k%:R * u <= (1 - u) ^+ k.
  elim: k {ku w0} => [|k IH]; first by rewrite mul0r subr0 expr0.
  case: (ler0P (1 - k%:R * u)) => [n|p].
    apply: le_trans (ltW (pw_gt0 _)); apply: le_trans n.
    by rewrite ler_sub // ler_wpmul2r // ler_nat.
  rewrite exprS; apply: le_trans (_ : (1 - u) * (1 - k%:R * u) <= _); last by rewrite ler_pmul2l.
  rewrite -subr_ge0 -addn1 natrD.
  have -> : (1 - u) * (1 - k%:R * u) - (1 - (k%:R + 1%:R) * u) = k%:R * u ^+ 2 by ring.
  by rewrite mulr_ge0 ?ler0n ?sqr_ge0.
have -> : gam u k = (1 - k%:R * u)^-1 - 1 by rewrite /gam; field; rewrite gt_eqF.
by rewrite ler_sub // lef_pinv ?posrE ?pw_gt0.
Qed.
End Near.
