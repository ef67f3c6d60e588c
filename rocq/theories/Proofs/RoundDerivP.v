(* Rounding errors of the derivative matrices. *)
From Verif.Base Require Import Str.
From mathcomp Require Import all_ssreflect all_algebra ring zify.
From Verif.Base Require Import Outcome Arr Ext PolyInterp.
From Verif.Model Require Import Lagrange Rounded.
From Verif.Spec Require Import RoundSpec.
From Verif.Proofs Require Import LagrangeP RoundP RoundRowP RoundAbsP.
Set Implicit Arguments.
Unset Strict Implicit.
Unset Printing Implicit Defensive.
Import GRing.Theory Num.Theory Order.TTheory.
Local Open Scope ring_scope.

Section Deriv.
Variable F : realFieldType.
Variables (u : F) (rnd : F -> F).
Hypothesis std : std_model u rnd.
Variable sumt : nat -> stree.
Hypothesis hs : any_order sumt.
Variable pts : seq F.
Hypothesis un : uniq pts.
Hypothesis n0 : (0 < size pts)%N.
Notation near := (near u).
Notation gg := (gg u).
Notation aerr := (@aerr F).
Let n := size pts.
Let x := nth 0 pts.
Variables (self : lagr F) (c : F) (W : nat -> F) (kw : nat).
Hypothesis c0 : c != 0.
Hypothesis upE : uniquePoints self = pts.
Hypothesis wE : weights self = mkseq (fun j => Fin (W j)) n.
Hypothesis wN : forall j, (j < n)%N -> near kw (c * bwn pts j) (W j).

Definition ridf (i j : nat) : F := if i == j then 0 else rnd (1 / rnd (x i - x j)).
Definition rbse (i j : nat) : F := rnd (rnd (W j / W i) * ridf i j).

Lemma ridfE : r_iDiff rnd self = mkseq (fun i => mkseq (fun j => Fin (ridf i j)) n) n.
Proof.
rewrite /r_iDiff upE map_pts; apply: eq_mkseq_in => i il.
rewrite map_pts; apply: eq_mkseq_in => j jl; rewrite /ridf /x.
case: (i =P j) => [->|/eqP ij]; first by rewrite subrr (rnd0 std) /rdiv /= eqxx /inf_of ltr01.
by rewrite /rdiv ediv_fin ?(rnd_eq0 std) ?diff_neq0U.
Qed.

Lemma ridf_near i j : (i < n)%N -> (j < n)%N -> near 2 (idf pts i j) (ridf i j).
Proof.
move=> il jl; rewrite /idf /ridf; case: (i =P j) => [_|/eqP ij].
  exact: (near_refl std).
by apply: (near_rnd std); rewrite div1r; apply: (near_inv std); apply: (rnd_near std).
Qed.

Lemma rbseE : r_base rnd self = mkseq (fun i => mkseq (fun j => Fin (rbse i j)) n) n.
Proof.
rewrite /r_base wE ridfE map_zip_mkseq; apply: eq_mkseq_in => i il.
rewrite map_zip_mkseq; apply: eq_mkseq_in => j jl.
by rewrite /rdiv ediv_fin // (near_eq0 std (wN il)) mulf_neq0 // bwn_neq0U.
Qed.

Let kb := (2 * kw + 4)%N.
Lemma rbse_near i j : (i < n)%N -> (j < n)%N -> near kb (bse pts i j) (rbse i j).
Proof.
move=> il jl; have bi := bwn_neq0U un il.
have -> : kb = ((kw + kw).+1 + 2).+1 by rewrite /kb; clear; lia.
have -> : bse pts i j = (c * bwn pts j) / (c * bwn pts i) * idf pts i j.
  rewrite /bse /idf; case: eqP => _; first by rewrite mulr0.
  by congr (_ * _); rewrite invfM mulrACA mulfV // mul1r.
apply: (near_rnd std); apply: (near_mul std); last exact: ridf_near.
by apply: (near_rnd std); apply: (near_div std); apply: wN.
Qed.

(* diagonal: minus the sum of the other entries of the row *)
Lemma rfillE k (A f g : nat -> nat -> F) :
  (forall i j, (i < n)%N -> (j < n)%N -> aerr (gg k) (A i j) (f i j) (g i j)) ->
  exists2 D : nat -> nat -> F,
    r_fill_diag rnd sumt (mkseq (fun i => mkseq (fun j => Fin (g i j)) n) n) =
      mkseq (fun i => mkseq (fun j => Fin (D i j)) n) n &
  forall i, (i < n)%N ->
   [/\ forall j, j != i -> D i j = g i j,
       aerr (gg (k + n.-1)) (\sum_(j < n) A i j) (- \sum_(j < n) f i j) (D i i) &
       `|D i i + \sum_(j < n) g i j| <= gg n.-1 * \sum_(j < n) `|g i j|].
Proof.
move=> h.
pose S i := unfin (rsum rnd sumt (mkseq (fun j => Fin (g i j)) n)).
have SE i : (i < n)%N -> rsum rnd sumt (mkseq (fun j => Fin (g i j)) n) = Fin (S i).
  by move=> il; have [y e _] := rsum_err std hs (g i) n0; rewrite /S e.
exists (fun i j => if j == i then - S i else g i j).
  rewrite /r_fill_diag size_mkseq; apply: eq_mkseq_in => i il; rewrite nth_mkseq // SE //=.
  apply: (@eq_from_nth _ NaN).
    by rewrite size_set_nth !size_mkseq; apply/maxn_idPr.
  move=> j; rewrite size_set_nth size_mkseq (maxn_idPr il) => jl.
  by rewrite nth_set_nth /= nth_mkseq // nth_mkseq //; case: eqP.
move=> i il; rewrite eqxx; split=> [j /negPf -> //||].
  have [y e hy] := aerr_rsumg std hs n0 (fun j => h i j il).
  by rewrite /S e; apply: aerr_opp.
have [y e hy] := rsum_err std hs (g i) n0.
by rewrite /S e addrC -normrN opprB.
Qed.

Lemma bse_diag i : bse pts i i = 0. Proof. by rewrite /bse eqxx. Qed.


Lemma r_D1E : exists2 D : nat -> nat -> F, r_D1 rnd sumt self = mkseq (fun i => mkseq (fun j => Fin (D i j)) n) n &
  forall i, (i < n)%N ->
   [/\ forall j, (j < n)%N -> j != i -> near kb (bse pts i j) (D i j),
       aerr (gg (kb + n.-1)) (\sum_(j < n) `|bse pts i j|) (- \sum_(j < n) bse pts i j) (D i i) &
       `|\sum_(j < n) D i j| <= gg n.-1 * \sum_(j < n | j != i :> nat) `|D i j|].
Proof.
have [|D e h] := @rfillE kb (fun i j => `|bse pts i j|) (bse pts) rbse.
  by move=> i j il jl; apply: (near_aerr std); apply: rbse_near.
exists D; first by rewrite /r_D1 rbseE.
move=> i il; have [h1 h2 h3] := h i il; split=> //.
  by move=> j jl ji; rewrite h1 //; apply: rbse_near.
have z : rbse i i = 0 by rewrite /rbse /ridf eqxx mulr0 (rnd0 std).
have -> : \sum_(j < n) D i j = D i i + \sum_(j < n) rbse i j.
  rewrite (bigD1 (Ordinal il)) //= [in RHS](bigD1 (Ordinal il)) //= z add0r; congr (_ + _).
  by apply: eq_bigr => j ji; rewrite h1.
have -> : \sum_(j < n | j != i :> nat) `|D i j| = \sum_(j < n) `|rbse i j|.
  rewrite [RHS](bigD1 (Ordinal il)) //= z normr0 add0r.
  by apply: eq_big => // j ji; rewrite h1.
exact: h3.
Qed.

(* magnitude of the terms of the second derivative *)
Definition mag2 i j : F := 2%:R * `|bse pts i j| * (`|idf pts i j| + \sum_(k < n) `|bse pts i k|).
Definition bse2 i j : F := - 2%:R * bse pts i j * (idf pts i j + \sum_(k < n) bse pts i k).

Lemma r_D2E : let k2 := (kb.+1 + (kb + n.-1).+1).+1 in
  exists2 D : nat -> nat -> F, r_D2 rnd sumt self = mkseq (fun i => mkseq (fun j => Fin (D i j)) n) n &
  forall i, (i < n)%N ->
   [/\ forall j, (j < n)%N -> j != i -> aerr (gg k2) (mag2 i j) (bse2 i j) (D i j),
       aerr (gg (k2 + n.-1)) (\sum_(j < n) mag2 i j) (- \sum_(j < n) bse2 i j) (D i i) &
       `|\sum_(j < n) D i j| <= gg n.-1 * \sum_(j < n | j != i :> nat) `|D i j|].
Proof.
move=> k2.
pose S i := unfin (rsum rnd sumt (mkseq (fun j => Fin (rbse i j)) n)).
pose g i j := rnd (rnd (- 2%:R * rbse i j) * rnd (ridf i j + S i)).
have SE i : (i < n)%N -> rsum rnd sumt (mkseq (fun j => Fin (rbse i j)) n) = Fin (S i) /\
   aerr (gg (kb + n.-1)) (\sum_(j < n) `|bse pts i j|) (\sum_(j < n) bse pts i j) (S i).
  move=> il; have [y e hy] := aerr_rsumg std hs n0 (fun j jl => near_aerr std (rbse_near il jl)).
  by rewrite /S e.
have ga i j : (i < n)%N -> (j < n)%N -> aerr (gg k2) (mag2 i j) (bse2 i j) (g i j).
  move=> il jl; have [_ hS] := SE i il.
  apply: (aerr_rndg std); apply: (aerr_mulg std).
    apply: (aerr_rndg std).
    have -> : 2%:R * `|bse pts i j| = `| - 2%:R * bse pts i j| by rewrite normrM normrN ger0_norm // ler0n.
    by apply: (near_aerr std); apply: (near_scale std); apply: rbse_near.
  apply: (aerr_rndg std); apply: aerr_add hS.
  apply: aerr_weak (near_aerr std (ridf_near il jl)); apply: (gg_mono std).
  by rewrite /kb; clear; lia.
have [D e h] := @rfillE k2 mag2 bse2 g ga.
exists D.
  rewrite /r_D2 rbseE ridfE map_zip_mkseq -e; congr (r_fill_diag _ _ _); apply: eq_mkseq_in => i il /=.
  have [-> _] := SE i il.
  by rewrite map_zip_mkseq.
move=> i il; have [h1 h2 h3] := h i il; split=> //.
  by move=> j jl ji; rewrite h1 //; apply: ga.
have z : g i i = 0 by rewrite /g /rbse /ridf eqxx mulr0 (rnd0 std) mulr0 (rnd0 std) mul0r (rnd0 std).
have -> : \sum_(j < n) D i j = D i i + \sum_(j < n) g i j.
  rewrite (bigD1 (Ordinal il)) //= [in RHS](bigD1 (Ordinal il)) //= z add0r; congr (_ + _).
  by apply: eq_bigr => j ji; rewrite h1.
have -> : \sum_(j < n | j != i :> nat) `|D i j| = \sum_(j < n) `|g i j|.
  rewrite [RHS](bigD1 (Ordinal il)) //= z normr0 add0r.
  by apply: eq_big => // j ji; rewrite h1.
exact: h3.
Qed.

(* the exact values *)
Lemma lpolyE j : (j < n)%N -> lpoly pts j = ell pts j.
Proof.
move=> jl; rewrite /lpoly /ell /bwn -prodfV; elim/big_rec3: _ => [|k a b p _ ->]; first by rewrite scale1r.
by rewrite -scalerAl -scalerAr scalerA.
Qed.
Lemma ld1_off i j : (i < n)%N -> (j < n)%N -> i != j -> ld1 pts i j = bse pts i j.
Proof.
move=> il jl ij; rewrite /ld1 lpolyE // (ellE (Ordinal jl)).
have := @dlag_off _ _ _ (xs_injU un) (Ordinal il) (Ordinal jl) ij.
by rewrite /xs /= => ->; rewrite /bse (negPf ij) !(bwnE (Ordinal _)).
Qed.
Lemma ld1_diag i : (i < n)%N -> ld1 pts i i = - \sum_(j < n) bse pts i j.
Proof.
move=> il; rewrite /ld1 lpolyE // (ellE (Ordinal il)).
have := dlag_diag (xs_injU un) (Ordinal il); rewrite /xs /= => ->.
by congr (- _); apply: eq_bigr => k _; rewrite -(bseE (Ordinal il)).
Qed.
Lemma ld2_off i j : (i < n)%N -> (j < n)%N -> i != j -> ld2 pts i j = bse2 i j.
Proof.
move=> il jl ij; rewrite /ld2 lpolyE // (ellE (Ordinal jl)).
have := @d2lag_off _ _ _ (xs_injU un) (Ordinal il) (Ordinal jl) ij; rewrite {1}/xs /= => ->.
have -> : \sum_k dB (@xs F pts) (Ordinal il) k = \sum_(k < n) bse pts i k.
  by apply: eq_bigr => k _; rewrite -(bseE (Ordinal il)).
by rewrite -(bseE (Ordinal il) (Ordinal jl)) /bse2 /idf (negPf ij).
Qed.
Lemma ld2_diag i : (i < n)%N -> ld2 pts i i = - \sum_(j < n) bse2 i j.
Proof.
move=> il; have := sum_d2lag (xs_injU un) (Ordinal il); rewrite (bigD1 (Ordinal il)) //=.
rewrite {1}/xs /= -(ellE (Ordinal il)) /= -lpolyE // => /eqP; rewrite addr_eq0 => /eqP e.
rewrite /ld2 e; congr (- _).
rewrite [RHS](bigD1 (Ordinal il)) //= {1}/bse2 bse_diag mulr0 mul0r add0r.
apply: eq_bigr => k ki; rewrite -ld2_off //; last by rewrite eq_sym.
by rewrite /ld2 lpolyE // ellE.
Qed.
Lemma dmag1E i : (i < n)%N -> dmag1 pts i = \sum_(j < n) `|bse pts i j|.
Proof.
move=> il; rewrite [RHS](bigD1 (Ordinal il)) //= bse_diag normr0 add0r.
by apply: eq_big => // j ji; rewrite ld1_off // eq_sym.
Qed.
Lemma dmag2E i j : (i < n)%N -> (j < n)%N -> i != j -> dmag2 pts i j = mag2 i j.
Proof. by move=> il jl ij; rewrite /dmag2 /mag2 ld1_off // dmag1E // /idf (negPf ij) normfV. Qed.
Lemma sum_mag2 i : (i < n)%N -> \sum_(j < n) mag2 i j = \sum_(j < n | j != i :> nat) dmag2 pts i j.
Proof.
move=> il; rewrite (bigD1 (Ordinal il)) //= {1}/mag2 bse_diag normr0 mulr0 mul0r add0r.
by apply: eq_big => // j ji; rewrite dmag2E // eq_sym.
Qed.
End Deriv.
