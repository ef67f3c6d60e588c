(* Rounding errors of the weights and of the rows of the interpolation matrix. *)
From Verif.Base Require Import Str.
From mathcomp Require Import all_ssreflect all_algebra ring zify.
From Verif.Base Require Import Outcome Arr Ext PolyInterp.
From Verif.Model Require Import Lagrange Rounded.
From Verif.Proofs Require Import LagrangeP RoundP.
From Verif.Spec Require Import RoundSpec.
Set Implicit Arguments.
Unset Strict Implicit.
Unset Printing Implicit Defensive.
Import GRing.Theory Num.Theory Order.TTheory.
Local Open Scope ring_scope.

Section Trees.
Variable F : realFieldType.
Variables (u : F) (rnd : F -> F).
Hypothesis std : std_model u rnd.
Variables (sumt prodt : nat -> stree).
Hypothesis hs : any_order sumt.
Hypothesis hp : any_order prodt.
Notation near := (near u).
Notation gg := (gg u).

Lemma rnd0 : rnd 0 = 0. Proof. by apply/eqP; rewrite (rnd_eq0 std). Qed.

Lemma leaves_gt0 t : (0 < size (leaves t))%N.
Proof. by elim: t => //= l IH r _; rewrite size_cat ltn_addr. Qed.

Lemma tsum n (g : nat -> F) t : all (fun i => i < n)%N (leaves t) ->
  exists2 y, teval (radd rnd) (mkseq (fun i => Fin (g i)) n) t = Fin y &
    `|y - \sum_(i <- leaves t) g i| <= gg (size (leaves t)).-1 * \sum_(i <- leaves t) `|g i|.
Proof.
elim: t => [i|l IHl r IHr] /=.
  rewrite andbT => il; exists (g i); first by rewrite nth_mkseq.
  by rewrite !big_seq1 subrr normr0 mulr_ge0 ?(gg_ge0 std).
rewrite all_cat => /andP [hl hr].
have [a -> ea] := IHl hl; have [b -> eb] := IHr hr; exists (rnd (a + b)) => //.
rewrite !big_cat /= size_cat.
have zl := leaves_gt0 l; have zr := leaves_gt0 r.
have SA0 : 0 <= \sum_(i <- leaves l) `|g i| by apply: sumr_ge0.
have SB0 : 0 <= \sum_(i <- leaves r) `|g i| by apply: sumr_ge0.
have SA : `|\sum_(i <- leaves l) g i| <= \sum_(i <- leaves l) `|g i| by apply: ler_norm_sum.
have SB : `|\sum_(i <- leaves r) g i| <= \sum_(i <- leaves r) `|g i| by apply: ler_norm_sum.
move: (\sum_(i <- leaves l) g i) (\sum_(i <- leaves l) `|g i|) (\sum_(i <- leaves r) g i)
  (\sum_(i <- leaves r) `|g i|) ea eb SA SB SA0 SB0 => A TA B TB ea eb SA SB SA0 SB0.
have -> : (size (leaves l) + size (leaves r)).-1 =
    (1 + ((size (leaves l)).-1 + (size (leaves r)).-1))%N.
  by move: zl zr; case: (size (leaves l)) => // a' _; case: (size (leaves r)) => // b' _; rewrite addSn addnS.
set k := (_.-1 + _.-1)%N.
have ga : gg (size (leaves l)).-1 <= gg k by apply: (gg_mono std); rewrite leq_addr.
have gb : gg (size (leaves r)).-1 <= gg k by apply: (gg_mono std); rewrite leq_addl.
have {}ea : `|a - A| <= gg k * TA by apply: (le_trans ea); rewrite ler_wpmul2r.
have {}eb : `|b - B| <= gg k * TB by apply: (le_trans eb); rewrite ler_wpmul2r.
have eab : `|(a + b) - (A + B)| <= gg k * (TA + TB).
  have -> : a + b - (A + B) = (a - A) + (b - B) by ring.
  by apply: (le_trans (ler_norm_add _ _)); rewrite mulrDr ler_add.
have nab : `|a + b| <= (1 + gg k) * (TA + TB).
  have -> : a + b = (A + B) + ((a + b) - (A + B)) by ring.
  rewrite mulrDl mul1r; apply: (le_trans (ler_norm_add _ _)); rewrite ler_add //.
  by apply: (le_trans (ler_norm_add _ _)); rewrite ler_add.
have er := near_err std (rnd_near std (a + b)).
have -> : rnd (a + b) - (A + B) = (rnd (a + b) - (a + b)) + ((a + b) - (A + B)) by ring.
apply: (le_trans (ler_norm_add _ _)).
apply: le_trans (_ : gg 1 * ((1 + gg k) * (TA + TB)) + gg k * (TA + TB) <= _).
  by rewrite ler_add //; apply: (le_trans er); rewrite ler_wpmul2l // (gg_ge0 std).
have e := gg_add u 1 k; have -> : gg (1 + k) = (1 + gg 1) * (1 + gg k) - 1 by rewrite e; ring.
by rewrite le_eqVlt; apply/orP; left; apply/eqP; ring.
Qed.

Lemma tree_lt tr n : any_order tr -> (0 < n)%N -> all (fun i => i < n)%N (leaves (tr n)).
Proof.
move=> h n0; rewrite (perm_all _ (h n n0)); apply/allP => i; by rewrite mem_iota.
Qed.

Lemma rsum_err n (g : nat -> F) : (0 < n)%N ->
  exists2 y, rsum rnd sumt (mkseq (fun i => Fin (g i)) n) = Fin y &
    `|y - \sum_(i < n) g i| <= gg n.-1 * \sum_(i < n) `|g i|.
Proof.
move=> n0; have [y ey h] := tsum g (tree_lt hs n0); exists y.
  by rewrite /rsum size_mkseq ey; case: n n0 {ey h}.
move: h; rewrite (perm_size (hs n0)) size_iota !(perm_big _ (hs n0)) /=.
by rewrite -(big_mkord xpredT g) -(big_mkord xpredT (fun i => `|g i|)) /index_iota subn0.
Qed.

(* with summands that are themselves computed *)
Lemma rsum_near n k (p g : nat -> F) : (0 < n)%N -> (forall i, (i < n)%N -> near k (p i) (g i)) ->
  exists2 y, rsum rnd sumt (mkseq (fun i => Fin (g i)) n) = Fin y &
    `|y - \sum_(i < n) p i| <= gg (k + n.-1) * \sum_(i < n) `|p i|.
Proof.
move=> n0 h; have [y -> e] := rsum_err g n0; exists y => //.
have h1 : `|\sum_(i < n) g i - \sum_(i < n) p i| <= gg k * \sum_(i < n) `|p i|.
  rewrite -sumrB mulr_sumr; apply: (le_trans (ler_norm_sum _ _ _)).
  by apply: ler_sum => i _; exact: (near_err std (h i (ltn_ord i))).
have h2 : \sum_(i < n) `|g i| <= (1 + gg k) * \sum_(i < n) `|p i|.
  by rewrite mulr_sumr; apply: ler_sum => i _; exact: (near_norm std (h i (ltn_ord i))).
have -> : y - \sum_(i < n) p i = (y - \sum_(i < n) g i) + (\sum_(i < n) g i - \sum_(i < n) p i) by ring.
apply: (le_trans (ler_norm_add _ _)).
have {}e : `|y - \sum_(i < n) g i| <= gg n.-1 * ((1 + gg k) * \sum_(i < n) `|p i|).
  by apply: (le_trans e); rewrite ler_wpmul2l // (gg_ge0 std).
apply: (le_trans (ler_add e h1)).
have E := gg_add u k n.-1; have -> : gg (k + n.-1) = (1 + gg k) * (1 + gg n.-1) - 1 by rewrite E; ring.
by rewrite le_eqVlt; apply/orP; left; apply/eqP; ring.
Qed.

(* a sum with a single entry that is not zero is exact *)
Lemma tsum1 n i v t : rnd v = v -> all (fun i => i < n)%N (leaves t) -> uniq (leaves t) ->
  teval (radd rnd) (mkseq (fun j => Fin (if j == i then v else 0)) n) t =
  Fin (if i \in leaves t then v else 0).
Proof.
move=> rv; elim: t => [j|l IHl r IHr] /=.
  by rewrite andbT => jn _; rewrite nth_mkseq // inE eq_sym.
rewrite all_cat cat_uniq => /andP [hl hr] /and3P [ul /hasPn d ur].
rewrite IHl // IHr // /radd /= mem_cat.
case: (boolP (i \in leaves l)) => il; case: (boolP (i \in leaves r)) => ir /=;
  rewrite ?(addr0, add0r, rv, rnd0) //.
by have := d _ ir; rewrite /= il.
Qed.
Lemma rsum1 n i v : rnd v = v -> (i < n)%N ->
  rsum rnd sumt (mkseq (fun j => Fin (if j == i then v else 0)) n) = Fin v.
Proof.
move=> rv il; have n0 : (0 < n)%N by case: n il.
have := @tsum1 n i v (sumt n) rv (tree_lt hs n0); rewrite (perm_uniq (hs n0)) iota_uniq => /(_ isT).
by rewrite (perm_mem (hs n0)) mem_iota il /rsum size_mkseq => ->; case: n il {n0}.
Qed.

Lemma tprod n (g : nat -> F) t : all (fun i => i < n)%N (leaves t) ->
  exists2 y, teval (rmul rnd) (mkseq (fun i => Fin (g i)) n) t = Fin y &
    near (size (leaves t)).-1 (\prod_(i <- leaves t) g i) y.
Proof.
elim: t => [i|l IHl r IHr] /=.
  by rewrite andbT => il; exists (g i); rewrite ?nth_mkseq // big_seq1; apply: (near_refl std).
rewrite all_cat => /andP [hl hr].
have [a -> ea] := IHl hl; have [b -> eb] := IHr hr; exists (rnd (a * b)) => //.
rewrite big_cat /= size_cat; have zl := leaves_gt0 l; have zr := leaves_gt0 r.
have -> : (size (leaves l) + size (leaves r)).-1 =
    ((size (leaves l)).-1 + (size (leaves r)).-1).+1.
  by move: zl zr; case: (size (leaves l)) => // a' _; case: (size (leaves r)) => // b' _; rewrite addSn addnS.
by apply: (near_rnd std); apply: (near_mul std).
Qed.
Lemma rprod_near n (g : nat -> F) : (0 < n)%N ->
  exists2 y, rprod rnd prodt (mkseq (fun i => Fin (g i)) n) = Fin y & near n.-1 (\prod_(i < n) g i) y.
Proof.
move=> n0; have [y ey h] := tprod g (tree_lt hp n0); exists y.
  by rewrite /rprod size_mkseq ey; case: n n0 {ey h}.
move: h; rewrite (perm_size (hp n0)) size_iota (perm_big _ (hp n0)) /=.
by rewrite -(big_mkord xpredT g) /index_iota subn0.
Qed.
Lemma near_prod (n : nat) (Q : pred nat) (f g : nat -> F) : (forall i, (i < n)%N -> Q i -> near 1 (f i) (g i)) ->
  near (count Q (iota 0 n)) (\prod_(i < n | Q i) f i) (\prod_(i < n | Q i) g i).
Proof.
move=> h; rewrite -(big_mkord Q f) -(big_mkord Q g) /index_iota subn0.
have : all (fun i => i < n)%N (iota 0 n) by apply/allP => i; rewrite mem_iota.
elim: (iota 0 n) => [|i s IH] /=; first by rewrite !big_nil => _; apply: (near_refl std).
move=> /andP [il hs']; rewrite !big_cons; case: ifP => q; last exact: IH.
by apply: (near_mul std); [apply: h|apply: IH].
Qed.
End Trees.

Section Weights.
Variable F : realFieldType.
Variables (u : F) (rnd : F -> F).
Hypothesis std : std_model u rnd.
Variable prodt : nat -> stree.
Hypothesis hp : any_order prodt.
Variable pts : seq F.
Hypothesis un : uniq pts.
Hypothesis n0 : (0 < size pts)%N.
Notation near := (near u).
Let n := size pts.
Let x := nth 0 pts.

Lemma r_analyticE : exists2 W : nat -> F,
  r_analytic rnd prodt (r_diffs rnd pts) = mkseq (fun j => Fin (W j)) n &
  forall j, (j < n)%N -> near (2 * n - 1) (bwn pts j) (W j).
Proof.
pose g i j : F := if i == j then 1 else rnd (x i - x j).
have row i : exists2 y, (i < n)%N -> rdiv rnd (Fin 1) (rprod rnd prodt (mkseq (fun j => Fin (g i j)) n)) = Fin y &
    (i < n)%N -> near (2 * n - 1) (bwn pts i) y.
  have [y -> h] := rprod_near std hp (g i) n0.
  exists (rnd (1 / y)) => il.
    rewrite /rdiv ediv_fin // (near_eq0 std h); apply/prodf_neq0 => j _; rewrite /g.
    by case: (i =P nat_of_ord j) => [_|/eqP ij]; rewrite ?oner_neq0 // (rnd_eq0 std) diff_neq0U.
  have e : (\prod_(j < n) g i j)^-1 = \prod_(j < n | j != i :> nat) (rnd (x i - x j))^-1.
    rewrite -prodfV (bigD1 (Ordinal il)) //= {1}/g eqxx invr1 mul1r.
    rewrite (eq_bigl (fun j : 'I_n => nat_of_ord j != i)); last by move=> j; rewrite -val_eqE.
    by apply: eq_bigr => j ji; rewrite /g eq_sym (negPf ji).
  have k : near n.-1 (bwn pts i) (\prod_(j < n) g i j)^-1.
    rewrite e /bwn -/n -/x; have := @near_prod _ _ _ std n (fun j => j != i) (fun j => (x i - x j)^-1) (fun j => (rnd (x i - x j))^-1).
    rewrite prodfV; have -> : count (fun j => j != i) (iota 0 n) = n.-1.
      have := count_predC (pred1 i) (iota 0 n); rewrite size_iota.
      by rewrite (count_uniq_mem i (iota_uniq 0 n)) mem_iota add0n il add1n => h1; apply: succn_inj; rewrite prednK.
    by apply=> j jl ji; apply: (near_inv std); apply: (rnd_near std).
  have {}h := near_trans std k (near_inv std h).
  have := near_rnd std h; rewrite div1r.
  have -> // : (n.-1 + n.-1).+1 = (2 * n - 1)%N.
  by move: n0; rewrite -/n; case: n => // m _; rewrite mul2n -addnn /= addnS subn1.
have {}row := row.
pose W i := unfin (rdiv rnd (Fin 1) (rprod rnd prodt (mkseq (fun j => Fin (g i j)) n))).
exists W.
  rewrite /r_analytic /r_diffs map_mkseq; apply: eq_mkseq_in => i il; rewrite /W -/n.
  by have [y /(_ il) -> _] := row i.
by move=> j jl; rewrite /W; have [y /(_ jl) -> /(_ jl)] := row j.
Qed.

Lemma r_weightsE sw : exists2 c, c != 0 & exists2 W : nat -> F,
  r_weights rnd prodt pts sw = Ok (mkseq (fun j => Fin (W j)) n) &
  forall j, (j < n)%N -> near (2 * n) (c * bwn pts j) (W j).
Proof.
have [W e h] := r_analyticE; rewrite /r_weights e.
have l : (2 * n - 1 <= 2 * n)%N by rewrite leq_subr.
case: sw; last first.
  by exists 1; rewrite ?oner_neq0 //; exists W => // j jl; rewrite mul1r; apply: (near_weak std l); apply: h.
have ne : mkseq W n != [::] by rewrite -size_eq0 size_mkseq -lt0n.
have nz : all (fun a => a != 0) (mkseq W n).
  by apply/allP => b /mapP [j]; rewrite mem_iota /= => jl ->; rewrite (near_eq0 std (h j jl)) bwn_neq0U.
have [m em m0] := emax_abs ne nz.
have m1 : m != 0 by rewrite gt_eqF.
exists m^-1; first by rewrite invr_eq0.
exists (fun j => rnd (W j / m)).
  have -> : mkseq (fun j => Fin (W j)) n = map (@Fin F) (mkseq W n) by rewrite map_mkseq.
  rewrite em; case E: (map (@Fin F) (mkseq W n)) => [|a s].
    by move: ne; rewrite -size_eq0 -(size_map (@Fin F)) E.
  rewrite -E !map_mkseq; congr Ok; apply: eq_mkseq_in => j jl.
  by rewrite /rdiv ediv_fin.
move=> j jl; rewrite mulrC; have -> : (2 * n = (2 * n - 1).+1)%N.
  by move: n0; rewrite -/n; case: n => // k _; rewrite mul2n -addnn addSn /= subn1.
by apply: (near_rnd std); rewrite mulrC [_ / m]mulrC; apply: (near_scale std); apply: h.
Qed.
End Weights.

Section Row.
Variable F : realFieldType.
Variables (u : F) (rnd : F -> F).
Hypothesis std : std_model u rnd.
Variable sumt : nat -> stree.
Hypothesis hs : any_order sumt.
Variable pts : seq F.
Hypothesis un : uniq pts.
Hypothesis n0 : (0 < size pts)%N.
Notation near := (near u).
Notation gg := (gg u).
Let n := size pts.
Let x := nth 0 pts.
Variables (self : lagr F) (c : F) (W : nat -> F) (kw : nat).
Hypothesis c0 : c != 0.
Hypothesis upE : uniquePoints self = pts.
Hypothesis wE : weights self = mkseq (fun j => Fin (W j)) n.
Hypothesis wN : forall j, (j < n)%N -> near kw (c * bwn pts j) (W j).

Lemma lbasisE j t : (j < n)%N -> lbasis pts j t = (ell pts j).[t].
Proof.
move=> jl; rewrite /lbasis /ell hornerZ horner_prod /bwn -prodfV mulrC -big_split /=.
by apply: eq_bigr => k _; rewrite !hornerE.
Qed.

Lemma r_row_pts t : t \in pts -> r_interp_row rnd sumt self t = mkseq (fun j => Fin (lbasis pts j t)) n.
Proof.
move=> tin; have il : (index t pts < n)%N by rewrite index_mem.
set i := index t pts in il; have ti : t = x i by rewrite /x nth_index.
rewrite /r_interp_row upE wE map_pts (map_mkseq (@is_inf F)).
have inE j : (j < n)%N -> is_inf (rdiv rnd (Fin 1) (Fin (rnd (t - x j)))) = (j == i).
  move=> jl; rewrite /rdiv /= (rnd_eq0 std) subr_eq0 ti nth_uniq ?un // eq_sym.
  by case: eqP => //= _; rewrite /inf_of ltr01.
have -> : mkseq (fun j => is_inf (rdiv rnd (Fin 1) (Fin (rnd (t - pts`_j))))) n = mkseq (eq_op^~ i) n.
  by apply: eq_mkseq_in.
have -> : has id (mkseq (eq_op^~ i) n).
  by apply/hasP; exists true => //; apply/mapP; exists i; rewrite ?eqxx // mem_iota.
rewrite map_mkseq map_zip_mkseq.
have Wi : rnd (W i) != 0.
  by rewrite (rnd_eq0 std) (near_eq0 std (wN il)) mulf_neq0 // bwn_neq0U.
have [_ _ r1 rr] := std; have r0 := rnd0 std.
have -> : mkseq (fun j => rmul rnd (Fin (j == i)%:R) (Fin (W j))) n =
          mkseq (fun j => Fin (if j == i then rnd (W i) else 0)) n.
  by apply: eq_mkseq_in => j _; rewrite /rmul /=; case: eqP => [->|_]; rewrite ?mul1r ?mul0r ?r0.
rewrite (rsum1 std hs (rr _) il) map_mkseq; apply: eq_mkseq_in => j jl.
rewrite /rdiv ediv_fin // lbasisE // ti ell_nodeU // (eq_sym i j) /=.
by case: (j =P i) => _; rewrite ?mul0r ?r0 // mulfV // r1.
Qed.

Lemma r_row_off t : t \notin pts -> let La := lebesgue pts t in let G := gg (kw + n + 3) in
  G * La < 1 -> exists2 Y : nat -> F, r_interp_row rnd sumt self t = mkseq (fun j => Fin (Y j)) n &
  forall j, (j < n)%N -> `|Y j - lbasis pts j t| <= G * (1 + La) / (1 - G * La) * `|lbasis pts j t|.
Proof.
move=> tnin La G hG.
have tx j : (j < n)%N -> t - x j != 0.
  by move=> jl; rewrite subr_eq0; apply: contra tnin => /eqP ->; rewrite mem_nth.
pose P j := rnd (rnd (1 / rnd (t - x j)) * W j); pose p j := c * bwn pts j / (t - x j).
have Pn j : (j < n)%N -> near (kw + 3) (p j) (P j).
  move=> jl; have -> : (kw + 3 = (2 + kw).+1)%N by rewrite addnC.
  apply: (near_rnd std); rewrite /p mulrC; apply: (near_mul std); last exact: wN.
  by apply: (near_rnd std); rewrite div1r; apply: (near_inv std); apply: (rnd_near std).
have [s es hsum] := rsum_near std hs n0 Pn; rewrite -/n in es hsum.
have xinj := xs_injU un; set N := (nodp (xs (pts := pts))).[t].
have N0 : N != 0 by rewrite /N nodpE; apply/prodf_neq0 => k _; apply: tx.
have S : \sum_(j < n) p j = c / N.
  rewrite /p; under eq_bigr => j _ do rewrite -mulrA.
  rewrite -mulr_sumr; congr (_ * _).
  have := @bary F n (@xs F pts) xinj 1%:P t; rewrite size_polyC oner_neq0 => /(_ n0).
  rewrite hornerC div1r => <-.
    by apply: eq_bigr => j _; rewrite hornerC mulr1 bwnE.
  by move=> k; rewrite -subr_eq0; apply: tx.
have S0 : c / N != 0 by rewrite mulf_neq0 ?invr_eq0.
have pE j : (j < n)%N -> p j = c / N * lbasis pts j t.
  move=> jl; rewrite lbasisE // (ellE (Ordinal jl)) lag_off ?tx // -bwnE /p /= -/N.
  by rewrite -!mulrA; congr (c * _); rewrite [RHS]mulrCA; congr (_ * _); rewrite mulrCA mulVf // mulr1.
have SA : \sum_(j < n) `|p j| = `|c / N| * La.
  by rewrite /La /lebesgue mulr_sumr; apply: eq_bigr => j _; rewrite pE // normrM.
have La0 : 0 <= La by apply: sumr_ge0.
have G0 : 0 <= G := gg_ge0 std _.
have {}hsum : `|s - c / N| <= G * La * `|c / N|.
  rewrite -S; apply: (le_trans hsum); rewrite S SA -[_ * La * _]mulrA [La * _]mulrC ler_wpmul2r ?mulr_ge0 //.
  apply: (gg_mono std).
  by clear; lia.
have e1 : 0 < 1 - G * La by rewrite subr_gt0.
have sb : (1 - G * La) * `|c / N| <= `|s|.
  rewrite mulrBl mul1r ler_subl_addr; have {1}-> : c / N = s - (s - c / N) by ring.
  by apply: (le_trans (ler_norm_sub _ _)); rewrite ler_add.
have s0 : s != 0 by rewrite -normr_gt0; apply: lt_le_trans sb; rewrite mulr_gt0 ?normr_gt0.
exists (fun j => rnd (P j / s)).
  rewrite /r_interp_row upE wE map_pts (map_mkseq (@is_inf F)).
  have iE j : (j < n)%N -> rdiv rnd (Fin 1) (Fin (rnd (t - x j))) = Fin (rnd (1 / rnd (t - x j))).
    by move=> jl; rewrite /rdiv ediv_fin // (rnd_eq0 std) tx.
  have -> : has id (mkseq (fun j => is_inf (rdiv rnd (Fin 1) (Fin (rnd (t - pts`_j))))) n) = false.
    by apply/hasP => [[b /mapP [j]]]; rewrite mem_iota /= add0n => jl ->; rewrite iE.
  rewrite map_zip_mkseq.
  have -> : mkseq (fun j => rmul rnd (rdiv rnd (Fin 1) (Fin (rnd (t - pts`_j)))) (Fin (W j))) n =
            mkseq (fun j => Fin (P j)) n.
    by apply: eq_mkseq_in => j jl; rewrite iE.
  by rewrite es map_mkseq; apply: eq_mkseq_in => j jl; rewrite /rdiv ediv_fin.
move=> j jl; set L := lbasis pts j t.
have : near (kw + 4) (p j / s) (rnd (P j / s)).
  rewrite addnS; apply: (near_rnd std); rewrite -[(kw + 3)%N]addn0.
  by apply: (near_div std) => //; [apply: Pn|apply: (near_refl std)].
have k4 : (kw + 4 <= kw + n + 3)%N by move: n0; clear; rewrite -/n; lia.
move=> /(near_weak std k4) Yn.
have Ye := near_err std Yn; rewrite -/G in Ye.
pose r := c / N / s; have pr : p j / s = r * L by rewrite /r pE // -/L; ring.
have rb : `|r| <= (1 - G * La)^-1.
  rewrite /r normrM normfV ler_pdivr_mulr ?normr_gt0 //.
  by rewrite [_^-1 * _]mulrC ler_pdivl_mulr // [X in X <= _]mulrC.
have re : `|r - 1| <= G * La / (1 - G * La).
  have -> : r - 1 = - ((s - c / N) / s) by rewrite /r; field; rewrite s0 N0.
  rewrite normrN normrM normfV ler_pdivr_mulr ?normr_gt0 //; apply: (le_trans hsum).
  by rewrite -[X in _ <= X]mulrA ler_wpmul2l ?mulr_ge0 // [_^-1 * _]mulrC ler_pdivl_mulr // [X in X <= _]mulrC.
have -> : rnd (P j / s) - L = (rnd (P j / s) - p j / s) + (r - 1) * L by rewrite pr; ring.
apply: (le_trans (ler_norm_add _ _)); apply: le_trans (ler_add Ye _) _ => //.
rewrite pr (normrM r) (normrM (r - 1)).
apply: le_trans (_ : G * ((1 - G * La)^-1 * `|L|) + G * La / (1 - G * La) * `|L| <= _).
  rewrite ler_add ?ler_wpmul2r //; by rewrite ler_wpmul2l // ler_wpmul2r.
by rewrite le_eqVlt; apply/orP; left; apply/eqP; field; rewrite gt_eqF.
Qed.
End Row.
