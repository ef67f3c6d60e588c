(* The stability function of collocation methods as a ratio of values of derivatives of the
   nodal polynomial. *)
From Verif.Base Require Import Str.
From mathcomp Require Import all_ssreflect all_algebra ring zify.
From Verif.Base Require Import Outcome Arr Ext LinSolve PolyInterp PolyInt.
From Verif.Model Require Import QGen.
From Verif.Spec Require Import QCoeffSpec NodesSpec.
From Verif.Proofs Require Import LagrangeP LagrangeInit OrthoP NodesP QuadP StabP AStabP.
Set Implicit Arguments.
Unset Strict Implicit.
Unset Printing Implicit Defensive.
Import GRing.Theory Num.Theory Order.TTheory.
Local Open Scope ring_scope.

(* sum_k N^(k)(t) z^(M-k) *)
Section Sz.
Variable K : numFieldType.
Implicit Types (N U : {poly K}).
Definition szp (N : {poly K}) (M : nat) (z : K) : {poly K} := \sum_(k < M.+1) z ^+ (M - k) *: N^`(k).
Lemma szp_eq N M z : size N = M.+1 -> (szp N M z)^`() - z *: szp N M z = - z ^+ M.+1 *: N.
Proof.
move=> sN; rewrite /szp linear_sum scaler_sumr big_ord_recr /= derivZ subnn -derivnS.
rewrite (@derivn_poly0 _ N M.+1) ?sN // scaler0 addr0 big_ord_recl /= opprD addrCA -sumrB big1 ?addr0.
  by rewrite subn0 scalerA -exprS scaleNr.
move=> i _; rewrite derivZ -derivnS scalerA -exprS /bump /= add1n subnS prednK ?subrr // subn_gt0.
exact: ltn_ord.
Qed.
Lemma size_derivn_le (N : {poly K}) k : (size N^`(k) <= size N - k)%N.
Proof.
elim: k => [|k ih]; first by rewrite subn0.
rewrite derivnS; case: (N^`(k) =P 0) => [->|/eqP h]; first by rewrite deriv0 size_poly0.
by move: ih (lt_size_deriv h); clear; lia.
Qed.
Lemma size_szp N M z : size N = M.+1 -> (size (szp N M z) <= M.+1)%N.
Proof.
move=> sN; apply: leq_trans (size_sum _ _ _) _; apply/bigmax_leqP => k _.
apply: leq_trans (size_scale_leq _ _) _; apply: leq_trans (size_derivn_le _ _) _.
by rewrite sN leq_subr.
Qed.
Lemma lead_at N M : N \is monic -> size N = M.+1 -> N`_M = 1.
Proof. by move=> /monicP; rewrite /lead_coef => h sN; rewrite sN in h. Qed.
Lemma coef_szp N M z : N \is monic -> size N = M.+1 -> (szp N M z)`_M = z ^+ M.
Proof.
move=> mN sN; rewrite coef_sum big_ord_recl /= subn0 coefZ big1 ?addr0.
  by rewrite (lead_at mN sN) mulr1.
move=> i _; rewrite coefZ -derivnS (_ : (N^`(i.+1))`_M = 0) ?mulr0 // nth_default //.
apply: leq_trans (size_derivn_le _ _) _; by rewrite sN subSS leq_subr.
Qed.
Lemma horner_szp N M z t : (szp N M z).[t] = \sum_(k < M.+1) z ^+ (M - k) * N^`(k).[t].
Proof. by rewrite horner_sum; apply: eq_bigr => k _; rewrite hornerZ. Qed.

(* solutions are multiples of szp *)
Lemma szp_mul N U M z kap : N \is monic -> size N = M.+1 -> (size U <= M.+1)%N ->
  U^`() - z *: U = kap *: N -> z != 0 -> z ^+ M *: U = U`_M *: szp N M z.
Proof.
move=> mN sN sU eU z0; have kE : kap = - (z * U`_M).
  have := congr1 (fun p : {poly K} => p`_M) eU; rewrite coefB !coefZ coef_deriv.
  rewrite (_ : U`_M.+1 = 0) ?mul0rn ?sub0r; last by rewrite nth_default.
  by rewrite (lead_at mN sN) mulr1.
apply/eqP; rewrite -subr_eq0; apply/eqP; set W := _ - _.
have eW : W^`() = z *: W.
  have e1 : W^`() - z *: W = z ^+ M *: (U^`() - z *: U) - U`_M *: ((szp N M z)^`() - z *: szp N M z).
    rewrite /W derivB !derivZ !scalerBr !scalerA [z * z ^+ M]mulrC [z * U`_M]mulrC.
    by rewrite !opprD addrACA.
  apply/eqP; rewrite -subr_eq0 e1 eU (szp_eq z sN) kE !scalerA -scalerBl; apply/eqP.
  by rewrite (_ : _ - _ = 0) ?scale0r // exprS; move: (U`_M) (z ^+ M) => x y; ring.
apply/eqP; apply: contraT => w0; have := lt_size_deriv w0.
by rewrite eW size_scale // ltnn.
Qed.
End Sz.

(* from the stages to the collocation polynomial *)
Section Stage.
Variable F : realFieldType.
Variable tau : seq F.
Hypothesis srt : sorted <%O tau.
Variables (K : numFieldType) (f : {rmorphism F -> K}).
Notation M := (size tau).
Notation N := (map_poly f (nodal tau)).
Notation Q' := (map (map f) (Qm tau 0)).
Notation w' := (map f (wv tau 0 1)).

Lemma monicN : N \is monic. Proof. by rewrite map_monic monic_nodal. Qed.
Lemma sizeN : size N = M.+1. Proof. by rewrite size_map_poly size_nodal. Qed.
Lemma NE : N = \prod_(x <- tau) ('X - (f x)%:P).
Proof. by rewrite /nodal rmorph_prod; apply: eq_bigr => x _; rewrite /= rmorphB /= map_polyX map_polyC. Qed.
Lemma sizew' : size w' = M. Proof. by rewrite size_map size_mkseq. Qed.
Lemma shapeQ' : is_shape Q' M M.
Proof.
case/andP: (Qm_shape tau 0) => q1 q2; rewrite /is_shape size_map q1 all_map; apply: sub_all q2 => r /=.
by rewrite size_map.
Qed.

Variables (z u : K) (x : 'cV[K]_M).
Hypothesis ex : stagemx M Q' z *m x = u *: const_mx 1.
Definition cpol : {poly K} := u%:P + z *: \sum_(j < M) x j 0 *: aint (map_poly f (ell tau j)).

Lemma cpolE t : cpol.[f t] = u + z * \sum_(j < M) f (pint (ell tau j) 0 t) * x j 0.
Proof.
rewrite /cpol hornerD hornerC hornerZ horner_sum; congr (_ + _ * _); apply: eq_bigr => j _.
by rewrite hornerZ mulrC aint_map horner_map /pint aint0 subr0.
Qed.
Lemma cpol0 : cpol.[0] = u.
Proof.
by rewrite -(rmorph0 f) cpolE big1 ?mulr0 ?addr0 // => j _; rewrite pint_refl rmorph0 mul0r.
Qed.
Lemma cpol1 : cpol.[1] = u + z * (rvl M w' *m x) 0 0.
Proof.
rewrite -[1](rmorph1 f) cpolE mxE; congr (_ + _ * _); apply: eq_bigr => j _.
by rewrite mxE (nth_map 0) ?size_mkseq // nth_mkseq.
Qed.
Lemma cpol_node (i : 'I_M) : cpol.[f (nth 0 tau i)] = x i 0.
Proof.
rewrite cpolE; have /matrixP /(_ i 0) := ex.
rewrite /stagemx mulmxBl mul1mx -scalemxAl !mxE mulr1 => /eqP; rewrite subr_eq => /eqP ->.
congr (_ + _ * _); apply: eq_bigr => j _; congr (_ * _); rewrite mxE.
by rewrite /ent (nth_map [::]) ?size_map // (nth_map 0) ?(nth_map 0) // ?size_mkseq // nth_mkseq.
Qed.
Lemma cpol_deriv : cpol^`() = z *: \sum_(j < M) x j 0 *: map_poly f (ell tau j).
Proof.
rewrite /cpol derivD derivC add0r derivZ linear_sum; congr (_ *: _); apply: eq_bigr => j _.
by rewrite /= derivZ deriv_aint.
Qed.
Lemma uniq_tau : uniq tau. Proof. exact: sorted_uniq lt_trans (@ltxx _ _) _ srt. Qed.
Lemma cpol_deriv_node (i : 'I_M) : cpol^`().[f (nth 0 tau i)] = z * x i 0.
Proof.
rewrite cpol_deriv hornerZ horner_sum (bigD1 i) //= big1 ?addr0.
  by rewrite hornerZ horner_map ell_node ?eqxx ?rmorph1 ?mulr1.
move=> j ji; rewrite hornerZ horner_map ell_node // (_ : (i == j :> nat) = false) ?rmorph0 ?mulr0 //.
by rewrite eq_sym; apply/negbTE.
Qed.
Lemma size_cpol : (size cpol <= M.+1)%N.
Proof.
apply: leq_trans (size_add _ _) _; rewrite geq_max; apply/andP; split.
  by apply: leq_trans (size_polyC_leq1 _) _.
apply: leq_trans (size_scale_leq _ _) _; apply: leq_trans (size_sum _ _ _) _; apply/bigmax_leqP => j _.
apply: leq_trans (size_scale_leq _ _) _; apply: leq_trans (size_aint _) _.
by rewrite ltnS size_map_poly size_ell.
Qed.
Lemma cpol_eq : exists kap, cpol^`() - z *: cpol = kap *: N.
Proof.
set D := _ - _; have sD : (size D <= M.+1)%N.
  apply: leq_trans (size_add _ _) _; rewrite geq_max size_opp; apply/andP; split.
    by apply: leq_trans size_cpol; case: (cpol =P 0) => [->|/eqP h]; rewrite ?deriv0 // ltnW // lt_size_deriv.
  by apply: leq_trans (size_scale_leq _ _) size_cpol.
have dv : N %| D.
  rewrite NE -(big_map f predT (fun y => 'X - y%:P)); apply: uniq_roots_dvdp.
    apply/allP => y /mapP [t tt ->]; move: tt => /(nthP 0) [i il <-].
    rewrite /root /D hornerD hornerN hornerZ (cpol_node (Ordinal il)) (cpol_deriv_node (Ordinal il)).
    by rewrite subrr.
  by rewrite uniq_rootsE map_inj_uniq ?uniq_tau //; apply: fmorph_inj.
have n0 : N != 0 by rewrite monic_neq0 // monicN.
case/Pdiv.Field.dvdpP: dv => q eq; exists q`_0; rewrite eq -mul_polyC; congr (_ * _).
apply: size1_polyC; case: (q =P 0) => [->|/eqP q0]; first by rewrite size_poly0.
by move: sD; rewrite eq size_mul // sizeN; clear; move: (size q) (size tau) => m n; lia.
Qed.
Lemma cpol_free : cpol = 0 -> x = 0.
Proof. by move=> e; apply/matrixP => i j; rewrite ord1 -cpol_node e horner0 mxE. Qed.
End Stage.

Section Char.
Variable F : realFieldType.
Variable tau : seq F.
Hypothesis srt : sorted <%O tau.
Variables (K : numFieldType) (f : {rmorphism F -> K}).
Notation M := (size tau).
Notation N := (map_poly f (nodal tau)).
Notation Q' := (map (map f) (Qm tau 0)).
Notation w' := (map f (wv tau 0 1)).
Notation S z := (szp N M z).

Lemma szp0 t : (S 0).[t] = (M`!)%:R.
Proof.
have e : (S 0)^`() = 0.
  by have := szp_eq 0 (sizeN tau f); rewrite scale0r subr0 expr0n oppr0 scale0r.
rewrite (deriv0_const e) hornerC -horner_coef0 horner_szp big_ord_recr /= subnn expr0 mul1r big1 ?add0r.
  by rewrite horner_coef0 coef_derivn addn0 (lead_at (monicN tau f) (sizeN tau f)) ffactnn.
by move=> i _; rewrite expr0n subn_eq0 leqNgt ltn_ord mul0r.
Qed.

Lemma stagemx0 : stagemx M Q' 0 = 1%:M.
Proof. by rewrite /stagemx scale0r subr0. Qed.

Lemma sz_unit z : (stagemx M Q' z \in unitmx) = ((S z).[0] != 0).
Proof.
case: (z =P 0) => [->|/eqP z0].
  by rewrite stagemx0 unitmx1 szp0 pnatr_eq0 -lt0n fact_gt0.
apply/idP/idP => [un|s0].
  have [x ex] := stages_ex un; rewrite -[const_mx 1]scale1r in ex.
  have [kap eU] := cpol_eq srt ex.
  have := szp_mul (monicN tau f) (sizeN tau f) (size_cpol _ _ _ x) eU z0.
  move/(congr1 (fun p : {poly K} => p.[0])); rewrite !hornerZ cpol0 mulr1 => e.
  by apply/eqP => s0; move/eqP: e; rewrite s0 mulr0 expf_eq0 (negbTE z0) andbF.
apply: unitmx_inj => x ex; rewrite -(scale0r (const_mx 1)) in ex.
have [kap eU] := cpol_eq srt ex; apply: (cpol_free ex).
have e := szp_mul (monicN tau f) (sizeN tau f) (size_cpol _ _ _ x) eU z0.
have : (z ^+ M *: cpol f z 0 x).[0] = 0 by rewrite hornerZ cpol0 mulr0.
rewrite e hornerZ => /eqP; rewrite mulf_eq0 (negbTE s0) orbF => /eqP c0.
move: e; rewrite c0 scale0r => /eqP; rewrite scaler_eq0 expf_eq0 (negbTE z0) andbF => /eqP //.
Qed.

Lemma sz_stabf z : stagemx M Q' z \in unitmx -> stabf M Q' w' z = (S z).[1] / (S z).[0].
Proof.
move=> un; have [x ex1] := stages_ex un; rewrite (stabf_stages _ un ex1).
have ex := ex1; rewrite -[const_mx 1]scale1r in ex.
rewrite -cpol1; case: (z =P 0) => [z0|/eqP z0].
  rewrite cpol1 z0 mul0r addr0 !szp0 divff //.
  by rewrite pnatr_eq0 -lt0n fact_gt0.
have [kap eU] := cpol_eq srt ex.
have e := szp_mul (monicN tau f) (sizeN tau f) (size_cpol _ _ _ x) eU z0.
have e0 := congr1 (fun p : {poly K} => p.[0]) e; have e1 := congr1 (fun p : {poly K} => p.[1]) e.
move: e0 e1; rewrite !hornerZ cpol0 mulr1 => e0 e1.
have s0 : (S z).[0] != 0 by rewrite -sz_unit.
have zm : z ^+ M != 0 by rewrite expf_neq0.
apply: (mulfI zm); rewrite e1 {1}e0; move: s0; move: ((S z).[0]) ((S z).[1]) => a b a0.
by field.
Qed.
End Char.

(* behaviour of ratios of polynomials for large arguments *)
Section Limit.
Variable K : numFieldType.
Implicit Types (a b : nat -> K).
Definition hp a m (z : K) : K := \sum_(k < m.+1) z ^+ (m - k) * a k.
Definition tl a m : K := \sum_(k < m) `|a k.+1|.
Lemma tl_ge0 a m : 0 <= tl a m. Proof. exact: sumr_ge0. Qed.
Lemma hp_near a m z : 1 <= `|z| -> `|z| * `|hp a m z - z ^+ m * a 0%N| <= tl a m * `|z| ^+ m.
Proof.
move=> z1; rewrite /hp big_ord_recl /= subn0 addrAC subrr add0r -normrM mulr_sumr.
apply: le_trans (ler_norm_sum _ _ _) _; rewrite mulr_suml; apply: ler_sum => i _.
rewrite mulrA -exprS normrM normrX mulrC ler_wpmul2l // /bump /= add1n -subSn //.
by rewrite ler_weexpn2l // subSS leq_subr.
Qed.
Lemma ratlim a b m : b 0%N != 0 -> exists2 C, 0 < C & forall z, C <= `|z| ->
  hp b m z != 0 /\ `|hp a m z / hp b m z - a 0%N / b 0%N| * `|z| <= C.
Proof.
move=> b0; have nb0 : 0 < `|b 0%N| by rewrite normr_gt0.
set sa := tl a m; set sb := tl b m.
have sa0 : 0 <= sa by exact: tl_ge0.
have sb0 : 0 <= sb by exact: tl_ge0.
pose C1 := 2%:R * sb / `|b 0%N|; pose C2 := 2%:R * (sa * `|b 0%N| + `|a 0%N| * sb) / `|b 0%N| ^+ 2.
have c1 : 0 <= C1 by rewrite !mulr_ge0 ?invr_ge0 ?ler0n.
have c2 : 0 <= C2 by rewrite /C2 mulr_ge0 ?invr_ge0 ?exprn_ge0 // mulr_ge0 ?ler0n // addr_ge0 // mulr_ge0.
exists (1 + C1 + C2); first by rewrite ltr_paddr // ltr_paddr // ltr01.
move=> z hz; have z1 : 1 <= `|z| by apply: le_trans hz; rewrite -addrA ler_addl addr_ge0.
have zC : C1 <= `|z| by apply: le_trans hz; rewrite addrAC ler_addr addr_ge0 // ler01.
have zp : 0 < `|z| by apply: lt_le_trans z1; exact: ltr01.
have zm : 0 < `|z| ^+ m by rewrite exprn_gt0.
have hA := hp_near a m z1; have hB := hp_near b m z1; rewrite -/sa -/sb in hA hB.
set A := hp a m z in hA *; set B := hp b m z in hB *.
have lB : `|b 0%N| * `|z| ^+ m <= 2%:R * `|B|.
  have h1 : `|b 0%N| * `|z| ^+ m <= `|B| + `|B - z ^+ m * b 0%N|.
    rewrite -normrX -normrM [b 0%N * _]mulrC.
    have e : z ^+ m * b 0%N = B - (B - z ^+ m * b 0%N) by rewrite opprB addrC subrK.
    by rewrite {1}e ler_norm_sub.
  have h2 : 2%:R * `|B - z ^+ m * b 0%N| <= `|b 0%N| * `|z| ^+ m.
    rewrite -(ler_pmul2l zp) mulrCA (le_trans (ler_wpmul2l _ hB)) ?ler0n //.
    rewrite !mulrA ler_wpmul2r ?(ltW zm) //.
    by move: zC; rewrite /C1 ler_pdivr_mulr.
  have h3 : 2%:R * (`|b 0%N| * `|z| ^+ m) <= 2%:R * `|B| + `|b 0%N| * `|z| ^+ m.
    by apply: le_trans (ler_wpmul2l _ h1) _; rewrite ?ler0n // mulrDr ler_add2l.
  by move: h3; rewrite [2%:R * (_ * _)]mulr_natl mulr2n ler_add2r.
have Bp : 0 < `|B|.
  by rewrite -(@pmulr_rgt0 _ 2%:R) ?ltr0n //; apply: lt_le_trans lB; rewrite mulr_gt0.
have B0 : B != 0 by rewrite -normr_gt0.
split=> //; apply: (@le_trans _ _ C2); last by rewrite ler_addr addr_ge0 // ler01.
have -> : A / B - a 0%N / b 0%N = ((A - z ^+ m * a 0%N) * b 0%N - a 0%N * (B - z ^+ m * b 0%N)) / (B * b 0%N).
  by move: B0 b0; move: (b 0%N) (a 0%N) (z ^+ m) => x y t B0 b0; field; rewrite B0 b0.
rewrite normrM normfV mulrAC normrM ler_pdivr_mulr ?mulr_gt0 //.
have h : `|(A - z ^+ m * a 0%N) * b 0%N - a 0%N * (B - z ^+ m * b 0%N)| * `|z| <=
    (sa * `|b 0%N| + `|a 0%N| * sb) * `|z| ^+ m.
  apply: le_trans (ler_wpmul2r (ltW zp) (ler_norm_sub _ _)) _; rewrite mulrDl mulrDl !normrM.
  apply: ler_add.
    by rewrite mulrAC [X in X * _]mulrC [X in _ <= X]mulrAC ler_wpmul2r.
  by rewrite -!mulrA ler_wpmul2l // mulrC.
apply: le_trans h _; rewrite /C2.
have -> : 2%:R * (sa * `|b 0%N| + `|a 0%N| * sb) / `|b 0%N| ^+ 2 * (`|B| * `|b 0%N|) =
   (sa * `|b 0%N| + `|a 0%N| * sb) * ((2%:R * `|B|) / `|b 0%N|).
  by move: (lt0r_neq0 nb0); move: (`|b 0%N|) (`|a 0%N|) (`|B|) => x y t x0; field.
apply: ler_wpmul2l; first by rewrite addr_ge0 ?mulr_ge0.
by rewrite ler_pdivl_mulr // mulrC.
Qed.
End Limit.

(* the stability function for large arguments *)
Section Stiff.
Variable F : realFieldType.
Variable tau : seq F.
Hypothesis srt : sorted <%O tau.
Variables (K : numFieldType) (f : {rmorphism F -> K}).
Notation M := (size tau).
Notation N := (map_poly f (nodal tau)).
Notation Q' := (map (map f) (Qm tau 0)).
Notation w' := (map f (wv tau 0 1)).
Notation S z := (szp N M z).
Notation R z := (stabf M Q' w' z).

Lemma N_at t : N.[f t] = f (nodal tau).[t]. Proof. by rewrite horner_map. Qed.
Lemma N_at0 : N.[0] = f (nodal tau).[0]. Proof. by rewrite -{1}(rmorph0 f) N_at. Qed.
Lemma N_at1 : N.[1] = f (nodal tau).[1]. Proof. by rewrite -{1}(rmorph1 f) N_at. Qed.
Lemma nodal_root t : ((nodal tau).[t] == 0) = (t \in tau).
Proof. by rewrite -[_ == 0]/(root _ _) root_prod_XsubC. Qed.
Lemma nodal_simple t : t \in tau -> (nodal tau)^`().[t] != 0.
Proof.
move=> tt; have e : nodal tau = ('X - t%:P) * \prod_(x <- rem t tau) ('X - x%:P).
  by rewrite /nodal (perm_big _ (perm_to_rem tt)) big_cons.
rewrite e derivM hornerD !hornerM hornerXsubC subrr mul0r addr0 derivXsubC hornerC mul1r.
rewrite -[_ == 0]/(root _ _) root_prod_XsubC mem_rem_uniqF //; exact: uniq_tau.
Qed.
Lemma D_at0 : N^`().[0] = f (nodal tau)^`().[0].
Proof. by rewrite deriv_map -{1}(rmorph0 f) horner_map. Qed.
Lemma D_at1 : N^`().[1] = f (nodal tau)^`().[1].
Proof. by rewrite deriv_map -{1}(rmorph1 f) horner_map. Qed.

Lemma S_hp z t : (S z).[t] = hp (fun k => N^`(k).[t]) M z.
Proof. exact: horner_szp. Qed.
Lemma S_hp1 z t : N.[t] = 0 -> (0 < M)%N -> (S z).[t] = hp (fun k => N^`(k.+1).[t]) M.-1 z.
Proof.
move=> e M0; rewrite S_hp /hp big_ord_recl /= e mulr0 add0r prednK //.
apply: eq_bigr => i _; rewrite /bump /= add1n; congr (_ ^+ _ * _); move: M0; clear; lia.
Qed.

Lemma stiff_regular : 0 \notin tau -> exists2 C : K, 0 < C & forall z, C <= `|z| ->
  stagemx M Q' z \in unitmx /\ `|R z - f ((nodal tau).[1] / (nodal tau).[0])| * `|z| <= C.
Proof.
move=> t0; have b0 : N^`(0).[0] != 0 by rewrite derivn0 N_at0 fmorph_eq0 nodal_root.
have [C C0 h] := ratlim (fun k => N^`(k).[1]) (b := fun k => N^`(k).[0]) M b0.
exists C => // z /h [n0 hl]; have un : stagemx M Q' z \in unitmx by rewrite sz_unit // S_hp.
by split=> //; rewrite (sz_stabf srt) // !S_hp rmorphM fmorphV -N_at0 -N_at1.
Qed.
Lemma stiff_both : (0 < M)%N -> 0 \in tau -> 1 \in tau -> exists2 C : K, 0 < C & forall z, C <= `|z| ->
  stagemx M Q' z \in unitmx /\ `|R z - f ((nodal tau)^`().[1] / (nodal tau)^`().[0])| * `|z| <= C.
Proof.
move=> M0 t0 t1.
have b0 : N^`(1).[0] != 0 by rewrite derivn1 D_at0 fmorph_eq0 nodal_simple.
have n0 : N.[0] = 0 by apply/eqP; rewrite N_at0 fmorph_eq0 nodal_root.
have n1 : N.[1] = 0 by apply/eqP; rewrite N_at1 fmorph_eq0 nodal_root.
have [C C0 h] := ratlim (fun k => N^`(k.+1).[1]) (b := fun k => N^`(k.+1).[0]) M.-1 b0.
exists C => // z /h [z0 hl]; have un : stagemx M Q' z \in unitmx by rewrite sz_unit // S_hp1.
by split=> //; rewrite (sz_stabf srt) // !S_hp1 // rmorphM fmorphV -D_at0 -D_at1.
Qed.
Lemma stiff_left : (0 < M)%N -> 0 \in tau -> 1 \notin tau -> exists2 C : K, 0 < C & forall z, C <= `|z| ->
  stagemx M Q' z \in unitmx /\ `|z| <= C * `|R z|.
Proof.
move=> M0 t0 t1.
have b0 : N^`(1).[0] != 0 by rewrite derivn1 D_at0 fmorph_eq0 nodal_simple.
have n0 : N.[0] = 0 by apply/eqP; rewrite N_at0 fmorph_eq0 nodal_root.
have b1 : N^`(0).[1] != 0 by rewrite derivn0 N_at1 fmorph_eq0 nodal_root.
have [C C0 h] := ratlim (fun k => N^`(k).[0]) (b := fun k => N^`(k).[1]) M b1.
have [D D0 g] := ratlim (fun k => N^`(k.+1).[1]) (b := fun k => N^`(k.+1).[0]) M.-1 b0.
exists (C + D); first by rewrite addr_gt0.
move=> z hz; have [|s1 hl] := h z; first by apply: le_trans hz; rewrite ler_addl ltW.
have [|s0 _] := g z; first by apply: le_trans hz; rewrite ler_addr ltW.
have un : stagemx M Q' z \in unitmx by rewrite sz_unit // S_hp1.
split=> //; rewrite (sz_stabf srt) //; move: hl s1 s0; rewrite -!S_hp -S_hp1 // derivn0 n0 mul0r subr0.
move: ((S z).[0]) ((S z).[1]) => a b; rewrite !normrM !normfV => hl b0' a0.
rewrite mulrA ler_pdivl_mulr ?normr_gt0 //; move: hl; rewrite mulrAC ler_pdivr_mulr ?normr_gt0 // mulrC => hl.
by apply: le_trans hl _; rewrite ler_wpmul2r // ler_addl ltW.
Qed.

(* symmetric nodes *)
Section Sym.
Hypothesis sym : forall j, (j < M)%N -> nth 0 tau (M - j.+1) = 1 - nth 0 tau j.
Lemma sym_ends : (nodal tau).[1] = (-1) ^+ M * (nodal tau).[0].
Proof.
have := congr1 (fun p : {poly F} => p.[0]) (nodal_sym sym).
by rewrite hornerZ horner_comp aff_horner mulr0 add0r.
Qed.
Lemma sym_dends : (nodal tau)^`().[1] = (-1) ^+ M.+1 * (nodal tau)^`().[0].
Proof.
have := congr1 (fun p : {poly F} => p^`().[0]) (nodal_sym sym).
rewrite deriv_comp_aff derivZ !hornerZ horner_comp aff_horner mulr0 add0r mulN1r => /eqP.
by rewrite eqr_oppLR => /eqP ->; rewrite exprS -mulrA mulN1r.
Qed.
End Sym.
End Stiff.
