(* Property C81: rounding errors of the integration matrix (qmat/lagrange.py). *)
From Coq Require Import Reals Lra.
From Verif.Base Require Import Str Float64.
From mathcomp Require Import all_ssreflect all_algebra ring zify.
From Verif.Base Require Import RField Outcome Arr Ext PolyInterp PolyInt.
From Verif.Model Require Import Lagrange Rounded.
From Verif.Spec Require Import LagrangeSpec RoundSpec.
From Verif.Proofs Require Import LagrangeP LagrangeInit LagrangeThms RoundP RoundRowP RoundAbsP RoundDerivP.
From Verif.Properties Require Import RoundProps RoundDerivProps.
Set Implicit Arguments.
Unset Strict Implicit.
Unset Printing Implicit Defensive.
Import GRing.Theory Num.Theory Order.TTheory.
Local Open Scope ring_scope.
Bind Scope ring_scope with R.

(* half length and centre of an interval, abscissa of a quadrature node *)
Definition hl (F : realFieldType) (ab : F * F) : F := (ab.2 - ab.1) / 2%:R.
Definition mid (F : realFieldType) (ab : F * F) : F := (ab.1 + ab.2) / 2%:R.
Definition absc (F : realFieldType) (ab : F * F) (tau : F) : F := hl ab * tau + mid ab.

Section Props.
Variable F : realFieldType.
Variables (u : F) (rnd : F -> F) (sumt prodt : nat -> stree).
Hypothesis std : std_model u rnd.
Hypothesis hs : any_order sumt.
Hypothesis hp : any_order prodt.
Notation gg := (gg u).
Notation near := (near u).

Lemma two0 : 2%:R != 0 :> F. Proof. by rewrite pnatr_eq0. Qed.

Lemma rhl_near ab : near 2 (hl ab) (rnd (rnd (ab.2 - ab.1) / 2%:R)).
Proof.
apply: (near_rnd std); rewrite /hl ![_ / _]mulrC; apply: (near_scale std).
exact: (rnd_near std).
Qed.
Lemma rmid_near ab : near 2 (mid ab) (rnd (rnd (ab.2 + ab.1) / 2%:R)).
Proof.
apply: (near_rnd std); rewrite /mid [ab.1 + _]addrC ![_ / _]mulrC; apply: (near_scale std).
exact: (rnd_near std).
Qed.

(* C81: the abscissae *)
Theorem C81_abscissa ab tau : 4%:R * u < 1 ->
  `|r_teval rnd ab tau - absc ab tau| <= gam u 4 * (`|hl ab * tau| + `|mid ab|).
Proof.
move=> su; apply: (aerr_gam std su) (_ : aerr _ _ _ _).
rewrite /r_teval; case: ab => a b; apply: (aerr_rndg std); apply: aerr_add.
  apply: (near_aerr std); apply: (near_rnd std); rewrite ![_ * tau]mulrC; apply: (near_scale std).
  exact: (rhl_near (a, b)).
apply: aerr_weak (near_aerr std (rmid_near (a, b))).
exact: (gg_mono std).
Qed.

Section Obj.
Variables (pts : seq F) (d : string) (sw : bool) (fv : option (seq F)) (self : lagr F).
Hypothesis ok : points_ok pts d.
Hypothesis e : r_init rnd prodt pts sw d fv = Ok self.
Let xs := dpts pts.
Let m := ndist pts.
Let mE : m = size xs. Proof. exact: ndistE. Qed.
Let m0 : (0 < size xs)%N. Proof. by rewrite /xs np_unique_gt0; case: ok. Qed.
Let G := gam u (3 * m + 3).
Hypothesis small : (3 * m + 3)%:R * u < 1.
Variables (leggauss roots_legendre fejer : nat -> outcome (seq F * seq F)).
Variables (nq : string) (tau omega : seq F).
Hypothesis rule : quad_rule leggauss roots_legendre fejer self nq = Ok (tau, omega).
Hypothesis so : size omega = size tau.
Let K := size tau.
Hypothesis K0 : (0 < size tau)%N.
Hypothesis smallK : (K + 3)%:R * u < 1.
Variables (ivs : seq (F * F)) (B : F).
Hypothesis hB : forall ab t, ab \in ivs -> t \in tau -> let s := r_teval rnd ab t in
  G * lebesgue xs s < 1 /\ row_bound u pts s <= B.

(* the quadrature of a basis polynomial with given abscissae, and its magnitude *)
Definition qsum (h : F) (k : nat) (ts : nat -> F) : F :=
  \sum_(q < size tau) lbasis xs k (ts q) * nth 0 omega q * h.
Definition qabs (h : F) (k : nat) (ts : nat -> F) : F :=
  \sum_(q < size tau) `|lbasis xs k (ts q) * nth 0 omega q * h|.

Lemma gg4 : (1 + ((1 + ((1 + ((1 + B) * (1 + gg 1) - 1)) * (1 + gg 2) - 1)) * (1 + gg 1) - 1)) * (1 + gg K.-1) - 1
   = (1 + B) * (1 + gg (K + 3)) - 1.
Proof.
have -> : (K + 3 = 1 + (2 + (1 + K.-1)))%N by move: K0; rewrite -/K; clear; lia.
by rewrite -!gg_add; ring.
Qed.
Lemma B0 : ivs != [::] -> 0 <= B.
Proof.
move=> iv0; have ab : nth (0, 0) ivs 0 \in ivs by rewrite mem_nth // lt0n size_eq0.
have t : nth 0 tau 0 \in tau by rewrite mem_nth.
have [h1 h2] := hB ab t; apply: le_trans h2; exact: (bound_ge0 std).
Qed.

Lemma integ_rowE ab : ab \in ivs -> exists2 Q : nat -> F,
  r_integ_row rnd sumt self tau omega ab = mkseq (fun k => Fin (Q k)) (size xs) &
  forall k, (k < size xs)%N -> let ts q := r_teval rnd ab (nth 0 tau q) in
    `|Q k - qsum (hl ab) k ts| <= ((1 + B) * (1 + gam u (K + 3)) - 1) * qabs (hl ab) k ts.
Proof.
move=> abi; have [[_ upE dpE _] _] := r_init_good std hp ok e.
have iv0 : ivs != [::] by case: (ivs) abi.
have b0 := B0 iv0.
pose ts q := r_teval rnd ab (nth 0 tau q).
pose Y t k := unfin (nth NaN (r_interp_row rnd sumt self t) k).
have hY q : (q < K)%N -> r_interp_row rnd sumt self (ts q) = mkseq (fun k => Fin (Y (ts q) k)) (size xs) /\
   forall k, (k < size xs)%N -> aerr B `|lbasis xs k (ts q)| (lbasis xs k (ts q)) (Y (ts q) k).
  move=> ql; have [h1 h2] := hB abi (mem_nth 0 ql).
  have [y ey hy] := row_err std hs hp ok e small h1; split.
    by rewrite /Y ey; apply: eq_mkseq_in => k kl; rewrite nth_mkseq.
  move=> k kl; have [h3 _] := hy k kl; rewrite /Y ey nth_mkseq //=; split=> //.
  by apply: (le_trans h3); rewrite ler_wpmul2r.
pose hh := rnd (rnd (ab.2 - ab.1) / 2%:R).
pose g k q := rnd (rnd (Y (ts q) k * nth 0 omega q) * hh).
pose Q k := unfin (rsum rnd sumt (mkseq (fun q => Fin (g k q)) K)).
have hQ k : (k < size xs)%N -> rsum rnd sumt (mkseq (fun q => Fin (g k q)) K) = Fin (Q k) /\
    `|Q k - qsum (hl ab) k ts| <= ((1 + B) * (1 + gam u (K + 3)) - 1) * qabs (hl ab) k ts.
  move=> kl; pose p q := lbasis xs k (ts q) * nth 0 omega q * hl ab.
  have gp q : (q < K)%N -> aerr ((1 + ((1 + ((1 + B) * (1 + gg 1) - 1)) * (1 + gg 2) - 1)) * (1 + gg 1) - 1) `|p q| (p q) (g k q).
    move=> ql; have [_ /(_ k kl) h] := hY q ql.
    apply: (aerr_rnd std); rewrite normrM; apply: aerr_mul.
    - rewrite subr_ge0 -[X in X <= _]mulr1; apply: ler_pmul; rewrite ?ler01 //.
        by rewrite ler_addl.
      by rewrite ler_addl (gg_ge0 std).
    - apply: (aerr_rnd std); case: h => h1 h2; split; first by rewrite !normrM ler_wpmul2r.
      by rewrite -mulrBl !normrM mulrA ler_wpmul2r.
    - by apply: (near_aerr std); apply: rhl_near.
  have [y ey hy] := aerr_rsum std hs K0 gp.
  rewrite /Q ey; split=> //; rewrite gg4 in hy.
  have le : (1 + B) * (1 + gg (K + 3)) - 1 <= (1 + B) * (1 + gam u (K + 3)) - 1.
    rewrite ler_sub // ler_wpmul2l //; first by apply: addr_ge0; [exact: ler01|].
    by rewrite ler_add // (gg_gam std).
  by have [_ h] := aerr_weak le hy.
exists Q; last by move=> k kl; have [] := hQ k kl.
have -> : ab = (ab.1, ab.2) by case: (ab).
rewrite /r_integ_row upE; apply: eq_mkseq_in => k kl; have [<- _] := hQ k kl; congr (rsum _ _ _).
apply: (@eq_from_nth _ NaN).
  by rewrite size_map size_zip size_map so minnn size_mkseq.
move=> q; rewrite size_map size_zip size_map so minnn => ql.
rewrite (nth_map ([::], 0)) ?size_zip ?size_map ?so ?minnn //.
rewrite nth_zip ?size_map ?so // /fst /snd (nth_map 0) // nth_mkseq //.
have -> : r_teval rnd (ab.1, ab.2) (nth 0 tau q) = ts q by rewrite /ts; case: (ab).
by have [-> _] := hY q ql; rewrite nth_mkseq.
Qed.

(* C81: the computed matrix is the quadrature at the computed abscissae, up to a relative
   perturbation of the terms *)
Theorem C81_quadrature : exists2 M,
  r_integM rnd sumt leggauss roots_legendre fejer self ivs nq true = Ok (fmat M) &
  [/\ is_shape M (size ivs) (size pts),
      forall i j, (i < size ivs)%N -> (j < size pts)%N -> ~ used d pts j -> ent M i j = 0 &
      forall i j, (i < size ivs)%N -> used d pts j ->
        let ab := nth (0, 0) ivs i in let k := index (nth 0 pts j) xs in
        let ts q := r_teval rnd ab (nth 0 tau q) in
        `|ent M i j - qsum (hl ab) k ts| <= ((1 + B) * (1 + gam u (K + 3)) - 1) * qabs (hl ab) k ts].
Proof.
have [[_ upE dpE _] _] := r_init_good std hp ok e.
pose Q ab k := unfin (nth NaN (r_integ_row rnd sumt self tau omega ab) k).
exists [seq mkseq (outc pts d (Q ab)) (size pts) | ab <- ivs].
  rewrite /r_integM rule /= /fmat -map_comp; congr Ok; apply/eq_in_map => ab abi /=.
  have [q eq _] := integ_rowE abi.
  rewrite map_mkseq -(handleDupE (points_admissible ok) dpE).
  congr (handleDup _ _); rewrite {1}eq; apply: eq_mkseq_in => k kl.
  by rewrite /Q eq nth_mkseq.
have entE i j : (i < size ivs)%N -> (j < size pts)%N ->
   ent [seq mkseq (outc pts d (Q ab)) (size pts) | ab <- ivs] i j = outc pts d (Q (nth (0, 0) ivs i)) j.
  by move=> il jl; rewrite /ent (nth_map (0, 0)) // nth_mkseq.
split.
- rewrite /is_shape size_map eqxx /=; apply/allP => r /mapP [t _ ->].
  by rewrite size_mkseq.
- by move=> i j il jl; rewrite entE // /outc; case: (selb_used ok jl).
move=> i j il us /=; set ab := nth (0, 0) ivs i; set k := index _ _.
have jl : (j < size pts)%N by case: us.
rewrite entE // /outc; case: (selb_used ok jl) => // _.
have kl : (index (nth 0%R pts j) xs < size xs)%N by rewrite index_mem /xs mem_np_unique mem_nth.
have [q eq hq] := integ_rowE (mem_nth (0, 0) il).
by rewrite -[index _ _]/k /Q eq nth_mkseq //=; apply: hq.
Qed.

(* C81: distance to the quadrature at the exact abscissae, and to the integral if the rule is exact *)
Theorem C81_forward (deg : nat) : exact_rule (tau, omega) deg -> (m <= deg.+1)%N ->
  exists2 M, r_integM rnd sumt leggauss roots_legendre fejer self ivs nq true = Ok (fmat M) &
  forall i j Lip (P : {poly F}), 0 <= Lip -> (i < size ivs)%N -> used d pts j ->
    let ab := nth (0, 0) ivs i in let k := index (nth 0 pts j) xs in
    let ts q := r_teval rnd ab (nth 0 tau q) in
    P^`() = lpoly xs k ->
    (forall q, (q < K)%N -> `|lbasis xs k (ts q) - lbasis xs k (absc ab (nth 0 tau q))| <=
                            Lip * `|ts q - absc ab (nth 0 tau q)|) ->
    `|ent M i j - (P.[ab.2] - P.[ab.1])| <=
       ((1 + B) * (1 + gam u (K + 3)) - 1) * qabs (hl ab) k ts +
       gam u 4 * Lip * \sum_(q < K) `|nth 0 omega q * hl ab| * (`|hl ab * nth 0 tau q| + `|mid ab|).
Proof.
move=> ex dg.
have su4 : 4%:R * u < 1.
  apply: le_lt_trans smallK; rewrite ler_wpmul2r ?ler_nat //; first by case: std => /andP [].
  by move: K0; rewrite /K; clear; lia.
have [M eM [_ _ hM]] := C81_quadrature; exists M => // i j Lip P Lip0 il us ab k ts PE hL.
have jl : (j < size pts)%N by case: us.
have kl : (k < size xs)%N by rewrite index_mem /xs mem_np_unique mem_nth.
have h1 : `|ent M i j - qsum (hl ab) k ts| <= ((1 + B) * (1 + gam u (K + 3)) - 1) * qabs (hl ab) k ts := hM i j il us.
have I : qsum (hl ab) k (fun q => absc ab (nth 0 tau q)) = P.[ab.2] - P.[ab.1].
  rewrite -(pintE _ _ PE) (@lpolyE F xs) //.
  have sl : (size (ell xs k \Po aff (hl ab) (mid ab)) <= deg.+1)%N.
    apply: leq_trans (size_comp_aff _ _ _) _; apply: leq_trans dg; rewrite mE; exact: size_ell.
  have := rule_pint ex sl; move/(congr1 (fun y => hl ab * y)); rewrite pint_aff.
  have -> : hl ab * (-1) + mid ab = ab.1 by rewrite /hl /mid; field.
  have -> : hl ab * 1 + mid ab = ab.2 by rewrite /hl /mid; field.
  move=> <-; rewrite mulr_sumr; apply: eq_bigr => q _.
  rewrite horner_comp aff_horner lbasisE //.
  have com (a b c : F) : a * b * c = c * (b * a) by ring.
  exact: com.
have -> : ent M i j - (P.[ab.2] - P.[ab.1]) = (ent M i j - qsum (hl ab) k ts) +
    (qsum (hl ab) k ts - qsum (hl ab) k (fun q => absc ab (nth 0 tau q))) by rewrite I; ring.
apply: (le_trans (ler_norm_add _ _)); rewrite ler_add // /qsum -sumrB mulr_sumr.
apply: (le_trans (ler_norm_sum _ _ _)); apply: ler_sum => q _.
rewrite -mulrA -[X in `|_ - X|]mulrA -mulrBl normrM.
have a4 := C81_abscissa ab (nth 0 tau q) su4.
rewrite [X in _ <= X]mulrCA [X in X <= _]mulrC; apply: ler_wpmul2l => //.
apply: (le_trans (hL q (ltn_ord q))).
by rewrite [gam u 4 * Lip]mulrC -mulrA; apply: ler_wpmul2l.
Qed.
End Obj.
End Props.

(* two points, the midpoint rule, float64 and sums by halves: both weights are 1/2 up to 2^-46 *)
Section Example81.
Notation RF := r_realFieldType.
Let pts : seq RF := [:: 0; 1].
Let rl (n : nat) : outcome (seq RF * seq RF) := Ok ([:: 0], [:: 2%:R]).
Let v : RF := 2%:R ^- 48.
Let v0 : 0 <= v. Proof. by rewrite invr_ge0 exprn_ge0 ?ler0n. Qed.
Let vle : v <= 4%:R^-1.
Proof.
rewrite lef_pinv ?posrE ?exprn_gt0 ?ltr0n // -natrX ler_nat.
exact: (@leq_pexp2l 2 2 48).
Qed.
Lemma lbv t : lbasis pts 0 t = 1 - t /\ lbasis pts 1 t = t.
Proof.
split; rewrite /lbasis big_mkcond !big_ord_recl big_ord0 /=; last by field.
by field.
Qed.
Lemma leb01 t : 0 <= t <= 1 -> lebesgue pts t = 1.
Proof.
move=> /andP [t0 t1]; have [h0 h1] := lbv t; rewrite /lebesgue !big_ord_recl big_ord0 /= -[bump 0 0]/1%N h0 h1.
rewrite !ger0_norm ?subr_ge0 //; by ring.
Qed.
Lemma h9 : 9%:R * u64 < 1 :> RF.
Proof.
have [u0 u1 u32] := u64_facts.
by apply: (le_lt_trans (ler_wpmul2l (ler0n _ 9) u1)); rewrite ltr_pdivr_mulr ?ltr0n // mul1r ltr_nat.
Qed.
Lemma rb t : 0 <= t <= 1 -> gam u64 (3 * ndist pts + 3) * lebesgue (dpts pts) t < 1 :> RF /\
  row_bound u64 pts t <= v.
Proof.
move=> ht; have [u0 u1 u32] := u64_facts.
have h18 : 18%:R * u64 < 1 :> RF.
  apply: (le_lt_trans (ler_wpmul2l (ler0n _ 18) u1)); by rewrite ltr_pdivr_mulr ?ltr0n // mul1r ltr_nat.
have p9 : 0 < 1 - 9%:R * u64 :> RF by rewrite subr_gt0 h9.
have p18 : 0 < 1 - 18%:R * u64 :> RF by rewrite subr_gt0.
rewrite /row_bound ndistE2 dptsE leb01 // mulr1 /gam -[(3 * 2 + 3)%N]/9%N; split.
  rewrite ltr_pdivr_mulr // mul1r -subr_gt0.
  by have -> : 1 - 9%:R * u64 - 9%:R * u64 = 1 - 18%:R * u64 :> RF by ring.
have -> : 9%:R * u64 / (1 - 9%:R * u64) * (1 + 1) / (1 - 9%:R * u64 / (1 - 9%:R * u64)) =
    18%:R * u64 / (1 - 18%:R * u64) :> RF.
  move: p9 p18; move: (u64 : RF) => w p9 p18.
  have -> : 1 - 9%:R * w / (1 - 9%:R * w) = (1 - 18%:R * w) / (1 - 9%:R * w) by field; rewrite gt_eqF.
  by field; rewrite !gt_eqF.
rewrite /v -u32 ler_pdivr_mulr // -subr_ge0.
have -> : 32%:R * u64 * (1 - 18%:R * u64) - 18%:R * u64 = u64 * (14%:R - 576%:R * u64) :> RF by ring.
rewrite mulr_ge0 ?(ltW u0) // subr_ge0; apply: (le_trans (ler_wpmul2l (ler0n _ 576) u1)).
by rewrite ler_pdivr_mulr ?ltr0n // -natrM ler_nat.
Qed.
Let s : RF := r_teval f64 (0, 1) 0.
Lemma s01 : `|s - 2%:R^-1| <= v / 2%:R /\ 0 <= s <= 1.
Proof.
have [u0 u1 u32] := u64_facts.
have h4 : 4%:R * u64 < 1 :> RF by apply: le_lt_trans h9; rewrite ler_wpmul2r ?(ltW u0) // ler_nat.
have := C81_abscissa C79_float64 (0, 1) 0 h4.
have -> : absc (0, 1) 0 = 2%:R^-1 :> RF by rewrite /absc /hl /mid /=; field.
have -> : `|hl (0, 1) * 0| + `|mid (0, 1)| = 2%:R^-1 :> RF.
  by rewrite mulr0 normr0 add0r /mid /= add0r ger0_norm ?divr_ge0 ?ler01 ?ler0n // mul1r.
move=> h; have {}h : `|s - 2%:R^-1| <= v / 2%:R.
  by apply: (le_trans h); rewrite ler_wpmul2r ?invr_ge0 ?ler0n // gam20.
split=> //; have := h; rewrite ler_distl => /andP [a b].
have c : v / 2%:R <= 2%:R^-1.
  rewrite -[X in _ <= X]mul1r ler_wpmul2r ?invr_ge0 ?ler0n //; apply: (le_trans vle).
  by rewrite invf_le1 ?ltr0n // ler1n.
apply/andP; split; first by apply: le_trans a; rewrite subr_ge0.
apply: (le_trans b); apply: (@le_trans _ _ (2%:R^-1 + 2%:R^-1)); first by rewrite ler_add2l.
by rewrite le_eqVlt; apply/orP; left; apply/eqP; field.
Qed.

Example C81_nonvacuous :
  [/\ std_model (F := RF) u64 f64, any_order pairt, points_ok pts "USE_LEFT",
      (3 * ndist pts + 3)%:R * u64 < 1 :> RF & exact_rule ([:: 0], [:: 2%:R] : seq RF) 1] /\
  exists2 self, r_init f64 pairt pts true "USE_LEFT" None = Ok self &
  exists2 M, r_integM f64 pairt rl rl rl self [:: (0, 1)] "LEGENDRE_NUMPY" true = Ok (fmat M) &
    `|ent M 0 0 - 2%:R^-1| <= 2%:R ^- 46 /\ `|ent M 0 1 - 2%:R^-1| <= 2%:R ^- 46.
Proof.
have [u0 u1 u32] := u64_facts.
have ex : exact_rule ([:: 0], [:: 2%:R] : seq RF) 1.
  split=> // P; rewrite big_ord1 /= => sP.
  have -> : P = (P`_0)%:P + (P`_1)%:P * 'X + (P`_2)%:P * 'X ^+ 2.
    apply/polyP => i; rewrite !coefD !coefCM coefC coefX coefXn.
    case: i => [|[|[|i]]] //=; rewrite ?mulr0 ?mulr1 ?addr0 ?add0r //.
    by rewrite nth_default // (leq_trans sP).
  by rewrite !derivE !hornerE /=; ring.
have sm : (3 * ndist pts + 3)%:R * u64 < 1 :> RF by rewrite ndistE2; exact: h9.
split; first by split=> //; [exact: C79_float64|exact: pairt_order|exact: pts_ok].
have [self e _] := C79_init C79_float64 pairt_order true (fv := None) pts_ok I; exists self => //.
have [s1 s2] := s01.
have rule : quad_rule rl rl rl self "LEGENDRE_NUMPY" = Ok ([:: 0], [:: 2%:R]) by [].
have smK : (1 + 3)%:R * u64 < 1 :> RF by apply: le_lt_trans h9; rewrite ler_wpmul2r ?(ltW u0) // ler_nat.
have hB ab t : ab \in [:: (0, 1)] -> t \in [:: 0] -> let s := r_teval f64 ab t in
   gam u64 (3 * ndist pts + 3) * lebesgue (dpts pts) s < 1 :> RF /\ row_bound u64 pts s <= v.
  by rewrite !inE => /eqP -> /eqP -> /=; apply: rb.
have dg : (ndist pts <= 2)%N by rewrite ndistE2.
have [M eM h] := C81_forward C79_float64 pairt_order pairt_order pts_ok e sm rule (erefl _) isT smK hB ex dg.
exists M => //.
have us j : (j < 2)%N -> used "USE_LEFT" pts j.
  move=> jl; split=> //= k kj; apply/eqP; rewrite nth_uniq /= ?ltr01 //; first by rewrite neq_ltn kj.
    exact: ltn_trans kj jl.
  by rewrite inE eq_sym oner_neq0.
have g4 : gam u64 4 <= v by apply: gam20.
have g40 : 0 <= gam u64 4 :> RF.
  by rewrite /gam; apply: divr_ge0; [rewrite mulr_ge0 ?ler0n ?(ltW u0)|rewrite subr_ge0 ltW].
have fin j (P : {poly RF}) : (j < 2)%N -> P^`() = lpoly pts j -> P.[1] - P.[0] = 2%:R^-1 ->
    `|ent M 0 j - 2%:R^-1| <= 2%:R ^- 46.
  move=> jl PE PI; have := h 0%N j 1 P ler01 isT (us j jl).
  rewrite /= dptsE index_uniq //; last by rewrite /= inE eq_sym oner_neq0.
  have lin a b : `|lbasis pts j a - lbasis pts j b| <= 1 * `|a - b|.
    rewrite mul1r; have [a0 a1] := lbv a; have [b0 b1] := lbv b.
    case: j jl {PE PI} => [|[|//]] _; rewrite ?a0 ?a1 ?b0 ?b1 //.
    by have -> : 1 - a - (1 - b) = - (a - b); [ring|rewrite normrN].
  rewrite PI => /(_ PE) /(_ (fun q _ => lin _ _)) hb; apply: (le_trans hb).
  rewrite /qabs !big_ord1 /= dptsE -[f64 (_ + _)]/s.
  have -> : hl (0, 1) = 2%:R^-1 :> RF by rewrite /hl /= subr0 mul1r.
  have -> : mid (0, 1) = 2%:R^-1 :> RF by rewrite /mid /= add0r mul1r.
  have i2 : 0 <= 2%:R^-1 :> RF by rewrite invr_ge0 ler0n.
  have L1 : `|lbasis pts j s * 2%:R * 2%:R^-1| <= 1.
    rewrite mulfK ?two0 //; have [a0 a1] := lbv s; case/andP: s2 => s2 s3.
    by case: j jl {PE PI hb lin} => [|[|//]] _; rewrite ?a0 ?a1 ger0_norm ?subr_ge0 // ler_subl_addr ler_addl.
  rewrite mulr0 normr0 add0r mulr1 mulfV ?two0 // normr1 mul1r (ger0_norm i2).
  have c1 : (1 + v) * (1 + gam u64 4) - 1 <= 3%:R * v.
    apply: (@le_trans _ _ ((1 + v) * (1 + v) - 1)).
      by rewrite ler_sub // ler_wpmul2l ?ler_add2l //; apply: addr_ge0; [exact: ler01|].
    rewrite -subr_ge0; have -> : 3%:R * v - ((1 + v) * (1 + v) - 1) = v * (1 - v) by ring.
    by rewrite mulr_ge0 // subr_ge0 (le_trans vle) // invf_le1 ?ltr0n // ler1n.
  have c0 : 0 <= (1 + v) * (1 + gam u64 4) - 1.
    rewrite subr_ge0 -[X in X <= _]mulr1; apply: ler_pmul; rewrite ?ler01 ?ler_addl //.
  apply: (@le_trans _ _ (3%:R * v * 1 + v)).
    rewrite ler_add //; first by apply: ler_pmul.
    by apply: (@le_trans _ _ (v * 2%:R^-1)); rewrite ?ler_wpmul2r // ler_pimulr // invf_le1 ?ltr0n // ler1n.
  rewrite le_eqVlt; apply/orP; left; apply/eqP.
  have -> : 3%:R * v * 1 + v = 4%:R * v by ring.
  by rewrite /v -[48%N]/(2 + 46)%N exprD invfM mulrA -natrX mulfV ?mul1r // pnatr_eq0.
have p0 : lpoly pts 0 = 1 - 'X.
  rewrite /lpoly big_mkcond !big_ord_recl big_ord0 /= mul1r mulr1 sub0r invrN1 scaleN1r opprB.
  by rewrite polyC1.
have p1 : lpoly pts 1 = 'X.
  by rewrite /lpoly big_mkcond !big_ord_recl big_ord0 /= mulr1 mulr1 subr0 invr1 scale1r polyC0 subr0.
have dX2 : ((2%:R : RF)^-1 *: 'X ^+ 2)^`() = 'X.
  by rewrite derivZ derivXn expr1 -scaler_nat scalerA mulVf ?two0 // scale1r.
split.
  apply: (fin 0%N ('X - 2%:R^-1 *: 'X ^+ 2)) => //; first by rewrite derivB derivX dX2 p0.
  by rewrite !hornerE /=; field.
apply: (fin 1%N (2%:R^-1 *: 'X ^+ 2)) => //; first by rewrite dX2 p1.
by rewrite !hornerE /=; field.
Qed.
End Example81.

Print Assumptions C81_abscissa.
Print Assumptions C81_quadrature.
Print Assumptions C81_forward.
