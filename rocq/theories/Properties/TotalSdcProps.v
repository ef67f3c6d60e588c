(* Property C88: total error of spectral deferred corrections for the Dahlquist problem, in inexact
   arithmetic, against the exponential. *)
From Coq Require Import ZArith QArith Qcanon Reals List.
From Verif.Base Require Import Str.
From mathcomp Require Import all_ssreflect all_algebra ring zify complex.
From Verif.Base Require Import QcField QcEmb RField RRcf Outcome Arr Ext LinSolve Float64.
From Verif.Model Require Import RoundedSdc Butcher NumUtil Lagrange QGen Registry Sdc RoundedSolve Nodes Collocation Fejer.
From Verif.Spec Require Import RoundSdcSpec QCoeffSpec SdcSpec ConvSpec ButcherSpec CollSpec NodesSpec LagrangeSpec RoundSpec RoundSolveSpec StoredSpec SensitivitySpec TotalSpec.
From Verif.Proofs Require Import SdcP StabP CExpP ConvP RootsP OracleP SdcOrderP CollP NodesP ButcherP.
From Verif.Properties Require Import ErrorProps RKProps FejerProps NodesProps CollProps RealProps TimeStepProps SdcOrderProps OrderTableProps RoundProps StoredProps RoundSolveProps RoundSdcProps SensitivityProps ConvProps TotalProps.
Set Implicit Arguments.
Unset Strict Implicit.
Unset Printing Implicit Defensive.
Import GRing.Theory Num.Theory Order.TTheory.
Local Open Scope ring_scope.
Bind Scope ring_scope with R.
Local Open Scope seq_scope.

Section Growth.
Variables (N : nat) (a c e : R) (S kap : CC).
Hypotheses (N0 : (0 < N)%N) (a0 : 0 <= a) (c0 : 0 <= c) (Ne : N%:R * e <= 1).
Hypotheses (hS : `|S| <= 1 + toC (a / N%:R)) (k0 : 0 <= kap) (k1 : kap <= toC (e * c)).
Lemma growth_gen i : (i <= N)%N -> (`|S| + kap) ^+ i - `|S| ^+ i <= toC (c * exp (a + c) * (N%:R * e)).
Proof.
move=> iN; have np : 0 < N%:R :> R by rewrite ltr0n.
pose y : R := (a + c) / N%:R; set G := a + c.
have y0 : 0 <= y by rewrite divr_ge0 ?addr_ge0 // ltW.
have eN : e <= N%:R^-1 by rewrite -[X in _ <= X]mul1r ler_pdivl_mulr // mulrC.
have m1 : `|S| + kap <= 1 + toC y.
  rewrite /y mulrDl rmorphD addrA; apply: ler_add => //; apply: (le_trans k1); rewrite lecR mulrC.
  by apply: ler_wpmul2l.
have my : 1 <= 1 + toC y by rewrite ler_addl ler0c.
have s0 : 0 <= `|S| + kap by rewrite addr_ge0.
have h := @ConvP.pow_diff CC (`|S| + kap) `|S| (1 + toC y) i my.
have ha : `| `|S| + kap| <= 1 + toC y by rewrite ger0_norm.
have hb : `| `|S| | <= 1 + toC y by rewrite normr_id; apply: le_trans m1; rewrite ler_addl.
have {h} := h ha hb.
have -> : `|S| + kap - `|S| = kap by rewrite addrAC subrr add0r.
rewrite (ger0_norm k0) => h.
have d0 : 0 <= (`|S| + kap) ^+ i - `|S| ^+ i.
  by rewrite subr_ge0; apply: ler_expn2r; rewrite ?nnegrE // ler_addl.
rewrite (ger0_norm d0) in h; apply: (le_trans h).
have g : (1 + toC y) ^+ i <= toC (exp G).
  rewrite -(rmorph1 toC) -rmorphD -rmorphX lecR; apply: (le_trans (growth i y0)); apply: exp_mono.
  apply: le_trans (_ : N%:R * y <= _); first by rewrite ler_wpmul2r // ler_nat.
  by rewrite /y mulrC -mulrA mulVf ?gt_eqF // mulr1.
have -> : c * exp G * (N%:R * e) = N%:R * (e * c) * exp G by move: (exp G) => x; ring.
have -> : toC (N%:R * (e * c) * exp G) = N%:R * toC (e * c) * toC (exp G).
  by rewrite [LHS]rmorphM [X in X * _ = _]rmorphM rmorph_nat.
apply: ler_pmul => //.
- by rewrite mulr_ge0 ?ler0n.
- by rewrite exprn_ge0 // (le_trans ler01 my).
by apply: ler_pmul => //; rewrite ler_nat.
Qed.
End Growth.

(* a bound of the matrices of the sweeps *)
Lemma qds_bound (Q : seq (seq CC)) (qds : seq (seq (seq CC))) : exists2 M : R, 0 <= M & forall D, D \in qds ->
  mnorm D <= toC M /\ mnorm (msub Q D) <= toC M.
Proof.
elim: qds => [|A l [M M0 h]]; first by exists 0.
have [x ex x0] := ge0_toC (mnorm_ge0 A); have [y ey y0] := ge0_toC (mnorm_ge0 (msub Q A)).
exists (x + y + M); first by rewrite !addr_ge0.
move=> D; rewrite in_cons => /orP [/eqP ->|/h [h1 h2]].
  by rewrite ex ey !lecR -!addrA; split; rewrite ?ler_addl ?addr_ge0 // addrCA ler_addl addr_ge0.
by split; [apply: (le_trans h1)|apply: (le_trans h2)]; rewrite lecR ler_addr addr_ge0.
Qed.

(* C88.  Sweeps whose exact amplification factor agrees with the exponential to order q: N steps with
   an arithmetic of accuracy e. *)
Theorem C88_total n (nS : int) Q (QDelta : qdarg CC) qds w q (r : R) : (0 < n)%N -> is_shape Q n n ->
  qd_sweeps n nS QDelta = Ok qds -> (if w is Some w then size w = n else True) ->
  agrees (fun z => sdcR n Q (fun j => nth [::] qds j) w z (size qds)) (expser q) q ->
  exists (hi : R) (N0 : nat), forall a (e : R) lam u0 tEnd N, `|lam * tEnd| <= toC r -> (N0 <= N)%N ->
  0 <= e -> N%:R * e <= 1 -> accurate (toC e) a ->
  exists2 us, r_solveDahlquistSDC (ar_add a) (ar_sub a) (ar_mul a) (ar_div a) (ar_dot a) (ar_solve a)
      lam u0 tEnd N%:Z nS Q QDelta w = Ok us &
    size us = N.+1 /\ forall i, (i <= N)%N -> err_at cexp lam u0 tEnd N (nth 0 us i) i <=
      `|u0| * toC (hi * (N%:R ^- q + N%:R * e)).
Proof.
move=> n0 hQ eq hw ag; have [_ hq] := qds_ok eq; have [d2 d20 hd] := unit_small hq.
have [hi1 [N1 h1]] := conv_of_agrees r ag; have [C [d [C0 d0 d1 loc]]] := agrees_cexp ag.
set f := fun z => sdcR _ _ _ _ _ _ in loc h1.
have [M M0 hM] := qds_bound Q qds.
have [W eW W0] : exists2 W : R, (if w is Some w then vnorm1 w else 0) = toC W & 0 <= W.
  by apply: ge0_toC; case: (w) => [b|] //; exact: vnorm1_ge0.
have [N2 [_ h2]] := arch (r / d2); have [N3 [_ h3]] := arch (r / d); have [N4 [_ h4]] := arch (8%:R * (M * r)).
pose mm : R := n%:R * n.+1%:R; have mm0 : 0 <= mm by rewrite mulr_ge0 ?ler0n.
pose c := 1 + 170%:R * mm * (1 + W).
have c0 : 0 <= c by rewrite addr_ge0 ?ler01 // !mulr_ge0 ?ler0n // addr_ge0 ?ler01.
have e40 : 0 <= e4 by rewrite mulr_ge0 ?ler0n //; apply/rleE; left; exact: exp_pos.
pose ga := (e4 + C) * `|r|; have ga0 : 0 <= ga by rewrite mulr_ge0 ?addr_ge0.
pose D := c * exp (ga + c).
exists (Num.max `|hi1| D), (maxn N1 (maxn N2 (maxn N3 (maxn N4 (100 * n.+1))))).
move=> a e lam u0 tEnd N hr; rewrite !geq_max => /and5P [l1 l2 l3 l4 l5] e0 Ne ac.
have r0 : 0 <= r by rewrite -ler0c -/(toC r); apply: le_trans hr.
have Np : (0 < N)%N by apply: leq_trans l5.
have np : 0 < N%:R :> R by rewrite ltr0n.
pose z := lam * (tEnd / N%:R).
have hz : `|z| <= toC (r / N%:R).
  rewrite /z mulrA normrM normfV normr_nat rmorphM fmorphV rmorph_nat.
  by apply: ler_wpmul2r => //; rewrite invr_ge0 ler0n.
have zd x : 0 < x -> r / x <= N%:R -> `|z| <= toC x.
  move=> x0 hx; apply: (le_trans hz); rewrite lecR ler_pdivr_mulr // mulrC -ler_pdivr_mulr //.
have zd1 := zd _ d0 (h3 _ l3); have zd2 := zd _ d20 (h2 _ l2).
have z1 : `|z| <= 1 by apply: (le_trans zd1); rewrite -(rmorph1 toC) lecR.
have zM : `|z| * toC M <= 8%:R^-1.
  apply: le_trans (_ : toC (r / N%:R * M) <= _); first by rewrite rmorphM; apply: ler_pmul => //; rewrite ler0c.
  rewrite -[8%:R^-1](_ : toC 8%:R^-1 = _); last by rewrite fmorphV rmorph_nat.
  rewrite lecR mulrAC ler_pdivr_mulr // -ler_pdivr_mull ?invr_gt0 ?ltr0n // invrK [r * M]mulrC.
  exact: h4.
have eN : N.-1.+1 = N by rewrite prednK.
have hs A : A \in qds -> [/\ is_shape A n n, `|lam * (tEnd / N.-1.+1%:R)| * mnorm A <= 2%:R^-1 &
   `|lam * (tEnd / N.-1.+1%:R)| * mnorm (msub Q A) <= 8%:R^-1].
  rewrite eN -/z => hA; have [m1 m2] := hM A hA.
  have sA : is_shape A n n by rewrite -(nth_index [::] hA); apply: hq; rewrite index_mem.
  split=> //.
    apply: le_trans (_ : 8%:R^-1 <= _); last by rewrite lef_pinv ?posrE ?ltr0n // ler_nat.
    by apply: le_trans zM; apply: ler_wpmul2l.
  by apply: le_trans zM; apply: ler_wpmul2l.
have e0' : 0 <= toC e by rewrite ler0c.
have sm : toC e * (100 * n.+1)%:R <= 1.
  rewrite -(rmorph_nat toC) -rmorphM -(rmorph1 toC) lecR; apply: le_trans Ne.
  by rewrite mulrC ler_wpmul2r // ler_nat.
have [a1 a2 [a3 a4] a5 a6] := ac.
have [us eu [su hu]] := C85_small_rounding e0' e0' e0' a1 a2 a3 a4 a5 a6 hQ hw n0 (lexx _) (lexx _) (lexx _) sm hs u0 eq.
rewrite eN in eu su hu; exists us => //; split=> // i iN.
have [er he pe] := sdc_err u0 Np n0 hQ eq hw (hd _ zd2).
have ub := h1 _ _ _ _ _ hr l1 pe; have [pi _] := pe; have hi1' := pi i iN.
have hi2 := hu i iN; rewrite -/z -/(f z) in hi2; rewrite -/z in hi1'.
set kap := (if w is Some _ then _ else _) in hi2.
have zW : if w is Some b then `|z| * vnorm1 b <= toC W else True.
  by move: eW; case: (w) => // b <-; rewrite ler_pimull // vnorm1_ge0.
have mmC : toC mm = n%:R * n.+1%:R by rewrite rmorphM !rmorph_nat.
have k0 : 0 <= kap.
  rewrite /kap -mmC; case: (w) => [b|].
    apply: mulr_ge0 => //; apply: addr_ge0; first exact: ler01.
    by apply: mulr_ge0; [apply: mulr_ge0; [exact: ler0n|rewrite ler0c]|apply: mulr_ge0 => //; exact: vnorm1_ge0].
  by rewrite !mulr_ge0 ?ler0n ?ler0c.
have k1 : kap <= toC (e * c).
  rewrite /kap -mmC /c; case: (w) zW => [b zW|_].
    rewrite [X in _ <= X]rmorphM; apply: ler_wpmul2l => //; rewrite rmorphD rmorph1 ler_add2l.
    rewrite -[170%:R](rmorph_nat toC) -rmorphM [X in _ <= X]rmorphM; apply: ler_wpmul2l.
      by rewrite ler0c mulr_ge0 ?ler0n.
    by apply: (le_trans zW); rewrite lecR ler_addr ler01.
  rewrite -[120%:R](rmorph_nat toC) -!rmorphM lecR mulrC; apply: ler_wpmul2l => //.
  apply: le_trans (_ : 170%:R * mm * (1 + W) <= _); last by rewrite ler_addr ler01.
  rewrite -[X in X <= _]mulr1; apply: ler_pmul; rewrite ?ler01 ?mulr_ge0 ?ler0n ?ler_addl //.
  by rewrite ler_wpmul2r // ler_nat.
have hS : `|f z| <= 1 + toC (ga / N%:R).
  rewrite -[f z](subrK (cexp z)); apply: (le_trans (ler_norm_add _ _)).
  apply: le_trans (ler_add (loc _ zd1) (cexp_bound z1)) _; rewrite addrCA ler_add2l.
  apply: le_trans (_ : toC (e4 + C) * `|z| <= _).
    rewrite rmorphD mulrDl addrC ler_add2l; apply: ler_wpmul2l; first by rewrite ler0c.
    by rewrite exprSr ler_pimull // exprn_ile1.
  rewrite /ga (ger0_norm r0) -mulrA [X in _ <= X]rmorphM; apply: ler_wpmul2l => //.
  by rewrite ler0c addr_ge0.
have gb := growth_gen Np ga0 c0 Ne hS k0 k1 iN.
rewrite /err_at /exact_at; rewrite /err_at /exact_at in hi1'; set x := u0 * _ in hi1' *.
have -> : nth 0 us i - x = (f z ^+ i * u0 - x) + (nth 0 us i - f z ^+ i * u0) by rewrite [RHS]addrC addrA subrK.
apply: (le_trans (ler_norm_add _ _)).
apply: le_trans (_ : `|u0| * toC (hi1 / N%:R ^+ q) + `|u0| * toC (D * (N%:R * e)) <= _).
  apply: ler_add; first exact: le_trans hi1' ub.
  by apply: (le_trans hi2); rewrite mulrC; apply: ler_wpmul2l.
rewrite -mulrDr -rmorphD; apply: ler_wpmul2l => //; rewrite lecR mulrDr; apply: ler_add; apply: ler_wpmul2r.
- by rewrite invr_ge0 exprn_ge0 // ltW.
- by rewrite le_maxr ler_norm.
- by rewrite mulr_ge0 // ltW.
by rewrite le_maxr lexx orbT.
Qed.

(* quadrature update with weights of order p, k sweeps with any matrices: order min(p, k+1) *)
Theorem C88_weights n (nS : int) Q (QDelta : qdarg CC) qds w p (r : R) : (0 < n)%N -> is_shape Q n n ->
  qd_sweeps n nS QDelta = Ok qds -> size w = n -> (forall d, (d < p)%N -> moment n Q w d = (d.+1`!)%:R^-1) ->
  exists (hi : R) (N0 : nat), forall a (e : R) lam u0 tEnd N, `|lam * tEnd| <= toC r -> (N0 <= N)%N ->
  0 <= e -> N%:R * e <= 1 -> accurate (toC e) a ->
  exists2 us, r_solveDahlquistSDC (ar_add a) (ar_sub a) (ar_mul a) (ar_div a) (ar_dot a) (ar_solve a)
      lam u0 tEnd N%:Z nS Q QDelta (Some w) = Ok us &
    size us = N.+1 /\ forall i, (i <= N)%N -> err_at cexp lam u0 tEnd N (nth 0 us i) i <=
      `|u0| * toC (hi * (N%:R ^- minn p (size qds).+1 + N%:R * e)).
Proof.
move=> n0 hQ eq sw hm; have [_ hq] := qds_ok eq; apply: C88_total eq _ _ => //.
exact: C57_order_weights.
Qed.

(* update with the last node, at the end of the step: order min(p, k) *)
Theorem C88_last n (nS : int) Q (QDelta : qdarg CC) qds w p (r : R) : (0 < n)%N -> is_shape Q n n ->
  qd_sweeps n nS QDelta = Ok qds -> last [::] Q = w -> (forall d, (d < p)%N -> moment n Q w d = (d.+1`!)%:R^-1) ->
  exists (hi : R) (N0 : nat), forall a (e : R) lam u0 tEnd N, `|lam * tEnd| <= toC r -> (N0 <= N)%N ->
  0 <= e -> N%:R * e <= 1 -> accurate (toC e) a ->
  exists2 us, r_solveDahlquistSDC (ar_add a) (ar_sub a) (ar_mul a) (ar_div a) (ar_dot a) (ar_solve a)
      lam u0 tEnd N%:Z nS Q QDelta None = Ok us &
    size us = N.+1 /\ forall i, (i <= N)%N -> err_at cexp lam u0 tEnd N (nth 0 us i) i <=
      `|u0| * toC (hi * (N%:R ^- minn p (size qds) + N%:R * e)).
Proof.
move=> n0 hQ eq lw hm; have [_ hq] := qds_ok eq; apply: C88_total eq _ _ => //.
exact: (C57_order_last hQ hq n0 lw).
Qed.

(* every collocation method over the real numbers *)
Section Coll.
Variable underflow : seq r_realFieldType -> bool.
Notation RF := r_realFieldType.
Notation eighR := (@eigh_ref r_rcfType).
Notation gaussR := (@gauss_ref r_rcfType).
Notation collR := (coll_init (F := RF) PI eighR sqrt ln exp underflow gaussR gaussR (fun k : nat => computeFejerRule k)).
Variables (nt qt : string) (M : nat) (s : seq RF).
Hypotheses (hnt : nt \in NODE_TYPES) (hqt : qt \in QUAD_TYPES) (hM : (least_nodes qt <= M)%N).
Hypothesis es : getNodes (F := RF) PI eighR sqrt (NodesGen nt qt) M%:Z = Ok s.
Hypothesis sep : separated 0 1 s.
Theorem C88_collocation (nS : int) (QDelta : qdarg CC) qds (r : R) : qd_sweeps M nS QDelta = Ok qds ->
  exists c Q w p,
  [/\ collR M%:Z nt qt 0 1 = Ok c, co_Q c = fmat Q, co_weights c = map (@Fin RF) w & coll_order c = Some p] /\
  exists (hi : R) (N0 : nat), forall a (e : R) lam u0 tEnd N, `|lam * tEnd| <= toC r -> (N0 <= N)%N ->
  0 <= e -> N%:R * e <= 1 -> accurate (toC e) a ->
  exists2 us, r_solveDahlquistSDC (ar_add a) (ar_sub a) (ar_mul a) (ar_div a) (ar_dot a) (ar_solve a)
      lam u0 tEnd N%:Z nS (map (map toC) Q) QDelta (Some (map toC w)) = Ok us &
    size us = N.+1 /\ forall i, (i <= N)%N -> err_at cexp lam u0 tEnd N (nth 0 us i) i <=
      `|u0| * toC (hi * (N%:R ^- minn p (size qds).+1 + N%:R * e)).
Proof.
move=> eq; have [c [Q [w [p [[_ _ _ ec] [[eQ ew ep M0] [shQ zw zn mom]]]]]]] := coll_facts underflow hnt hqt hM es sep.
exists c, Q, w, p; split=> //.
apply: (C88_weights r M0 _ eq); first exact: map_shape.
  by rewrite size_map.
by move=> k kp; rewrite (moment_map toC k shQ zw) (mom k kp) fmorphV rmorph_nat.
Qed.
End Coll.
Print Assumptions C88_total.
Print Assumptions C88_weights.
Print Assumptions C88_last.
Print Assumptions C88_collocation.

(* the midpoint rule with two different sweeps for u' = -u on [0, 1] in float64 *)
Example C88_nonvacuous : accurate (toC u64) arith64 /\
  let h : CC := 2%:R^-1 in exists (hi : R) (N0 : nat), forall N, (N0 <= N)%N -> N%:R * (u64 : R) <= 1 ->
  exists2 us, r_solveDahlquistSDC (ar_add arith64) (ar_sub arith64) (ar_mul arith64) (ar_div arith64) (ar_dot arith64)
      (ar_solve arith64) (- 1) 1 1 N%:Z 2%:Z [:: [:: h]] (QD3 [:: [:: [:: 0]]; [:: [:: 1]]]) (Some [:: 1]) = Ok us &
    size us = N.+1 /\ forall i, (i <= N)%N -> err_at cexp (- 1) 1 1 N (nth 0 us i) i <=
      toC (hi * (N%:R ^- 2 + N%:R * u64)).
Proof.
split; first exact: accurate64.
move=> h; have mom d : (d < 2)%N -> moment 1 [:: [:: h]] [:: 1] d = (d.+1`!)%:R^-1.
  case: d => [|[|]] // _; rewrite /moment !mxE big_ord1 !mxE /= ?big_ord1 ?mxE /=.
    by rewrite mulr1 invr1.
  by rewrite mul1r mulr1.
have [hi [N0 H]] := @C88_weights 1 2%:Z [:: [:: h]] (QD3 [:: [:: [:: 0]]; [:: [:: 1]]]) [:: [:: [:: 0]]; [:: [:: 1]]]
  [:: 1] 2 1 isT isT (erefl _) (erefl _) mom.
have [/andP [u0 _] _ _ _] := C79_float64.
exists hi, N0 => N l Nu.
have [us eu [su hu]] := H arith64 (u64 : R) (- 1) 1 1 N (ltac:(by rewrite mulr1 normrN normr1 rmorph1)) l u0 Nu accurate64.
by exists us => //; split=> // i iN; have := hu i iN; rewrite normr1 mul1r.
Qed.
(* the trapezoidal rule with the value at the last node *)
Example C88_last_nonvacuous : let h : CC := 2%:R^-1 in let Q := [:: [:: 0; 0]; [:: h; h]] in
  is_shape Q 2 2 /\ (forall d, (d < 2)%N -> moment 2 Q (last [::] Q) d = (d.+1`!)%:R^-1) /\
  qd_sweeps 2 2%:Z (QD2 Q) = Ok [:: Q; Q].
Proof.
move=> h Q; split=> //; split=> // -[|[|]] // _; rewrite /moment !mxE !big_ord_recl big_ord0 !mxE /=.
  by rewrite !mulr1 addr0 invr1 /h; field.
by rewrite !big_ord_recl !big_ord0 !mxE -[2`!]/2%N /bump /ent /= /h; field; rewrite ?pnatr_eq0.
Qed.
