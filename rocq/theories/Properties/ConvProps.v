(* Properties C76 and C77: convergence of the errors reported by errorDahlquist and
   errorDahlquistSDC as the number of steps grows, and their exact rates. *)
From Coq Require Import ZArith QArith Qcanon Reals.
From Verif.Base Require Import Str.
From mathcomp Require Import all_ssreflect all_algebra ring zify complex.
From Verif.Base Require Import QcField QcEmb RField RRcf Outcome Arr Ext LinSolve.
From Verif.Model Require Import Butcher NumUtil Lagrange Nodes Collocation Fejer QGen Registry Sdc Sweeps.
From Verif.Spec Require Import QCoeffSpec SdcSpec ConvSpec ButcherSpec CollSpec NodesSpec LagrangeSpec.
From Verif.Proofs Require Import LagrangeP LagrangeInit LagrangeThms OrthoP NodesP NodesThms QuadP LegendreP CollP RootsP OracleP StabP SdcP SdcOrderP CExpP ConvP.
From Verif.Properties Require Import ErrorProps RKProps LagrangeProps FejerProps NodesProps CollProps RealProps TimeStepProps SdcOrderProps OrderTableProps EquidOrderProps NodeSweepProps.
Set Implicit Arguments.
Unset Strict Implicit.
Unset Printing Implicit Defensive.
Import GRing.Theory Num.Theory Order.TTheory.
Local Open Scope ring_scope.
Bind Scope ring_scope with R.
Local Open Scope seq_scope.

Lemma arch (x : R) : exists N0, (0 < N0)%N /\ forall N, (N0 <= N)%N -> x <= N%:R.
Proof.
have [h _] := archimed x; exists (Z.to_nat (up x)).+1; split=> // N hN.
apply: (@le_trans _ _ (Z.to_nat (up x))%:R); last by rewrite ler_nat; apply: leq_trans hN.
apply/rleE; rewrite rnatE INR_IZR_INZ.
have [z0|z0] := Z_lt_le_dec (up x) 0.
  have -> : Z.of_nat (Z.to_nat (up x)) = Z0 by case: (up x) z0.
  left; apply: Rlt_le_trans h _; apply: IZR_le; exact: Z.lt_le_incl.
by rewrite Z2Nat.id //; left.
Qed.

(* real bounds *)
Lemma taylor_ge0 k : 0 <= 2%:R * exp 1 * 2%:R ^+ k :> R.
Proof.
have e0 : 0 <= exp 1 by apply/rleE; left; exact: exp_pos.
by apply: mulr_ge0; [apply: mulr_ge0 => //; rewrite ler0n|apply: exprn_ge0; rewrite ler0n].
Qed.
Lemma ge0_toC (x : CC) : 0 <= x -> exists2 y : R, x = toC y & 0 <= y.
Proof. by move=> x0; have [y e y0] := normc_real x; exists y => //; rewrite -e ger0_norm. Qed.
Lemma gt0_toC (x : CC) : 0 < x -> exists2 y : R, x = toC y & 0 < y.
Proof.
move=> x0; have [y e _] := ge0_toC (ltW x0); exists y => //.
by rewrite -ltcR -/(toC y) -e rmorph0.
Qed.
Lemma real_const (C delta : CC) (g : CC -> CC) p : 0 < delta ->
  (forall z, `|z| <= delta -> `|g z| <= C * `|z| ^+ p) ->
  exists C' delta' : R, [/\ 0 <= C', 0 < delta', delta' <= 1 & forall z, `|z| <= toC delta' ->
     `|z| <= delta /\ `|g z| <= toC C' * `|z| ^+ p].
Proof.
move=> d0 h; have [d ed dp] := gt0_toC d0.
have C0 : 0 <= C.
  have := h delta; rewrite (gtr0_norm d0) => /(_ (lexx _)) h1.
  have h2 : 0 <= C * delta ^+ p by apply: le_trans h1.
  by move: h2; rewrite pmulr_lge0 // exprn_gt0.
have [C' eC C'0] := ge0_toC C0.
exists C', (Num.min d 1); split=> //.
- by rewrite lt_minr dp ltr01.
- by rewrite le_minl lexx orbT.
move=> z hz; have z1 : `|z| <= delta.
  by apply: (le_trans hz); rewrite ed lecR le_minl lexx.
by split=> //; rewrite -eC; apply: h.
Qed.

Lemma agrees_cexp (f : CC -> CC) p : agrees f (expser p) p ->
  exists C delta : R, [/\ 0 <= C, 0 < delta, delta <= 1 & forall z, `|z| <= toC delta ->
    `|f z - cexp z| <= toC C * `|z| ^+ p.+1].
Proof.
move=> [C [delta [d0 h]]]; have [C' [d' [C0 d'0 d1 h']]] := real_const d0 h.
exists (C' + 2%:R * exp 1 * 2%:R ^+ p.+1), d'; split=> //.
  by rewrite addr_ge0 // taylor_ge0.
move=> z hz; have [_ b] := h' z hz.
have z1 : `|z| <= 1 by apply: (le_trans hz); rewrite -(rmorph1 toC) lecR.
have -> : f z - cexp z = (f z - expser p z) - (cexp z - expser p z).
  by move: (expser p z) => x; ring.
apply: (le_trans (ler_norm_sub _ _)); rewrite rmorphD mulrDl; apply: ler_add => //.
exact: cexp_taylor.
Qed.

Lemma principal_cexp (f : CC -> CC) (co : nat -> CC) p :
  (exists C delta, 0 < delta /\ forall z : CC, `|z| <= delta ->
    `|f z - \sum_(d < p.+2) z ^+ d * co d| <= C * `|z| ^+ p.+2) ->
  (forall d, (d <= p)%N -> co d = (d`!)%:R^-1) ->
  exists C delta : R, [/\ 0 <= C, 0 < delta, delta <= 1 & forall z, `|z| <= toC delta ->
    `|f z - cexp z - (co p.+1 - (p.+1`!)%:R^-1) * z ^+ p.+1| <= toC C * `|z| ^+ p.+2].
Proof.
move=> [C [delta [d0 h]]] e; have [C' [d' [C0 d'0 d1 h']]] := real_const d0 h.
exists (C' + 2%:R * exp 1 * 2%:R ^+ p.+2), d'; split=> //.
  by rewrite addr_ge0 // taylor_ge0.
move=> z hz; have [_ b] := h' z hz.
have z1 : `|z| <= 1 by apply: (le_trans hz); rewrite -(rmorph1 toC) lecR.
have -> : f z - cexp z - (co p.+1 - (p.+1`!)%:R^-1) * z ^+ p.+1 =
  (f z - \sum_(d < p.+2) z ^+ d * co d) - (cexp z - expser p.+1 z).
  have -> : \sum_(d < p.+2) z ^+ d * co d = expser p z + z ^+ p.+1 * co p.+1.
    by rewrite big_ord_recr /=; congr (_ + _); apply: eq_bigr => i _; rewrite e // -ltnS.
  have -> : expser p.+1 z = expser p z + z ^+ p.+1 / (p.+1`!)%:R by rewrite /expser [LHS]big_ord_recr.
  move: (expser p z) (co p.+1) (z ^+ p.+1) ((p.+1`!)%:R^-1) => s a b' c; ring.
apply: (le_trans (ler_norm_sub _ _)); rewrite rmorphD mulrDl; apply: ler_add => //.
exact: cexp_taylor.
Qed.

Section Greatest.
Variables (N : nat) (g : nat -> CC) (e : CC).
Hypothesis ge : greatest N g e.
Lemma greatest_le B : (forall i, (i <= N)%N -> g i <= B) -> e <= B.
Proof. by move=> h; case: ge => _ [i hi <-]; apply: h. Qed.
Lemma greatest_eq h : (forall i, (i <= N)%N -> g i = h i) -> greatest N h e.
Proof.
case: ge => [h1 [i hi ei]] eq; split=> [j hj|]; first by rewrite -eq //; apply: h1.
by exists i => //; rewrite -eq.
Qed.
End Greatest.

(* the error when one step multiplies by f *)
Definition power_err (f : CC -> CC) lam u0 tEnd N e :=
  greatest N (fun i => err_at cexp lam u0 tEnd N (f (lam * (tEnd / N%:R)) ^+ i * u0) i) e.

Section Upper.
Variables (f : CC -> CC) (p : nat) (C eps delta : R).
Hypothesis C0 : 0 <= C.
Hypothesis eps0 : 0 <= eps.
Hypothesis delta1 : delta <= 1.
Hypothesis loc : forall z : CC, `|z| <= toC delta ->
  `|f z - cexp z| <= toC C * `|z| ^+ p.+1 + toC eps * `|z|.
Variables (lam u0 tEnd : CC) (N : nat) (r : R).
Hypothesis N0 : (0 < N)%N.
Hypothesis er : `|lam * tEnd| <= toC r.
Hypothesis small : r <= N%:R * delta.

Lemma upper e : power_err f lam u0 tEnd N e ->
  e <= `|u0| * toC (exp (r * (e4 + C + eps)) * (C * r ^+ p.+1 / N%:R ^+ p + eps * r)).
Proof.
move=> h; apply: (greatest_le h) => i hi; rewrite /err_at /exact_at.
have [s es s0] := normc_real (lam * tEnd).
have sr : s <= r by move: er; rewrite es lecR.
have sm : s <= N%:R * delta by apply: le_trans small.
apply: (le_trans (global C0 eps0 delta1 loc u0 N0 es sm hi)); apply: ler_wpmul2l => //; rewrite lecR.
have n0 : 0 < N%:R :> R by rewrite ltr0n.
have e40 : 0 <= e4 by rewrite mulr_ge0 ?ler0n //; apply/rleE; left; exact: exp_pos.
apply: ler_pmul.
- by apply/rleE; left; exact: exp_pos.
- by rewrite addr_ge0 // ?mulr_ge0 ?exprn_ge0 ?invr_ge0 ?exprn_ge0 // ltW.
- by apply: exp_mono; rewrite ler_wpmul2r // !addr_ge0.
rewrite ler_add // ?ler_wpmul2l // ler_wpmul2r ?invr_ge0 ?exprn_ge0 ?(ltW n0) //.
by rewrite ler_wpmul2l // ler_expn2r // nnegrE //; apply: le_trans sr.
Qed.
End Upper.

Lemma conv_of_agrees (f : CC -> CC) p (r : R) : agrees f (expser p) p -> exists (hi : R) (N0 : nat),
  forall lam u0 tEnd N e, `|lam * tEnd| <= toC r -> (N0 <= N)%N -> power_err f lam u0 tEnd N e ->
  e <= `|u0| * toC (hi / N%:R ^+ p).
Proof.
move=> /agrees_cexp [C [d [C0 d0 d1 loc]]]; have [N0 [n0 h]] := arch (r / d).
exists (exp (r * (e4 + C + 0)) * (C * r ^+ p.+1)), N0 => lam u0 tEnd N e er hN pe.
have N0' : (0 < N)%N by apply: leq_trans hN.
have sm : r <= N%:R * d by rewrite -ler_pdivr_mulr //; apply: h.
have loc' z : `|z| <= toC d -> `|f z - cexp z| <= toC C * `|z| ^+ p.+1 + toC 0 * `|z|.
  by rewrite rmorph0 mul0r addr0; apply: loc.
have := upper C0 (lexx 0) d1 loc' N0' er sm pe.
by rewrite mul0r addr0 -(mulrA (exp _) (C * _)).
Qed.

Section Lower.
Variables (f : CC -> CC) (co : nat -> CC) (p : nat).
Hypothesis p0 : (0 < p)%N.
Hypothesis ex : exists C delta, 0 < delta /\ forall z : CC, `|z| <= delta ->
  `|f z - \sum_(d < p.+2) z ^+ d * co d| <= C * `|z| ^+ p.+2.
Hypothesis low : forall d, (d <= p)%N -> co d = (d`!)%:R^-1.
Let c := co p.+1 - (p.+1`!)%:R^-1.

(* the leading term of the error *)
Lemma leading (r : R) : exists (K : R) (N0 : nat), forall Z N, `|Z| <= toC r -> (N0 <= N)%N ->
  `|f (Z / N%:R) ^+ N - (cexp Z + c * Z ^+ p.+1 * cexp Z / N%:R ^+ p)| <= toC (K / N%:R ^+ p.+1).
Proof.
have [C [d [C0 d0 d1 loc]]] := principal_cexp ex low.
have [c1 ec c10] := normc_real c; have [N0 [n0 h]] := arch (r / d).
eexists; exists N0 => Z N hZ hN; have N0' : (0 < N)%N by apply: leq_trans hN.
have sm : r <= N%:R * d by rewrite -ler_pdivr_mulr //; apply: h.
by rewrite opprD addrA; apply: (principal p0 C0 ec d1 loc N0' hZ sm).
Qed.

Lemma cexp_neq0 z : cexp z != 0.
Proof.
have h : cexp z * cexp (- z) = 1 by rewrite -cexpD subrr cexp0.
by apply/eqP => e0; move: h; rewrite e0 mul0r => /eqP; rewrite eq_sym oner_eq0.
Qed.

Lemma lower lam u0 tEnd : c != 0 -> lam * tEnd != 0 -> u0 != 0 -> exists (lo : R) (N0 : nat), 0 < lo /\
  forall N e, (N0 <= N)%N -> power_err f lam u0 tEnd N e -> toC (lo / N%:R ^+ p) <= e.
Proof.
move=> cn Zn un; set Z := lam * tEnd; have [r er r0] := normc_real Z.
have [K [N1 hK]] := leading r.
have L0 : 0 < `|c * Z ^+ p.+1 * cexp Z| by rewrite normr_gt0 !mulf_neq0 ?expf_neq0 ?cexp_neq0.
have [L eL Lp] := gt0_toC L0.
have [v ev vp] : exists2 v : R, `|u0| = toC v & 0 < v by apply: gt0_toC; rewrite normr_gt0.
have [N2 [n2 hN2]] := arch (2%:R * K / L).
exists (v * (L / 2%:R)), (maxn N1 N2); split; first by rewrite mulr_gt0 // divr_gt0 // ltr0n.
move=> N e; rewrite geq_max => /andP [h1 h2] [ge _].
have N0 : (0 < N)%N by apply: leq_trans h2.
have np : 0 < N%:R :> R by rewrite ltr0n.
have nz : N%:R != 0 :> CC by rewrite pnatr_eq0 -lt0n.
apply: le_trans (ge N (leqnn _)); rewrite /err_at /exact_at.
have -> : lam * (N%:R * (tEnd / N%:R)) = Z by rewrite /Z; move: nz; move: (N%:R : CC) => n nz; field.
have -> : lam * (tEnd / N%:R) = Z / N%:R by rewrite mulrA.
rewrite [u0 * _]mulrC -mulrBl normrM [_ * `|u0|]mulrC ev -mulrA rmorphM ler_wpmul2l //.
  by rewrite ler0c ltW.
have hZ : `|Z| <= toC r by rewrite er.
have := hK Z N hZ h1; set F := f _ ^+ N; set E := c * _ * _; rewrite opprD addrA => hk.
have -> : F - cexp Z = E / N%:R ^+ p + (F - cexp Z - E / N%:R ^+ p) by rewrite [RHS]addrC subrK.
have tri (x y : CC) : `|x| - `|y| <= `|x + y|.
  by rewrite ler_subl_addr -{1}[x](addrK y); apply: ler_norm_sub.
apply: le_trans (tri _ _); rewrite ler_subr_addr.
apply: (@le_trans _ _ (toC (L / 2%:R / N%:R ^+ p) + toC (K / N%:R ^+ p.+1))); first by rewrite ler_add2l.
rewrite normrM eL normfV normrX normr_nat.
have -> : toC L / N%:R ^+ p = toC (L / N%:R ^+ p) by rewrite rmorphM fmorphV rmorphX rmorph_nat.
rewrite -rmorphD lecR.
have hh : K / N%:R <= L / 2%:R.
  have := hN2 N h2; rewrite ler_pdivr_mulr // => hl.
  by rewrite ler_pdivr_mulr // mulrAC ler_pdivl_mulr ?ltr0n // mulrC [K * _]mulrC.
have -> : K / N%:R ^+ p.+1 = (K / N%:R) / N%:R ^+ p.
  rewrite exprS invfM mulrA //.
rewrite -mulrDl ler_wpmul2r ?invr_ge0 ?exprn_ge0 ?(ltW np) //.
by apply: (le_trans (ler_add (lexx _) hh)); rewrite -splitr.
Qed.
End Lower.

(* the errors reported by the two functions *)
Section Reported.
Variables (lam u0 tEnd : CC) (N : nat).
Hypothesis N0 : (0 < N)%N.
Let z := lam * (tEnd / N%:R).

Lemma rk_err n nodes we Q w : is_shape Q n n -> size nodes = n -> size w = n -> stagemx n Q z \in unitmx ->
  exists2 e, errorDahlquist cexp nodes w we Q lam u0 tEnd N%:Z None false = Ok e &
    power_err (stabf n Q w) lam u0 tEnd N e.
Proof.
move=> hQ sn sw un; have eN : N = N.-1.+1 by rewrite prednK.
pose u := mkseq (fun i => stabf n Q w z ^+ i * u0) N.+1.
have hu : solveDahlquist nodes w we Q lam u0 tEnd N%:Z false = Ok u.
  by move: (@dahlquistE CC nodes w we Q lam u0 tEnd N.-1 n hQ sn sw); rewrite /u -!eN /= un.
have su : size u = N.+1 by rewrite size_mkseq.
have [e he ge] := error_inf_full cexp lam u0 tEnd su.
exists e; first by rewrite /errorDahlquist hu.
by apply: (greatest_eq ge) => i hi; rewrite nth_mkseq.
Qed.

Lemma sdc_err n (nS : int) Q (QDelta : qdarg CC) qds w : (0 < n)%N -> is_shape Q n n ->
  qd_sweeps n nS QDelta = Ok qds -> (if w is Some w then size w = n else True) ->
  all (fun A => stagemx n A z \in unitmx) qds ->
  exists2 e, errorDahlquistSDC cexp lam u0 tEnd N%:Z nS Q QDelta w None = Ok e &
    power_err (fun z => sdcR n Q (fun j => nth [::] qds j) w z (size qds)) lam u0 tEnd N e.
Proof.
move=> n0 hQ eq hw un; pose f z := sdcR n Q (fun j => nth [::] qds j) w z (size qds).
have hm : {subset [::] <= KEYS} by [].
have [ks [_ _]] := @solveSDC_E CC cexp lam u0 tEnd N nS n Q QDelta qds w [::] hQ n0 N0 eq hw hm.
rewrite /all_unit un => hu; pose u := mkseq (fun i => f z ^+ i * u0) N.+1.
have su : size u = N.+1 by rewrite size_mkseq.
have [e he ge] := error_inf_full cexp lam u0 tEnd su.
exists e; first by rewrite /errorDahlquistSDC hu.
by apply: (greatest_eq ge) => i hi; rewrite nth_mkseq.
Qed.
End Reported.

Lemma unit_small n (qds : seq (seq (seq CC))) : (forall j, (j < size qds)%N -> is_shape (nth [::] qds j) n n) ->
  exists2 d : R, 0 < d & forall z, `|z| <= toC d -> all (fun A => stagemx n A z \in unitmx) qds.
Proof.
move=> hq; have [dl d0 h] := smallz_ex (fun j => nth [::] qds j) (size qds).
have [d ed dp] := gt0_toC d0; exists d => // z hz.
have [_ sm] : smallz (fun j => nth [::] qds j) (size qds) z by apply: h; rewrite ed.
apply/(all_nthP [::]) => j jl; apply: small_unit; [exact: hq|exact: sm].
Qed.

(* explicit constants: with n stages, order p, |A| <= BA, |b| <= Bb and |lam tEnd| <= r *)
Definition conv_C (n p : nat) (BA Bb : R) : R := 2%:R * n%:R * `|Bb| * `|BA| ^+ p + 2%:R * exp 1 * 2%:R ^+ p.+1.
Definition conv_const (n p : nat) (BA Bb r : R) : R :=
  exp (`|r| * (e4 + conv_C n p BA Bb + p%:R)) * (conv_C n p BA Bb * `|r| ^+ p.+1 + p%:R * `|r|).
Theorem C76_explicit (n p : nat) (BA Bb r : R) nodes we A b (eps : R) lam u0 tEnd N :
  is_shape A n n -> size nodes = n -> size b = n -> mnorm A <= toC BA -> vnorm1 b <= toC Bb ->
  0 <= eps -> eps <= 1 ->
  (forall k, (k < p)%N -> `|moment n A b k - (k.+1`!)%:R^-1| <= toC eps) ->
  `|lam * tEnd| <= toC r -> (0 < N)%N -> 2%:R * (1 + `|BA|) * r <= N%:R ->
  exists2 e, errorDahlquist cexp nodes b we A lam u0 tEnd N%:Z None false = Ok e &
    e <= `|u0| * toC (conv_const n p BA Bb r * (N%:R ^- p + eps)).
Proof.
move=> hA sn sb bA bb eps0 eps1 mom hr N0' hN.
pose B := 1 + `|BA|; have B1 : 1 <= B by rewrite ler_addl.
have B0 : 0 < B by apply: lt_le_trans B1; exact: ltr01.
pose d := (2%:R * B)^-1; have d0 : 0 < d by rewrite invr_gt0 mulr_gt0 // ltr0n.
have d1 : d <= 1.
  have b2 : 0 < 2%:R * B by rewrite mulr_gt0 // ltr0n.
  by rewrite invf_le1 // (le_trans B1) // mulrDl mul1r ler_addl ltW.
pose T := 2%:R * exp 1 * 2%:R ^+ p.+1.
pose C := conv_C n p BA Bb.
have C0 : 0 <= C.
  by rewrite addr_ge0 ?taylor_ge0 // !mulr_ge0 ?exprn_ge0 ?ler0n.
pose G := exp (`|r| * (e4 + C + p%:R)).
have G0 : 0 <= G by apply/rleE; left; exact: exp_pos.
have r0 : 0 <= r by rewrite -ler0c -/(toC r); apply: le_trans hr.
have np : 0 < N%:R :> R by rewrite ltr0n.
have sm : r <= N%:R * d by rewrite ler_pdivl_mulr ?mulr_gt0 ?ltr0n // mulrC.
have bA' : mnorm A <= toC `|BA| by apply: (le_trans bA); rewrite lecR ler_norm.
have bb' : vnorm1 b <= toC `|Bb| by apply: (le_trans bb); rewrite lecR ler_norm.
have half (z : CC) : `|z| <= toC d -> `|z| * mnorm A <= 2%:R^-1.
  move=> hz; apply: (@le_trans _ _ (toC d * toC B)).
    apply: ler_pmul => //; first exact: mnorm_ge0.
    by apply: (le_trans bA'); rewrite lecR ler_addr ler01.
  rewrite -rmorphM /d invfM -mulrA mulVf ?gt_eqF // mulr1 fmorphV rmorph_nat //.
have hz : `|lam * (tEnd / N%:R)| <= toC d.
  rewrite mulrA normrM normfV normr_nat ler_pdivr_mulr ?ltr0n //; apply: (le_trans hr).
  by rewrite -[N%:R](rmorph_nat toC) -rmorphM lecR mulrC.
have [e he pe] := rk_err u0 N0' we hA sn sb (small_unit hA (half _ hz)).
exists e => //.
have loc z : `|z| <= toC d -> `|stabf n A b z - cexp z| <= toC C * `|z| ^+ p.+1 + toC (p%:R * eps) * `|z|.
  move=> hzd; have z1 : `|z| <= 1 by apply: (le_trans hzd); rewrite -(rmorph1 toC) lecR.
  have -> : stabf n A b z - cexp z = (stabf n A b z - expser p z) - (cexp z - expser p z).
    by move: (expser p z) (stabf _ _ _ _) => x y; ring.
  apply: (le_trans (ler_norm_sub _ _)).
  have h1 := stabf_remainder p hA sb (half z hzd); have h2 := cexp_taylor p z1.
  apply: (le_trans (ler_add h1 h2)); rewrite addrAC -addrA addrC [toC C]rmorphD mulrDl; apply: ler_add; last first.
    apply: (@le_trans _ _ (\sum_(k < p) `|z| * toC eps)).
      apply: ler_sum => k _; apply: ler_pmul; rewrite ?exprn_ge0 //; last exact: mom.
      by rewrite exprS ler_pimulr // exprn_ile1.
    by rewrite sumr_const card_ord -mulr_natr rmorphM rmorph_nat; move: `|z| (toC eps) (p%:R : CC) => x y q; rewrite [leRHS](_ : _ = x * y * q) ?lexx //; ring.
  rewrite addrC; apply: ler_add => //.
  rewrite ler_wpmul2r ?exprn_ge0 // !rmorphM !rmorph_nat rmorphX.
  apply: ler_pmul; rewrite ?exprn_ge0 ?mulr_ge0 ?ler0n ?vnorm1_ge0 ?mnorm_ge0 //.
    by rewrite ler_wpmul2l // mulr_ge0 ?ler0n.
  by apply: ler_expn2r; rewrite ?nnegrE ?mnorm_ge0 // ler0c.
have pe0 : 0 <= p%:R * eps by rewrite mulr_ge0 ?ler0n.
apply: (le_trans (upper C0 pe0 d1 loc N0' hr sm pe)); apply: ler_wpmul2l => //; rewrite lecR.
rewrite /conv_const -/C -/G.
have -> : `|r| = r by rewrite ger0_norm.
have e40 : 0 <= e4 by rewrite mulr_ge0 ?ler0n //; apply/rleE; left; exact: exp_pos.
have gl : exp (r * (e4 + C + p%:R * eps)) <= G.
  by apply: exp_mono; rewrite (ger0_norm r0) ler_wpmul2l // ler_add2l ler_pimulr // ler0n.
have t0 : 0 <= C * r ^+ p.+1 / N%:R ^+ p + p%:R * eps * r.
  by rewrite addr_ge0 // ?mulr_ge0 ?exprn_ge0 ?invr_ge0 ?exprn_ge0 ?(ltW np) // ler0n.
apply: (le_trans (ler_wpmul2r t0 gl)); rewrite -[X in _ <= X]mulrA ler_wpmul2l //.
have -> : p%:R * eps * r = p%:R * r * eps by rewrite mulrAC.
have x0 : 0 <= N%:R ^- p :> R by rewrite invr_ge0 exprn_ge0 // ltW.
have y0 : 0 <= C * r ^+ p.+1 by rewrite mulr_ge0 // exprn_ge0.
have q0 : 0 <= p%:R * r by rewrite mulr_ge0 // ler0n.
move: (N%:R ^- p) (C * r ^+ p.+1) (p%:R * r) x0 y0 q0 => x y q x0 y0 q0.
rewrite -subr_ge0 (_ : _ - _ = y * eps + q * x); last by ring.
by rewrite addr_ge0 // mulr_ge0.
Qed.

(* C76.  Runge-Kutta and collocation methods: the constants depend on the number of stages, on the
   order, on bounds of the coefficients and on a bound of |lam tEnd| only.  eps is the error of the
   order conditions. *)
Theorem C76_convergence (n p : nat) (BA Bb r : R) : exists (hi : R) (N0 : nat),
  forall nodes we A b (eps : R) lam u0 tEnd N,
  is_shape A n n -> size nodes = n -> size b = n -> mnorm A <= toC BA -> vnorm1 b <= toC Bb ->
  0 <= eps -> eps <= 1 ->
  (forall k, (k < p)%N -> `|moment n A b k - (k.+1`!)%:R^-1| <= toC eps) ->
  `|lam * tEnd| <= toC r -> (N0 <= N)%N ->
  exists2 e, errorDahlquist cexp nodes b we A lam u0 tEnd N%:Z None false = Ok e &
    e <= `|u0| * toC (hi * (N%:R ^- p + eps)).
Proof.
exists (conv_const n p BA Bb r); have [N0 [n0 h]] := arch (2%:R * (1 + `|BA|) * r); exists N0.
move=> nodes we A b eps lam u0 tEnd N hA sn sb bA bb eps0 eps1 mom hr hN.
by apply: C76_explicit => //; [apply: leq_trans hN|apply: h].
Qed.

Lemma tol_real name : exists2 y : R, tol CC name = toC y & 0 <= y <= 1.
Proof.
have h0 : 0 <= tol CC name :> CC by rewrite /tol -(qcr0 CC); apply: qcr_le; rewrite /tolz; do 2 case: ifP => // _.
have h1 : tol CC name <= 1 :> CC by rewrite /tol -(qcr1 CC); apply: qcr_le; rewrite /tolz; do 2 case: ifP => // _.
have [y e y0] := ge0_toC h0; exists y => //; rewrite y0 -lecR -/(toC y) -e rmorph1; exact: h1.
Qed.

(* every registered Runge-Kutta scheme: order p = the declared order, up to the rounding of its table *)
Theorem C76_registered (s : CC) sc (r : R) : List.In sc schemes -> root_of s sc ->
  let t := scheme_table s sc in
  exists (hi : R) (N0 : nat), forall we lam u0 tEnd N, `|lam * tEnd| <= toC r -> (N0 <= N)%N ->
  exists2 e, errorDahlquist cexp (tc t) (tb t) we (tA t) lam u0 tEnd N%:Z None false = Ok e &
    e <= `|u0| * (toC hi * (N%:R ^- torder t + tol CC (s_name sc))).
Proof.
move=> i rt t; have [sb [sh _]] := C34_tables_consistent i rt; rewrite -/t in sb sh.
have [BA eA _] := ge0_toC (mnorm_ge0 (tA t)); have [Bb eb _] := ge0_toC (vnorm1_ge0 (tb t)).
have [eps ee /andP [eps0 eps1]] := tol_real (s_name sc).
have [hi [N0 h]] := C76_convergence (size (tc t)) (torder t) BA Bb r.
exists hi, N0 => we lam u0 tEnd N hr hN.
have mom k : (k < torder t)%N -> `|moment (size (tc t)) (tA t) (tb t) k - (k.+1`!)%:R^-1| <= toC eps.
  by move=> kp; rewrite -ee -{1}sb; apply: C35_linear_order.
have [e he ub] := h (tc t) we (tA t) (tb t) eps lam u0 tEnd N sh (erefl _) sb
  (eq_ind _ (fun x => x <= toC BA) (lexx _) _ (esym eA)) (eq_ind _ (fun x => x <= toC Bb) (lexx _) _ (esym eb))
  eps0 eps1 mom hr hN.
exists e => //; move: ub; rewrite rmorphM rmorphD fmorphV rmorphX rmorph_nat ee; exact.
Qed.

(* every collocation method on the real numbers: the declared order *)
Section Coll.
Variable underflow : seq r_realFieldType -> bool.
Notation RF := r_realFieldType.
Notation fejerR := (fun k : nat => computeFejerRule k).
Notation eighR := (@eigh_ref r_rcfType).
Notation gaussR := (@gauss_ref r_rcfType).
Notation collR := (coll_init (F := RF) PI eighR sqrt ln exp underflow gaussR gaussR fejerR).
Notation nodesR := (getNodes (F := RF) PI eighR sqrt).
Variables (nt qt : string) (M : nat) (s : seq RF).
Hypothesis hnt : nt \in NODE_TYPES.
Hypothesis hqt : qt \in QUAD_TYPES.
Hypothesis hM : (least_nodes qt <= M)%N.
Hypothesis es : nodesR (NodesGen nt qt) M%:Z = Ok s.
Hypothesis sep : separated 0 1 s.

Lemma coll_facts : exists c Q w p,
  [/\ nodes_ok (F := RF) PI eighR sqrt nt qt M, logs_all (F := RF) ln exp underflow,
      rules_ok (F := RF) gaussR gaussR fejerR M "FEJER" & collR M%:Z nt qt 0 1 = Ok c] /\
  [/\ co_Q c = fmat Q, co_weights c = map (@Fin RF) w, coll_order c = Some p & (0 < M)%N] /\
  [/\ is_shape Q M M, size w = M, size (co_nodes c) = M &
      forall k, (k < p)%N -> moment M Q w k = (k.+1`!)%:R^-1].
Proof.
have ok := C66_nodes_ok hnt hqt hM.
have M0 : (0 < M)%N by move: hM; rewrite /least_nodes; case: ifP => // _; apply: ltnW.
have lg : logs_all (F := RF) ln exp underflow by left; exact: r_exp_log.
have rl : rules_ok (F := RF) gaussR gaussR fejerR M "FEJER" by apply: C66_rules_ok => //; right; right.
have h01 : 0 < 1 :> RF by exact: ltr01.
have [c ec _] := C66_collocation underflow hnt hqt hM h01.
have [Q [w [eQ [ew [shQ [zw _]]]]]] := C21_exact ok h01 lg rl ec.
have [zn _] := C21_nodes ok h01 lg rl ec.
have [p ep _] := C25_declared_order ok h01 lg rl ec es sep.
exists c, Q, w, p; split=> //; split=> //; split=> // k kp.
have [Q2 [w2 [eQ2 ew2 mE]]] := C26_moments ok h01 lg rl ec es sep ep kp.
have e1 : Q2 = Q by apply: fmat_inj; rewrite -eQ2 -eQ.
have e2 : w2 = w by apply: (inj_map (f := @Fin RF)); [move=> x y []|rewrite -ew2 -ew].
by move: mE; rewrite e1 e2 => ->; rewrite subr0 expr1n mul1r.
Qed.

Theorem C76_collocation (r : R) : exists c Q w p,
  [/\ collR M%:Z nt qt 0 1 = Ok c, co_Q c = fmat Q, co_weights c = map (@Fin RF) w & coll_order c = Some p] /\
  exists (hi : R) (N0 : nat), forall we lam u0 tEnd N, `|lam * tEnd| <= toC r -> (N0 <= N)%N ->
  exists2 e, errorDahlquist cexp (map toC (co_nodes c)) (map toC w) we (map (map toC) Q) lam u0 tEnd
      N%:Z None false = Ok e & e <= `|u0| * toC (hi / N%:R ^+ p).
Proof.
have [c [Q [w [p [[_ _ _ ec] [[eQ ew ep _] [shQ zw zn mom]]]]]]] := coll_facts.
exists c, Q, w, p; split=> //.
pose Q' := map (map toC) Q; pose w' := map toC w.
have [BA eA _] := ge0_toC (mnorm_ge0 Q'); have [Bb eb _] := ge0_toC (vnorm1_ge0 w').
have [hi [N0 h]] := C76_convergence M p BA Bb r; exists hi, N0 => we lam u0 tEnd N hr hN.
have mom' k : (k < p)%N -> `|moment M Q' w' k - (k.+1`!)%:R^-1| <= toC 0.
  by move=> kp; rewrite (moment_map toC k shQ zw) (mom k kp) fmorphV rmorph_nat subrr normr0 rmorph0.
have sQ' : is_shape Q' M M by apply: map_shape.
have sn : size (map toC (co_nodes c)) = M by rewrite size_map.
have sw : size w' = M by rewrite size_map.
have bA : mnorm Q' <= toC BA by rewrite eA.
have bb : vnorm1 w' <= toC Bb by rewrite eb.
have [e he ub] := h _ we Q' w' 0 lam u0 tEnd N sQ' sn sw bA bb (lexx _) ler01 mom' hr hN.
by exists e => //; move: ub; rewrite addr0.
Qed.
End Coll.

(* spectral deferred corrections: the order on the test equation is the order of the error *)
Theorem C76_sdc n (nS : int) Q (QDelta : qdarg CC) qds w q (r : R) : (0 < n)%N -> is_shape Q n n ->
  qd_sweeps n nS QDelta = Ok qds -> (if w is Some w then size w = n else True) ->
  agrees (fun z => sdcR n Q (fun j => nth [::] qds j) w z (size qds)) (expser q) q ->
  exists (hi : R) (N0 : nat), forall lam u0 tEnd N, `|lam * tEnd| <= toC r -> (N0 <= N)%N ->
  exists2 e, errorDahlquistSDC cexp lam u0 tEnd N%:Z nS Q QDelta w None = Ok e &
    e <= `|u0| * toC (hi / N%:R ^+ q).
Proof.
move=> n0 hQ eq hw ag; have [_ hq] := qds_ok eq; have [d d0 hd] := unit_small hq.
have [hi [N1 h1]] := conv_of_agrees r ag; have [N2 [n2 h2]] := arch (r / d).
exists hi, (maxn N1 N2) => lam u0 tEnd N hr; rewrite geq_max => /andP [l1 l2].
have N0 : (0 < N)%N by apply: leq_trans l2.
have hz : `|lam * (tEnd / N%:R)| <= toC d.
  rewrite mulrA normrM normfV normr_nat ler_pdivr_mulr ?ltr0n //; apply: (le_trans hr).
  by rewrite -[N%:R](rmorph_nat toC) -rmorphM lecR mulrC -ler_pdivr_mulr //; apply: h2.
have [e he pe] := sdc_err u0 N0 n0 hQ eq hw (hd _ hz).
by exists e => //; apply: h1 pe.
Qed.

(* C77.  The leading term of the error, and hence its exact rate. *)
Section RkRate.
Variables (n p : nat) (A : seq (seq CC)) (b nodes : seq CC).
Variable we : outcome (seq CC).
Hypothesis p0 : (0 < p)%N.
Hypothesis hA : is_shape A n n.
Hypothesis sn : size nodes = n.
Hypothesis sb : size b = n.
Hypothesis mom : forall k, (k < p)%N -> moment n A b k = (k.+1`!)%:R^-1.
(* the error constant *)
Let c := moment n A b p - (p.+1`!)%:R^-1.
Let co d := if d is d'.+1 then moment n A b d' else 1.

Lemma rk_expansion D : exists C delta, 0 < delta /\ forall z : CC, `|z| <= delta ->
  `|stabf n A b z - \sum_(d < D.+1) z ^+ d * co d| <= C * `|z| ^+ D.+1.
Proof.
pose m := 1 + mnorm A; have m0 : 0 < m by rewrite ltr_paddr ?mnorm_ge0 ?ltr01.
exists (2%:R * n%:R * vnorm1 b * mnorm A ^+ D), (2%:R * m)^-1; split; first by rewrite invr_gt0 mulr_gt0 ?ltr0n.
move=> z hz; have h : `|z| * mnorm A <= 2%:R^-1.
  apply: (@le_trans _ _ ((2%:R * m)^-1 * m)).
    by apply: ler_pmul => //; rewrite ?mnorm_ge0 // ler_addr ler01.
  by rewrite invfM -mulrA mulVf ?gt_eqF // mulr1.
have un := small_unit hA h; have [x e] := stages_ex un.
rewrite (stabf_series b D un e) big_ord_recl expr0 mul1r [co _]/=.
have com (a s1 t : CC) : a + s1 + t - (a + s1) = t by ring.
rewrite com normrM normrX mulrC ler_wpmul2r ?exprn_ge0 //.
rewrite (le_trans (dot_bound _ sb)) //.
have -> : 2%:R * n%:R * vnorm1 b * mnorm A ^+ D = vnorm1 b * (mnorm A ^+ D * (2%:R * n%:R)).
  by move: (vnorm1 b) (mnorm A ^+ D) => y d; ring.
rewrite ler_wpmul2l ?vnorm1_ge0 //.
rewrite (le_trans (nrm1_iter _ _ hA)) // ler_wpmul2l ?exprn_ge0 ?mnorm_ge0 //.
rewrite -(nrm1_const _ n); apply: (small_bound hA h); exact: stages_eq.
Qed.

Lemma co_low d : (d <= p)%N -> co d = (d`!)%:R^-1.
Proof. by case: d => [|d] dp; [rewrite /= invr1|rewrite /= mom]. Qed.

Lemma rk_unit : exists2 d : R, 0 < d & forall z, `|z| <= toC d -> stagemx n A z \in unitmx.
Proof.
have hq j : (j < size [:: A])%N -> is_shape (nth [::] [:: A] j) n n by case: j.
have [d d0 h] := unit_small hq; exists d => // z /h; by rewrite /= andbT.
Qed.

Lemma rk_defined (r : R) : exists N0 : nat, forall lam u0 tEnd N, `|lam * tEnd| <= toC r -> (N0 <= N)%N ->
  (0 < N)%N /\ exists2 e, errorDahlquist cexp nodes b we A lam u0 tEnd N%:Z None false = Ok e &
    power_err (stabf n A b) lam u0 tEnd N e.
Proof.
have [d d0 hd] := rk_unit; have [N2 [n2 h2]] := arch (r / d).
exists N2 => lam u0 tEnd N hr l2.
have N0 : (0 < N)%N by apply: leq_trans l2.
split=> //; apply: rk_err => //; apply: hd.
rewrite mulrA normrM normfV normr_nat ler_pdivr_mulr ?ltr0n //; apply: (le_trans hr).
by rewrite -[N%:R](rmorph_nat toC) -rmorphM lecR mulrC -ler_pdivr_mulr //; apply: h2.
Qed.

(* the value after N steps is u0 e^Z (1 + c Z^(p+1) / N^p) with Z = lam tEnd, up to order N^-(p+1) *)
Theorem C77_leading_term (r : R) : exists (K : R) (N0 : nat), forall lam u0 tEnd N, let Z := lam * tEnd in
  `|Z| <= toC r -> (N0 <= N)%N ->
  exists2 u, solveDahlquist nodes b we A lam u0 tEnd N%:Z false = Ok u &
    `|last 0 u - u0 * (cexp Z + c * Z ^+ p.+1 * cexp Z / N%:R ^+ p)| <= `|u0| * toC (K / N%:R ^+ p.+1).
Proof.
have [K [N1 h1]] := leading p0 (rk_expansion p.+1) co_low r; have [N2 h2] := rk_defined r.
exists K, (maxn N1 N2) => lam u0 tEnd N Z hr; rewrite geq_max => /andP [l1 l2].
have [N0 [e he _]] := h2 lam u0 tEnd N hr l2.
have [d d0 hd] := rk_unit.
have [M [u [[eM] hu _]]] := (C69_error cexp nodes b we A lam u0 tEnd N%:Z false e).1 he.
exists u => //; have eN : N = N.-1.+1 by rewrite prednK.
have := @dahlquistE CC nodes b we A lam u0 tEnd N.-1 n hA sn sb; rewrite -!eN hu /=; case: ifP => // _ [->].
rewrite -nth_last size_mkseq nth_mkseq //.
have -> : lam * (tEnd / N%:R) = Z / N%:R by rewrite mulrA.
by rewrite [_ * u0]mulrC -mulrBr normrM ler_wpmul2l //; apply: h1.
Qed.

Theorem C77_rk_rate lam u0 tEnd : c != 0 -> lam * tEnd != 0 -> u0 != 0 ->
  exact_rate (fun N => errorDahlquist cexp nodes b we A lam u0 tEnd N%:Z None false) p.
Proof.
move=> cn Zn un; have [lo [N1 [lo0 h1]]] := lower p0 (rk_expansion p.+1) co_low cn Zn un.
have [r er r0] := normc_real (lam * tEnd); have hr : `|lam * tEnd| <= toC r by rewrite er.
have ag : agrees (stabf n A b) (expser p) p.
  by apply/(agrees_iff (c := co) (rk_expansion p)); exact: co_low.
have [hi [N2 h2]] := conv_of_agrees r ag; have [N3 h3] := rk_defined r.
have [v ev _] := normc_real u0.
exists lo, (v * hi), (maxn N1 (maxn N2 N3)); split=> // N; rewrite !geq_max => /and3P [l1 l2 l3].
have [N0 [e he pe]] := h3 lam u0 tEnd N hr l3; exists e => //; rewrite h1 // andTb.
by rewrite -mulrA rmorphM -ev; apply: (h2 lam u0 tEnd).
Qed.
End RkRate.

Theorem C77_sdc_rate n (nS : int) Q (QDelta : qdarg CC) qds w q lam u0 tEnd : (0 < n)%N -> is_shape Q n n ->
  qd_sweeps n nS QDelta = Ok qds -> (if w is Some w then size w = n else True) -> (0 < q)%N ->
  true_order (fun z => sdcR n Q (fun j => nth [::] qds j) w z (size qds)) q ->
  lam * tEnd != 0 -> u0 != 0 ->
  exact_rate (fun N => errorDahlquistSDC cexp lam u0 tEnd N%:Z nS Q QDelta w None) q.
Proof.
move=> n0 hQ eq hw q0 [ag nag] Zn un; have [_ hq] := qds_ok eq.
pose QD j := nth [::] qds j; pose co := step_coef n Q QD w (size qds).
have [r er r0] := normc_real (lam * tEnd); have hr : `|lam * tEnd| <= toC r by rewrite er.
have oi := order_iff hQ hq hw; have low : forall d, (d <= q)%N -> co d = (d`!)%:R^-1 by apply/oi.
have cn : co q.+1 - (q.+1`!)%:R^-1 != 0.
  rewrite subr_eq0; apply/eqP => e; apply: nag; apply/oi => d.
  by rewrite leq_eqVlt => /orP [/eqP -> //|]; rewrite ltnS; apply: low.
have [lo [N1 [lo0 h1]]] := lower q0 (expansion_step hQ hq hw q.+1) low cn Zn un.
have [hi [N2 h2]] := C76_sdc r n0 hQ eq hw ag; have [v ev _] := normc_real u0.
have [d d0 hd] := unit_small hq; have [N3 [n3 h3]] := arch (r / d).
exists lo, (v * hi), (maxn N1 (maxn N2 N3)); split=> // N; rewrite !geq_max => /and3P [l1 l2 l3].
have N0 : (0 < N)%N by apply: leq_trans l3.
have hz : `|lam * (tEnd / N%:R)| <= toC d.
  rewrite mulrA normrM normfV normr_nat ler_pdivr_mulr ?ltr0n //; apply: (le_trans hr).
  by rewrite -[N%:R](rmorph_nat toC) -rmorphM lecR mulrC -ler_pdivr_mulr //; apply: h3.
have [e he pe] := sdc_err u0 N0 n0 hQ eq hw (hd _ hz).
have [e' he' ub] := h2 lam u0 tEnd N hr l2; move: he'; rewrite he => -[ee]; rewrite -ee in ub.
by exists e => //; rewrite h1 // andTb -mulrA rmorphM -ev.
Qed.

Lemma true_order_ext (f g : CC -> CC) q : f =1 g -> true_order f q -> true_order g q.
Proof.
have ex (f1 f2 h : CC -> CC) p : f1 =1 f2 -> agrees f1 h p -> agrees f2 h p.
  by move=> e [C [d [d0 b]]]; exists C, d; split=> // z hz; rewrite -e; apply: b.
by move=> e [h1 h2]; split; [apply: ex e h1|move=> h; apply: h2; apply: ex h => z; rewrite e].
Qed.
Lemma repeat_rate n (k : nat) Q A w q lam u0 tEnd : (0 < n)%N -> is_shape Q n n -> is_shape A n n ->
  (if w is Some w then size w = n else True) -> (0 < q)%N ->
  true_order (fun z => sdcR n Q (fun _ => A) w z k) q -> lam * tEnd != 0 -> u0 != 0 ->
  exact_rate (fun N => errorDahlquistSDC cexp lam u0 tEnd N%:Z k%:Z Q (QD2 A) w None) q.
Proof.
move=> n0 hQ hA hw q0 to Zn un.
have eq : qd_sweeps n k%:Z (QD2 A) = Ok (nseq k A) by rewrite /= hA.
apply: (C77_sdc_rate n0 hQ eq hw q0 _ Zn un); rewrite size_nseq.
have e z : sdcR n Q (fun j => nth [::] (nseq k A) j) w z k = sdcR n Q (fun _ => A) w z k.
  by rewrite /sdcR (@sdcv_ext _ n Q _ (fun _ => A)) // => j jk; rewrite nth_nseq jk.
by apply: true_order_ext to => z; rewrite e.
Qed.

(* the sweeps of the convergence tests of the package on equidistant nodes: the error decreases exactly
   as N^-q with q the expected order, or one less for the recorded exceptions *)
Notation toK := (map (map (qcr CC))).
Theorem C77_equid_quadrature (M : nat) qt x k : M \in MS -> qt \in QUAD_TYPES -> x \in SCHEMES -> (k < 4)%N ->
  exists c self Q w A p q, [/\ qinit M%:Z "EQUID" qt 0 1 = Ok c,
    ts_init q_trunc false (co_nodes c) 0 = Ok self, co_Q c = fmat Q, co_weights c = map (@Fin Qf) w &
    scheme x self = Ok (fmat A)] /\
  [/\ coll_order c = Some p, (0 < q)%N,
     Posz q = getOrderSDC M "EQUID" qt p k x "QUADRATURE" - (if (qt, M, x, k) \in over_quad then 1 else 0) &
     forall lam u0 tEnd : CC, lam * tEnd != 0 -> u0 != 0 -> exact_rate (fun N =>
        errorDahlquistSDC cexp lam u0 tEnd N%:Z k%:Z (toK Q) (QD2 (toK A)) (Some (map (qcr CC) w)) None) q].
Proof.
move=> hM hq hx hk.
have [c [self [Q [w [A [p [q [h1 [h2 h3 h4 [s1 s2 s3 q0]]]]]]]]]] :=
  @C65_equid_quadrature CC [rmorphism of qcr CC] M qt x k hM hq hx hk.
exists c, self, Q, w, A, p, q; split; first exact: h1.
split=> // lam u0 tEnd Zn un; apply: (@repeat_rate M) => //; rewrite ?size_map //; try exact: map_shape.
by move: hM; rewrite !inE => /or3P [] /eqP ->.
Qed.

Theorem C77_equid_last (M : nat) qt x k : M \in MS -> qt \in [:: "RADAU-RIGHT"; "LOBATTO"]%string ->
  x \in SCHEMES -> (0 < k <= 4)%N ->
  exists c self Q w A p q, [/\ qinit M%:Z "EQUID" qt 0 1 = Ok c,
    ts_init q_trunc false (co_nodes c) 0 = Ok self, co_Q c = fmat Q, co_weights c = map (@Fin Qf) w &
    scheme x self = Ok (fmat A)] /\
  [/\ coll_order c = Some p, (0 < q)%N,
     Posz q = getOrderSDC M "EQUID" qt p k x "LASTNODE" - (if (qt, M, x, k) \in over_last then 1 else 0) &
     forall lam u0 tEnd : CC, lam * tEnd != 0 -> u0 != 0 -> exact_rate (fun N =>
        errorDahlquistSDC cexp lam u0 tEnd N%:Z k%:Z (toK Q) (QD2 (toK A)) None None) q].
Proof.
move=> hM hq hx hk.
have [c [self [Q [w [A [p [q [h1 [h2 h3 h4 [s1 s2 s3 q0]]]]]]]]]] :=
  @C65_equid_last CC [rmorphism of qcr CC] M qt x k hM hq hx hk.
exists c, self, Q, w, A, p, q; split; first exact: h1.
split=> // lam u0 tEnd Zn un; apply: (@repeat_rate M) => //; rewrite ?size_map //; try exact: map_shape.
by move: hM; rewrite !inE => /or3P [] /eqP ->.
Qed.

Print Assumptions C76_explicit.
Print Assumptions C76_convergence.
Print Assumptions C76_registered.
Print Assumptions C76_collocation.
Print Assumptions C76_sdc.
Print Assumptions C77_leading_term.
Print Assumptions C77_rk_rate.
Print Assumptions C77_sdc_rate.
Print Assumptions C77_equid_quadrature.
Print Assumptions C77_equid_last.

(* the explicit Euler method: error constant 0 - 1/2, so the error is of order 1/N exactly *)
Example C77_nonvacuous : let A := [:: [:: 0 : CC]] in let b := [:: 1 : CC] in
  [/\ is_shape A 1 1, forall k, (k < 1)%N -> moment 1 A b k = (k.+1`!)%:R^-1,
     moment 1 A b 1 - (2`!)%:R^-1 != 0 &
     exact_rate (fun N => errorDahlquist cexp [:: 0] b (Raise NotImplementedError) A (-1) 1 1 N%:Z None false) 1].
Proof.
move=> A b; have sA : is_shape A 1 1 by [].
have m0 k : (k < 1)%N -> moment 1 A b k = (k.+1`!)%:R^-1.
  by case: k => // _; rewrite /moment mxE big_ord1 !mxE /= mulr1 invr1.
have m1 : moment 1 A b 1 - (2`!)%:R^-1 != 0.
  by rewrite /moment /= !mxE !big_ord1 !mxE !big_ord1 !mxE /= mul0r mulr0 sub0r oppr_eq0 invr_eq0 pnatr_eq0.
split=> //; apply: (C77_rk_rate _ _ sA) => //; last exact: oner_neq0.
by rewrite mulr1 oppr_eq0 oner_neq0.
Qed.
(* and the registered schemes: with a table given exactly and of declared order 4 *)
Example C76_nonvacuous : List.In s_RK4 schemes /\ root_of (sqrtC 2%:R : CC) s_RK4 /\
  tol CC (s_name s_RK4) = 0 /\ torder (scheme_table (sqrtC 2%:R : CC) s_RK4) = 4%N.
Proof.
split; first exact: (nth_scheme (k := 7)).
split; first by split; rewrite ?sqrtC_ge0 ?ler0n // -expr2 sqrtCK.
by split=> //; rewrite /tol qcrE mul0r.
Qed.
