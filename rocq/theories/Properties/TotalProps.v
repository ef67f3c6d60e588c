(* Property C87: total error of the solution of the Dahlquist problem, in inexact arithmetic and
   with stored coefficients, against the exponential. *)
From Coq Require Import ZArith QArith Qcanon Reals List.
From Verif.Base Require Import Str.
From mathcomp Require Import all_ssreflect all_algebra ring zify complex.
From Verif.Base Require Import QcField QcEmb RField RRcf Outcome Arr Ext LinSolve Float64.
From Verif.Model Require Import Butcher NumUtil Lagrange QGen Registry Sdc RoundedSolve Nodes Collocation Fejer.
From Verif.Spec Require Import QCoeffSpec SdcSpec ConvSpec ButcherSpec CollSpec NodesSpec LagrangeSpec RoundSpec RoundSolveSpec StoredSpec SensitivitySpec TotalSpec.
From Verif.Proofs Require Import StabP CExpP ConvP RootsP OracleP SdcOrderP CollP NodesP ButcherP.
From Verif.Properties Require Import ErrorProps RKProps FejerProps NodesProps CollProps RealProps TimeStepProps SdcOrderProps OrderTableProps RoundProps StoredProps RoundSolveProps SensitivityProps ConvProps.
Set Implicit Arguments.
Unset Strict Implicit.
Unset Printing Implicit Defensive.
Import GRing.Theory Num.Theory Order.TTheory.
Local Open Scope ring_scope.
Bind Scope ring_scope with R.
Local Open Scope seq_scope.

(* the solution computed by the arithmetic a from the stored table t *)
Definition computed (K : numFieldType) (a : arith K) (t : table K) we lam u0 tEnd (N : nat) : outcome (seq K) :=
  r_solveDahlquist (ar_add a) (ar_sub a) (ar_mul a) (ar_div a) (ar_dot a) (ar_solve a)
    (tc t) (tb t) we (tA t) lam u0 tEnd N%:Z false.

Section Growth.
Variables (n N : nat) (B r e : R) (z Rz W : CC).
Hypotheses (N0 : (0 < N)%N) (B0 : 0 <= B) (r0 : 0 <= r) (e0 : 0 <= e) (Ne : N%:R * e <= 1).
Hypotheses (hz : `|z| <= toC (r / N%:R)) (W0 : 0 <= W) (hW : W <= toC B).
Hypothesis hR : `|Rz - 1| <= 2%:R * n%:R * W * `|z|.
Let c1 : R := 1 + 126%:R * n%:R * n.+1%:R * r * B.
Let G : R := 2%:R * n%:R * B * r + c1.
Let kap : CC := toC e * (1 + 126%:R * n%:R * n.+1%:R * `|z| * W).
Let np : 0 < N%:R :> R. Proof. by rewrite ltr0n. Qed.
Let c10 : 0 <= c1. Proof. by rewrite addr_ge0 ?ler01 // !mulr_ge0 ?ler0n. Qed.
Let zW : `|z| * W <= toC (r * B / N%:R).
Proof. by rewrite mulrAC rmorphM; apply: ler_pmul. Qed.
Let zW' : `|z| * W <= toC (r * B).
Proof.
apply: (le_trans zW); rewrite lecR ler_pdivr_mulr // ler_pemulr ?mulr_ge0 //.
by rewrite -[X in X <= _]/(1%:R) ler_nat.
Qed.
Lemma kap_real : 0 <= kap <= toC (e * c1).
Proof.
have k0 : 0 <= toC e by rewrite ler0c.
apply/andP; split.
  by rewrite mulr_ge0 // addr_ge0 ?ler01 // !mulr_ge0 ?ler0n.
rewrite /kap rmorphM; apply: ler_wpmul2l => //; rewrite rmorphD rmorph1 ler_add2l.
have -> : 126%:R * n%:R * n.+1%:R * `|z| * W = (126 * n * n.+1)%:R * (`|z| * W).
  by rewrite !natrM; move: `|z| W (n.+1%:R : CC) => x y v; ring.
have -> : 126%:R * n%:R * n.+1%:R * r * B = (126 * n * n.+1)%:R * (r * B).
  by rewrite !natrM; move: (n.+1%:R : R) => v; ring.
by rewrite rmorphM rmorph_nat; apply: ler_wpmul2l => //; exact: ler0n.
Qed.
Lemma growth_bound i : (i <= N)%N ->
  (`|Rz| + kap) ^+ i - `|Rz| ^+ i <= toC (c1 * exp G * (N%:R * e)).
Proof.
move=> iN; have /andP [k0 k1] := kap_real.
pose y : R := G / N%:R.
have G0 : 0 <= G by rewrite addr_ge0 // !mulr_ge0 ?ler0n.
have y0 : 0 <= y by rewrite divr_ge0 // ltW.
have R1 : `|Rz| <= 1 + toC (2%:R * n%:R * B * r / N%:R).
  rewrite -[Rz](subrK 1) addrC; apply: (le_trans (ler_norm_add _ _)); rewrite normr1 ler_add2l.
  apply: (le_trans hR).
  have -> : 2%:R * n%:R * W * `|z| = (2 * n)%:R * (`|z| * W) by rewrite natrM; move: `|z| W => x y'; ring.
  have -> : 2%:R * n%:R * B * r / N%:R = (2 * n)%:R * (r * B / N%:R) by rewrite natrM; move: (N%:R^-1 : R) => x; ring.
  by rewrite rmorphM rmorph_nat; apply: ler_wpmul2l => //; exact: ler0n.
have eN : e <= N%:R^-1 by rewrite -[X in _ <= X]mul1r ler_pdivl_mulr // mulrC.
have m1 : `|Rz| + kap <= 1 + toC y.
  have -> : y = 2%:R * n%:R * B * r / N%:R + c1 / N%:R by rewrite /y /G mulrDl.
  rewrite rmorphD addrA; apply: ler_add => //; apply: (le_trans k1); rewrite lecR mulrC.
  by apply: ler_wpmul2l.
have my : 1 <= 1 + toC y by rewrite ler_addl ler0c.
have a0 : 0 <= `|Rz| + kap by rewrite addr_ge0.
have h := @ConvP.pow_diff CC (`|Rz| + kap) `|Rz| (1 + toC y) i my.
have ha : `| `|Rz| + kap| <= 1 + toC y by rewrite ger0_norm.
have hb : `| `|Rz| | <= 1 + toC y by rewrite normr_id; apply: le_trans m1; rewrite ler_addl.
have {h} := h ha hb.
have -> : `|Rz| + kap - `|Rz| = kap by rewrite addrAC subrr add0r.
rewrite (ger0_norm k0) => h.
have d0 : 0 <= (`|Rz| + kap) ^+ i - `|Rz| ^+ i.
  by rewrite subr_ge0; apply: ler_expn2r; rewrite ?nnegrE // ler_addl.
rewrite (ger0_norm d0) in h; apply: (le_trans h).
have g : (1 + toC y) ^+ i <= toC (exp G).
  rewrite -(rmorph1 toC) -rmorphD -rmorphX lecR; apply: (le_trans (growth i y0)); apply: exp_mono.
  apply: le_trans (_ : N%:R * y <= _); first by rewrite ler_wpmul2r // ler_nat.
  by rewrite /y mulrC -mulrA mulVf ?gt_eqF // mulr1.
have -> : c1 * exp G * (N%:R * e) = N%:R * (e * c1) * exp G.
  by move: (exp G) c1 => a b; ring.
have -> : toC (N%:R * (e * c1) * exp G) = N%:R * toC (e * c1) * toC (exp G).
  by rewrite [LHS]rmorphM [X in X * _ = _]rmorphM rmorph_nat.
apply: ler_pmul => //.
- by rewrite mulr_ge0 ?ler0n.
- by rewrite exprn_ge0 // (le_trans ler01 my).
by apply: ler_pmul => //; rewrite ler_nat.
Qed.
End Growth.

Lemma stable_mono (K : numFieldType) (e e' : K) s : e <= e' -> backward_stable e s -> backward_stable e' s.
Proof.
move=> le h n A b sA sb; have [h1 h2] := h n A b sA sb; split.
  move=> x ex; have [sx [E [sE nE eE]]] := h1 x ex; split=> //; exists E; split=> //.
  by apply: (le_trans nE); apply: ler_wpmul2r => //; exact: mnorm_ge0.
move=> hE; apply: h2 => E sE nE; apply: hE => //.
by apply: (le_trans nE); apply: ler_wpmul2r => //; exact: mnorm_ge0.
Qed.

(* the factor of the accuracy: n stages, |b| <= Bb, |lam tEnd| <= r *)
Definition round_const (n : nat) (Bb r : R) : R :=
  let c := 1 + 126%:R * n%:R * n.+1%:R * `|r| * `|Bb| in c * exp (2%:R * n%:R * `|Bb| * `|r| + c).

(* C87.  N steps with an arithmetic of accuracy e, N e <= 1, on a table stored with relative error e:
   discretization error, error of the order conditions and N times the accuracy. *)
Section Total.
Variables (n p : nat) (BA Bb r : R) (t t' : table CC) (we : outcome (seq CC)) (a : arith CC) (eps e : R).
Variables (lam u0 tEnd : CC) (N : nat).
Hypotheses (sA : is_shape (tA t) n n) (sc : size (tc t) = n) (sb : size (tb t) = n).
Hypotheses (bA : mnorm (tA t) <= toC BA) (bb : vnorm1 (tb t) <= toC Bb).
Hypotheses (eps0 : 0 <= eps) (eps1 : eps <= 1).
Hypothesis mom : forall k, (k < p)%N -> `|moment n (tA t) (tb t) k - (k.+1`!)%:R^-1| <= toC eps.
Hypotheses (hr : `|lam * tEnd| <= toC r) (N1 : 4%:R * (1 + `|BA|) * r <= N%:R) (N2 : (100 * n.+1 <= N)%N).
Hypotheses (e0 : 0 <= e) (Ne : N%:R * e <= 1) (st : stored (toC e) t t') (ac : accurate (toC e) a).
Theorem C87_total : exists2 us, computed a t' we lam u0 tEnd N = Ok us &
    size us = N.+1 /\ forall i, (i <= N)%N -> err_at cexp lam u0 tEnd N (nth 0 us i) i <=
      `|u0| * toC (conv_const n p BA Bb r * (N%:R ^- p + eps) + round_const n Bb r * (N%:R * e)).
Proof.
have r0 : 0 <= r by rewrite -ler0c -/(toC r); apply: le_trans hr.
have Np : (0 < N)%N by apply: leq_trans N2.
have np : 0 < N%:R :> R by rewrite ltr0n.
have B1 : 0 <= 1 + `|BA| by rewrite addr_ge0 ?ler01.
have bA' : mnorm (tA t) <= toC `|BA| by apply: (le_trans bA); rewrite lecR ler_norm.
have bb' : vnorm1 (tb t) <= toC `|Bb| by apply: (le_trans bb); rewrite lecR ler_norm.
pose z := lam * (tEnd / N%:R).
have hz : `|z| <= toC (r / N%:R).
  rewrite /z mulrA normrM normfV normr_nat rmorphM fmorphV rmorph_nat.
  by apply: ler_wpmul2r => //; rewrite invr_ge0 ler0n.
have hzA : `|z| * mnorm (tA t) <= 4%:R^-1.
  apply: le_trans (_ : toC (r / N%:R * `|BA|) <= _).
    by rewrite rmorphM; apply: ler_pmul => //; exact: mnorm_ge0.
  rewrite -[4%:R^-1](_ : toC 4%:R^-1 = _); last by rewrite fmorphV rmorph_nat.
  rewrite lecR mulrAC ler_pdivr_mulr // -ler_pdivr_mull ?invr_gt0 ?ltr0n // invrK.
  apply: le_trans N1; rewrite [r * _]mulrC mulrA; apply: ler_wpmul2r => //; apply: ler_wpmul2l; first exact: ler0n.
  by rewrite ler_addr ler01.
have hz2 : `|z| * mnorm (tA t) <= 2%:R^-1.
  by apply: (le_trans hzA); rewrite lef_pinv ?posrE ?ltr0n // ler_nat.
have sm : toC e * (100 * n.+1)%:R <= 1.
  rewrite -(rmorph_nat toC) -rmorphM -(rmorph1 toC) lecR; apply: le_trans Ne.
  by rewrite mulrC ler_wpmul2r // ler_nat.
have e0' : 0 <= toC e by rewrite ler0c.
have eN : N.-1.+1 = N by rewrite prednK.
have [a1 a2 [a3 a4] a5 a6] := ac.
have hz' : `|lam * (tEnd / N.-1.+1%:R)| * mnorm (tA t) <= 4%:R^-1 by rewrite eN.
have [us eu [su hu]] := C86_small e0' e0' e0' e0' a1 a2 a3 a4 a5 a6 u0 we st sA sb sc (lexx _) (lexx _) (lexx _) sm hz'.
rewrite eN in eu su hu; exists us => //; split=> // i iN.
have N1' : 2%:R * (1 + `|BA|) * r <= N%:R.
  by apply: le_trans N1; rewrite !ler_wpmul2r // ler_nat.
have [er he ub] := C76_explicit we u0 sA sc sb bA bb eps0 eps1 mom hr Np N1'.
have [er2 he2 [pe _]] := rk_err u0 Np we sA sc sb (small_unit sA hz2).
have ee : er2 = er by move: he2; rewrite he => -[].
have := pe i iN; rewrite ee => hi1; have := hu i iN => hi2.
rewrite /err_at /exact_at; set x := u0 * _.
have -> : nth 0 us i - x = (stabf n (tA t) (tb t) z ^+ i * u0 - x) + (nth 0 us i - stabf n (tA t) (tb t) z ^+ i * u0).
  by rewrite [RHS]addrC addrA subrK.
apply: (le_trans (ler_norm_add _ _)).
have R1 : `|stabf n (tA t) (tb t) z - 1| <= 2%:R * n%:R * vnorm1 (tb t) * `|z|.
  by have := stabf_remainder 0 sA sb hz2; rewrite /expser big_ord1 !big_ord0 !expr0 divr1 add0r mulr1 expr1.
have gb := growth_bound Np (normr_ge0 Bb) r0 e0 Ne hz (vnorm1_ge0 _) bb' R1 iN.
have f1 : `|nth 0 us i - stabf n (tA t) (tb t) z ^+ i * u0| <= `|u0| * toC (round_const n Bb r * (N%:R * e)).
  apply: (le_trans hi2); rewrite mulrC; apply: ler_wpmul2l => //; apply: (le_trans gb).
  by rewrite /round_const (ger0_norm r0).
have f2 := le_trans hi1 ub; apply: (le_trans (ler_add f2 f1)).
by rewrite -mulrDr -rmorphD.
Qed.

(* as long as N^(p+1) e <= 1 the rounding errors do not hide the order *)
Theorem C87_order : N%:R ^+ p.+1 * e <= 1 -> exists2 us, computed a t' we lam u0 tEnd N = Ok us &
    size us = N.+1 /\ forall i, (i <= N)%N -> err_at cexp lam u0 tEnd N (nth 0 us i) i <=
      `|u0| * toC ((conv_const n p BA Bb r + round_const n Bb r) / N%:R ^+ p + conv_const n p BA Bb r * eps).
Proof.
move=> h; have [us eu [su hu]] := C87_total; exists us => //; split=> // i iN.
apply: (le_trans (hu i iN)); apply: ler_wpmul2l => //; rewrite lecR mulrDr mulrDl -addrA [X in _ <= X]addrAC -[X in _ <= X]addrA.
have Np : 0 < N%:R :> R by rewrite ltr0n; apply: leq_trans N2.
apply: ler_add => //; apply: ler_add => //.
apply: ler_wpmul2l.
  apply: mulr_ge0; last by apply/rleE; left; exact: exp_pos.
  by rewrite addr_ge0 ?ler01 // !mulr_ge0 ?ler0n.
by rewrite -[X in _ <= X]mul1r ler_pdivl_mulr ?exprn_gt0 // mulrAC -exprS.
Qed.
End Total.

(* every registered scheme, stored with error e: the declared order *)
Theorem C87_registered (s : CC) sc (r : R) : List.In sc schemes -> root_of s sc ->
  let t := scheme_table s sc in
  exists (hi : R) (N0 : nat), forall t' we a (e : R) lam u0 tEnd N, `|lam * tEnd| <= toC r -> (N0 <= N)%N ->
  0 <= e -> N%:R * e <= 1 -> stored (toC e) t t' -> accurate (toC e) a ->
  exists2 us, computed a t' we lam u0 tEnd N = Ok us &
    size us = N.+1 /\ forall i, (i <= N)%N -> err_at cexp lam u0 tEnd N (nth 0 us i) i <=
      `|u0| * (toC hi * (N%:R ^- torder t + tol CC (s_name sc) + N%:R * toC e)).
Proof.
move=> i rt t; have [sb [sh _]] := C34_tables_consistent i rt; rewrite -/t in sb sh.
have [BA eA _] := ge0_toC (mnorm_ge0 (tA t)); have [Bb eb _] := ge0_toC (vnorm1_ge0 (tb t)).
have [eps ee /andP [eps0 eps1]] := tol_real (s_name sc).
pose n := size (tc t); pose p := torder t.
have [N1 [_ h1]] := arch (4%:R * (1 + `|BA|) * r).
pose C := conv_const n p BA Bb r; pose D := round_const n Bb r.
exists (Num.max `|C| D), (maxn N1 (100 * n.+1)) => t' we a e lam u0 tEnd N hr.
rewrite geq_max => /andP [l1 l2] e0 Ne st ac.
have mom k : (k < p)%N -> `|moment n (tA t) (tb t) k - (k.+1`!)%:R^-1| <= toC eps.
  by move=> kp; rewrite -ee /n -{1}sb; apply: C35_linear_order.
have bA : mnorm (tA t) <= toC BA by rewrite eA.
have bb : vnorm1 (tb t) <= toC Bb by rewrite eb.
have [us eu [su hu]] := C87_total we u0 sh (erefl _) sb bA bb eps0 eps1 mom hr (h1 _ l1) l2 e0 Ne st ac.
exists us => //; split=> // j jN; apply: (le_trans (hu j jN)); apply: ler_wpmul2l => //.
rewrite ee -[N%:R * toC e](_ : toC (N%:R * e) = _); last by rewrite rmorphM rmorph_nat.
rewrite -[N%:R ^- torder t](_ : toC (N%:R ^- p) = _); last by rewrite fmorphV rmorphX rmorph_nat.
rewrite -!rmorphD -rmorphM lecR -/C -/D mulrDr; apply: ler_add; apply: ler_wpmul2r.
- by rewrite addr_ge0 // invr_ge0 exprn_ge0 // ler0n.
- by rewrite le_maxr ler_norm.
- by rewrite mulr_ge0 // ler0n.
by rewrite le_maxr lexx orbT.
Qed.

(* ... and with the embedded weights: the declared embedded order, except for the scheme that does
   not have it (C35_embedded_order_refuted) *)
Theorem C87_embedded (s : CC) sc b2 (r : R) : List.In sc schemes -> root_of s sc ->
  s_name sc <> "ARK548L2SAESDIRK"%string ->
  let t := scheme_table s sc in tb2 t = Some b2 ->
  exists (hi : R) (N0 : nat), forall t' a (e : R) lam u0 tEnd N, `|lam * tEnd| <= toC r -> (N0 <= N)%N ->
  0 <= e -> N%:R * e <= 1 -> stored (toC e) t t' -> accurate (toC e) a ->
  exists2 us, r_solveDahlquist (ar_add a) (ar_sub a) (ar_mul a) (ar_div a) (ar_dot a) (ar_solve a)
      (tc t') (tb t') (rk_embedded (rk_of t')) (tA t') lam u0 tEnd N%:Z true = Ok us &
    size us = N.+1 /\ forall i, (i <= N)%N -> err_at cexp lam u0 tEnd N (nth 0 us i) i <=
      `|u0| * (toC hi * (N%:R ^- torderE t + tol CC (s_name sc) + N%:R * toC e)).
Proof.
move=> i rt nm t hb; have [_ [sh [_ [h2 _]]]] := C34_tables_consistent i rt; rewrite -/t in sh h2.
have [sb _] := h2 b2 hb.
have [BA eA _] := ge0_toC (mnorm_ge0 (tA t)); have [Bb eb _] := ge0_toC (vnorm1_ge0 b2).
have [eps ee /andP [eps0 eps1]] := tol_real (s_name sc).
pose n := size (tc t); pose p := torderE t.
have [N1 [_ h1]] := arch (4%:R * (1 + `|BA|) * r).
pose C := conv_const n p BA Bb r; pose D := round_const n Bb r.
exists (Num.max `|C| D), (maxn N1 (100 * n.+1)) => t' a e lam u0 tEnd N hr.
rewrite geq_max => /andP [l1 l2] e0 Ne st ac.
have mom k : (k < p)%N -> `|moment n (tA t) b2 k - (k.+1`!)%:R^-1| <= toC eps.
  move=> kp; rewrite -ee -(elemw_tall k sh sb) -tdens_tall; apply: (C35_embedded_order_conditions i rt nm hb).
  by rewrite tsize_tall.
have bA : mnorm (tA t) <= toC BA by rewrite eA.
have bb : vnorm1 b2 <= toC Bb by rewrite eb.
have [s1 s2 s3 s4 _] := st; move: s4; rewrite hb /=; case eb' : (tb2 t') => [b2'|] // s4.
pose te := @Table CC (tA t) b2 (tc t) None 0 0; pose te' := @Table CC (tA t') b2' (tc t') None 0 0.
have ste : stored (toC e) te te' by [].
have [us eu [su hu]] := C87_total (t := te) (Raise NotImplementedError) u0 sh (erefl _) sb bA bb eps0 eps1 mom hr (h1 _ l1) l2 e0 Ne ste ac.
exists us; first by rewrite -eu /rk_embedded /= eb'.
split=> // j jN; apply: (le_trans (hu j jN)); apply: ler_wpmul2l => //.
rewrite ee -[N%:R * toC e](_ : toC (N%:R * e) = _); last by rewrite rmorphM rmorph_nat.
have -> : N%:R ^- torderE t = toC (N%:R ^- p) by rewrite fmorphV rmorphX rmorph_nat.
rewrite -!rmorphD -rmorphM lecR -/n -/C -/D [X in _ <= X]mulrDr; apply: ler_add; apply: ler_wpmul2r.
- by rewrite addr_ge0 // invr_ge0 exprn_ge0 // ler0n.
- by rewrite le_maxr ler_norm.
- by rewrite mulr_ge0 // ler0n.
by rewrite le_maxr lexx orbT.
Qed.

(* every collocation method over the real numbers, its coefficients stored with error e *)
Section Coll.
Variable underflow : seq r_realFieldType -> bool.
Notation RF := r_realFieldType.
Notation eighR := (@eigh_ref r_rcfType).
Notation gaussR := (@gauss_ref r_rcfType).
Notation collR := (coll_init (F := RF) PI eighR sqrt ln exp underflow gaussR gaussR (fun k : nat => computeFejerRule k)).
Variables (nt qt : string) (M : nat) (s : seq RF).
Hypotheses (hnt : nt \in NODE_TYPES) (hqt : qt \in QUAD_TYPES) (hM : (least_nodes qt <= M)%N).
Hypothesis es : getNodes (F := RF) PI eighR sqrt (NodesGen nt qt) M%:Z = Ok s.
Hypothesis sep : separated 0 1 s.
Theorem C87_collocation (r : R) : exists c Q w p,
  [/\ collR M%:Z nt qt 0 1 = Ok c, co_Q c = fmat Q, co_weights c = map (@Fin RF) w & coll_order c = Some p] /\
  exists (hi : R) (N0 : nat), forall t' we a (e : R) lam u0 tEnd N, `|lam * tEnd| <= toC r -> (N0 <= N)%N ->
  0 <= e -> N%:R * e <= 1 ->
  stored (toC e) (@Table CC (map (map toC) Q) (map toC w) (map toC (co_nodes c)) None p 0) t' -> accurate (toC e) a ->
  exists2 us, computed a t' we lam u0 tEnd N = Ok us &
    size us = N.+1 /\ forall i, (i <= N)%N -> err_at cexp lam u0 tEnd N (nth 0 us i) i <=
      `|u0| * toC (hi * (N%:R ^- p + N%:R * e)).
Proof.
have [c [Q [w [p [[_ _ _ ec] [[eQ ew ep _] [shQ zw zn mom]]]]]]] := coll_facts underflow hnt hqt hM es sep.
exists c, Q, w, p; split=> //.
pose Q' := map (map toC) Q; pose w' := map toC w.
have [BA eA _] := ge0_toC (mnorm_ge0 Q'); have [Bb eb _] := ge0_toC (vnorm1_ge0 w').
have [N1 [_ h1]] := arch (4%:R * (1 + `|BA|) * r).
pose C := conv_const M p BA Bb r; pose D := round_const M Bb r.
exists (Num.max `|C| D), (maxn N1 (100 * M.+1)) => t' we a e lam u0 tEnd N hr.
rewrite geq_max => /andP [l1 l2] e0 Ne st ac.
have mom' k : (k < p)%N -> `|moment M Q' w' k - (k.+1`!)%:R^-1| <= toC 0.
  by move=> kp; rewrite (moment_map toC k shQ zw) (mom k kp) fmorphV rmorph_nat subrr normr0 rmorph0.
have sQ' : is_shape Q' M M by apply: map_shape.
have sn : size (map toC (co_nodes c)) = M by rewrite size_map.
have sw : size w' = M by rewrite size_map.
have bA : mnorm Q' <= toC BA by rewrite eA.
have bb : vnorm1 w' <= toC Bb by rewrite eb.
have [us eu [su hu]] := C87_total (t := @Table CC Q' w' (map toC (co_nodes c)) None p 0) we u0 sQ' sn sw bA bb (lexx _) ler01 mom' hr (h1 _ l1) l2 e0 Ne st ac.
exists us => //; split=> // j jN; apply: (le_trans (hu j jN)); apply: ler_wpmul2l => //.
rewrite lecR -/C -/D addr0 mulrDr; apply: ler_add; apply: ler_wpmul2r.
- by rewrite invr_ge0 exprn_ge0 // ler0n.
- by rewrite le_maxr ler_norm.
- by rewrite mulr_ge0 // ler0n.
by rewrite le_maxr lexx orbT.
Qed.
End Coll.
Print Assumptions C87_total.
Print Assumptions C87_order.
Print Assumptions C87_registered.
Print Assumptions C87_embedded.
Print Assumptions C87_collocation.

(* float64 on the real and imaginary parts of complex numbers *)
Definition f64C (z : CC) : CC := let: Complex x y := z in Complex (f64 x) (f64 y).
Lemma f64C_near z : `|f64C z - z| <= toC u64 * `|z|.
Proof.
have [/andP [u0 _] h _ _] := C79_float64; case: z => x y.
have u2 : 0 <= (u64 : R) ^+ 2 by exact: exprn_ge0.
rewrite -[f64C _ - _]/(Complex (f64 x - x) (f64 y - y) : CC) !normc_def /= -rmorphM lecR.
have -> : (u64 : R) = Num.sqrt ((u64 : R) ^+ 2) by rewrite sqrtr_sqr ger0_norm.
rewrite -sqrtrM // ler_wsqrtr // mulrDr; apply: ler_add; rewrite -exprMn -real_normK ?num_real // -[X in _ <= X]real_normK ?num_real //.
  by apply: ler_expn2r; rewrite ?nnegrE // normrM (ger0_norm u0).
by apply: ler_expn2r; rewrite ?nnegrE // normrM (ger0_norm u0).
Qed.
Definition arith64 : arith CC := Arith (fun x y => f64C (x + y)) (fun x y => f64C (x - y))
  (fun x y => f64C (x * y)) (fun x y => f64C (x / y)) (fun x y => f64C (dot x y)) (@solve CC).
Lemma accurate64 : accurate (toC u64) arith64.
Proof.
have [/andP [u0 _] _ _ _] := C79_float64; have u0' : 0 <= toC u64 by rewrite ler0c.
split; [by move=> x y; apply: f64C_near|by move=> x y; apply: f64C_near| | |exact: stable_mono u0' (@solve_stable CC)].
  by split=> x y; apply: f64C_near.
move=> x y sxy; apply: (le_trans (f64C_near _)); apply: ler_wpmul2l => //.
by rewrite (dotE (erefl _) (esym sxy)); apply: ler_norm_sum.
Qed.
(* RK4 for u' = -u on [0, 1], the table and all operations in float64, between 500 and 2^53 steps *)
Example C87_nonvacuous : let t := scheme_table (sqrtC 2%:R : CC) s_RK4 in
  forall N, (500 <= N)%N -> N%:R * (u64 : R) <= 1 ->
  exists2 us, computed arith64 (round_table f64C t) (Raise NotImplementedError) (- 1) 1 1 N = Ok us &
    size us = N.+1 /\ forall i, (i <= N)%N -> err_at cexp (- 1) 1 1 N (nth 0 us i) i <=
      toC (conv_const 4 4 2%:R 1 1 / N%:R ^+ 4 + round_const 4 1 1 * (N%:R * u64)).
Proof.
move=> t N l5 Nu; have [i [rt [tl ot]]] := C76_nonvacuous.
have [/andP [u0 _] _ _ _] := C79_float64.
have [sb [sh _]] := C34_tables_consistent i rt; rewrite -/t in sb sh.
have n4 : size (tc t) = 4%N by [].
have mom k : (k < 4)%N -> `|moment 4 (tA t) (tb t) k - (k.+1`!)%:R^-1| <= toC 0.
  by move=> kp; rewrite rmorph0 -tl -[X in moment X]sb; apply: C35_linear_order; rewrite ?ot.
have v (q : Qc) : q2v (sqrtC 2%:R : CC) (@Q2 2 q 0) = qcr CC q by rewrite /q2v /= rmorph0 mul0r addr0.
have v0 : `|q2v (sqrtC 2%:R : CC) (@n0 2)| = 0 by rewrite v rmorph0 normr0.
have v1 : `|q2v (sqrtC 2%:R : CC) (@n1 2)| = 1 by rewrite v rmorph1 normr1.
have vf (q : positive) : `|q2v (sqrtC 2%:R : CC) (@Butcher.r 2 1 q)| = (Pos.to_nat q)%:R^-1.
  by rewrite v qcrE /zr /posr mul1r ger0_norm // invr_ge0 ler0n.
have v12 : `|q2v (sqrtC 2%:R : CC) (@Butcher.r 2 1 2)| = 2%:R^-1 := vf 2%positive.
have v16 : `|q2v (sqrtC 2%:R : CC) (@Butcher.r 2 1 6)| = 6%:R^-1 := vf 6%positive.
have v13 : `|q2v (sqrtC 2%:R : CC) (@Butcher.r 2 1 3)| = 3%:R^-1 := vf 3%positive.
have bA : mnorm (tA t) <= toC 2%:R.
  rewrite rmorph_nat /mnorm /t /scheme_table /= !big_cons !big_nil v0 v1 v12.
  by rewrite le_eqVlt; apply/orP; left; apply/eqP; field.
have bb : vnorm1 (tb t) <= toC 1.
  rewrite rmorph1 /vnorm1 /t /scheme_table /= !big_cons !big_nil v16 v13.
  by rewrite le_eqVlt; apply/orP; left; apply/eqP; field.
have hr : `|- 1 * 1| <= toC 1 by rewrite mulr1 normrN normr1 rmorph1.
have hv (y : seq CC) : stored_vec (toC u64) y (map f64C y).
  by elim: y => [|x y ih]; constructor => //; apply: f64C_near.
have hm (A : seq (seq CC)) : stored_mat (toC u64) A (map (map f64C) A).
  by elim: A => [|x A ih]; constructor => //; apply: hv.
have st : stored (toC u64) t (round_table f64C t) by split; [exact: hm|exact: hv|exact: hv| |].
have N1 : 4%:R * (1 + `|2%:R|) * 1 <= N%:R :> R.
  rewrite ger0_norm ?ler0n // mulr1 -[1 + _]/(1%:R + 2%:R) -natrD -natrM ler_nat; exact: leq_trans l5.
have [us eu [su hu]] := C87_total (Raise NotImplementedError) 1 sh n4 sb bA bb (lexx _) ler01 mom hr N1 l5 u0 Nu st accurate64.
by exists us => //; split=> // j jN; have := hu j jN; rewrite normr1 mul1r addr0.
Qed.
