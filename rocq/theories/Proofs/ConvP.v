(* From the error of one step to the error after many steps. *)
From Coq Require Import Reals.
From Verif.Base Require Import Str.
From mathcomp Require Import all_ssreflect all_algebra ring zify complex.
From Verif.Base Require Import RField RRcf ExpTaylor.
From Verif.Spec Require Import QCoeffSpec SdcSpec ConvSpec.
From Verif.Proofs Require Import CExpP.
Set Implicit Arguments.
Unset Strict Implicit.
Unset Printing Implicit Defensive.
Import GRing.Theory Num.Theory Order.TTheory.
Local Open Scope ring_scope.
Bind Scope ring_scope with R.

Lemma pow_diff (K : numFieldType) (a b m : K) i : 1 <= m -> `|a| <= m -> `|b| <= m ->
  `|a ^+ i - b ^+ i| <= i%:R * `|a - b| * m ^+ i.
Proof.
move=> m1 ha hb; have m0 : 0 <= m by apply: le_trans m1; exact: ler01.
elim: i => [|i ih]; first by rewrite !expr0 subrr normr0 !mul0r.
have -> : a ^+ i.+1 - b ^+ i.+1 = a * (a ^+ i - b ^+ i) + (a - b) * b ^+ i by rewrite !exprS; ring.
apply: (le_trans (ler_norm_add _ _)); rewrite !normrM normrX.
have -> : i.+1%:R * `|a - b| * m ^+ i.+1 = m * (i%:R * `|a - b| * m ^+ i) + `|a - b| * m ^+ i.+1.
  by rewrite exprS -addn1 natrD; ring.
rewrite ler_add //; first by rewrite ler_pmul.
rewrite ler_wpmul2l //; apply: (le_trans (ler_expn2r i _ _ hb)); rewrite ?nnegrE //.
by rewrite exprS ler_pemull // exprn_ge0.
Qed.

Lemma cexp0 : cexp 0 = 1.
Proof. by rewrite /cexp /= exp_0 cos_0 sin_0 mulr1 mulr0. Qed.
Lemma cexpX (z : CC) i : cexp (i%:R * z) = cexp z ^+ i.
Proof.
elim: i => [|i ih]; first by rewrite mul0r cexp0.
by rewrite exprS -ih -cexpD; congr cexp; rewrite -[in LHS]addn1 natrD; ring.
Qed.
Lemma exp_mono (x y : R) : x <= y -> exp x <= exp y.
Proof.
by move/rleE => [h|->]; apply/rleE; [left; apply: exp_increasing|right].
Qed.
Lemma expD (x y : R) : exp (x + y) = exp x * exp y. Proof. exact: exp_plus. Qed.
Lemma growth (y : R) i : 0 <= y -> (1 + y) ^+ i <= exp (i%:R * y).
Proof.
move=> y0; elim: i => [|i ih]; first by rewrite expr0 mul0r exp_0.
have -> : exp (i.+1%:R * y) = exp y * exp (i%:R * y).
  by rewrite -expD; congr exp; rewrite -[in LHS]addn1 natrD mulrDl mul1r addrC.
rewrite exprS ler_pmul ?exprn_ge0 // ?addr_ge0 ?ler01 //.
by apply/rleE; apply: exp_ineq1_le.
Qed.

Notation e4 := (4%:R * exp 1 : R).
Lemma cexp_bound (z : CC) : `|z| <= 1 -> `|cexp z| <= 1 + toC e4 * `|z|.
Proof.
move=> z1; have := cexp_taylor 0 z1; rewrite {1}/expser big_ord1 expr0 divr1 expr1 => h.
have {1}-> : cexp z = 1 + (cexp z - 1) by rewrite addrC subrK.
apply: (le_trans (ler_norm_add _ _)); rewrite normr1 ler_add2l; apply: (le_trans h).
by rewrite expr1 (_ : 2%:R * exp 1 * 2%:R = e4 :> R) //; ring.
Qed.

Section Global.
Variables (f : CC -> CC) (p : nat) (C eps delta : R).
Hypothesis C0 : 0 <= C.
Hypothesis eps0 : 0 <= eps.
Hypothesis delta1 : delta <= 1.
Hypothesis loc : forall z : CC, `|z| <= toC delta ->
  `|f z - cexp z| <= toC C * `|z| ^+ p.+1 + toC eps * `|z|.
Variables (lam u0 tEnd : CC) (N : nat) (r : R).
Hypothesis N0 : (0 < N)%N.
Hypothesis er : `|lam * tEnd| = toC r.
Hypothesis small : r <= N%:R * delta.
Let z := lam * (tEnd / N%:R).

Lemma r_pos : 0 <= r. Proof. by rewrite -ler0c -/(toC r) -er. Qed.
Lemma N_pos : 0 < N%:R :> R. Proof. by rewrite ltr0n. Qed.
Lemma zE : `|z| = toC (r / N%:R).
Proof. by rewrite /z mulrA normrM er normfV normr_nat rmorphM fmorphV rmorph_nat. Qed.

Theorem global i : (i <= N)%N ->
  `|f z ^+ i * u0 - u0 * cexp (lam * (i%:R * (tEnd / N%:R)))| <=
  `|u0| * toC (exp (r * (e4 + C + eps)) * (C * r ^+ p.+1 / N%:R ^+ p + eps * r)).
Proof.
move=> iN; have r0 := r_pos; have n0 := N_pos.
have e40 : 0 <= e4 by rewrite mulr_ge0 ?ler0n //; apply/rleE; left; exact: exp_pos.
have -> : cexp (lam * (i%:R * (tEnd / N%:R))) = cexp z ^+ i by rewrite -cexpX; congr cexp; rewrite /z mulrCA.
rewrite [u0 * _]mulrC -mulrBl normrM mulrC; apply: ler_wpmul2l => //.
pose x := r / N%:R; have x0 : 0 <= x by rewrite divr_ge0 // ltW.
have xd : x <= delta by rewrite /x ler_pdivr_mulr // mulrC.
have hz : `|z| <= toC delta by rewrite zE lecR.
have z1 : `|z| <= 1 by apply: (le_trans hz); rewrite -(rmorph1 toC) lecR.
have x1 : x <= 1 by apply: le_trans delta1.
have d := loc hz; rewrite zE -/x in d.
have d' : `|f z - cexp z| <= toC (C * x ^+ p.+1 + eps * x).
  by apply: (le_trans d); rewrite -rmorphX -!rmorphM -rmorphD.
pose y := (e4 + C + eps) * x; have y0 : 0 <= y by rewrite mulr_ge0 ?addr_ge0.
have mb : `|cexp z| <= toC (1 + y).
  apply: (le_trans (cexp_bound z1)); rewrite zE -/x -rmorphM -(rmorph1 toC) -rmorphD lecR ler_add2l.
  by rewrite /y ler_wpmul2r // -addrA ler_addl addr_ge0.
have ma : `|f z| <= toC (1 + y).
  have -> : f z = cexp z + (f z - cexp z) by rewrite addrC subrK.
  apply: (le_trans (ler_norm_add _ _)); apply: (le_trans (ler_add (cexp_bound z1) d')).
  rewrite zE -/x -rmorphM -(rmorph1 toC) -!rmorphD lecR -addrA ler_add2l.
  have -> : y = e4 * x + (C * x + eps * x) by rewrite /y; ring.
  rewrite ler_add2l ler_add2r ler_wpmul2l // exprS ler_pimulr //.
  exact: exprn_ile1.
have m1 : 1 <= toC (1 + y) by rewrite -(rmorph1 toC) lecR ler_addl.
apply: (le_trans (pow_diff i m1 ma mb)); rewrite -rmorphX.
have g : (1 + y) ^+ i <= exp (r * (e4 + C + eps)).
  apply: (le_trans (growth i y0)); apply: exp_mono.
  have -> : r * (e4 + C + eps) = N%:R * y.
    by rewrite /y mulrCA /x [N%:R * _]mulrC divfK ?gt_eqF // mulrC.
  by rewrite ler_wpmul2r // ler_nat.
have E : C * r ^+ p.+1 / N%:R ^+ p + eps * r = N%:R * (C * x ^+ p.+1 + eps * x).
  have nz : N%:R != 0 :> R by rewrite gt_eqF.
  rewrite /x exprMn exprVn !exprS; move: (r ^+ p) (N%:R ^+ p) (expf_neq0 p nz) => a b b0.
  by move: (N%:R : R) nz => n nz; field; rewrite b0 nz.
rewrite E rmorphM [toC (N%:R * _)]rmorphM mulrC; apply: ler_pmul.
- by rewrite ler0c exprn_ge0 // addr_ge0 // ler01.
- by rewrite mulr_ge0 ?ler0n.
- by rewrite lecR.
by rewrite rmorph_nat; apply: ler_pmul => //; rewrite ?ler0n // ler_nat.
Qed.
End Global.

Lemma pow_diff2 (K : numFieldType) (a b m : K) i : 1 <= m -> `|a| <= m -> `|b| <= m ->
  `|a ^+ i.+1 - b ^+ i.+1 - i.+1%:R * (a - b) * b ^+ i| <= i.+1%:R ^+ 2 * `|a - b| ^+ 2 * m ^+ i.
Proof.
move=> m1 ha hb; have m0 : 0 <= m by apply: le_trans m1; exact: ler01.
elim: i => [|i ih].
  by rewrite !expr1 !expr0 mulr1 mul1r subrr normr0 mulr1 expr1n mul1r exprn_ge0.
have -> : a ^+ i.+2 - b ^+ i.+2 - i.+2%:R * (a - b) * b ^+ i.+1 =
  a * (a ^+ i.+1 - b ^+ i.+1 - i.+1%:R * (a - b) * b ^+ i) + i.+1%:R * (a - b) ^+ 2 * b ^+ i.
  have -> : i.+2%:R = i.+1%:R + 1 :> K by rewrite -[in LHS]addn1 natrD.
  by move: (i.+1%:R : K) => n; rewrite !exprS; ring.
apply: (le_trans (ler_norm_add _ _)); rewrite !normrM !normrX normr_nat.
set d := `|a - b|; have d0 : 0 <= d by rewrite normr_ge0.
apply: (@le_trans _ _ (m * (i.+1%:R ^+ 2 * d ^+ 2 * m ^+ i) + i.+1%:R * d ^+ 2 * m ^+ i.+1)).
  apply: ler_add; first by rewrite ler_pmul.
  rewrite ler_wpmul2l ?mulr_ge0 ?ler0n ?exprn_ge0 // (@le_trans _ _ (m ^+ i)) //.
    by rewrite ler_expn2r // nnegrE.
  by rewrite exprS ler_pemull ?exprn_ge0.
have -> : m * (i.+1%:R ^+ 2 * d ^+ 2 * m ^+ i) + i.+1%:R * d ^+ 2 * m ^+ i.+1 =
  (i.+1%:R ^+ 2 + i.+1%:R) * (d ^+ 2 * m ^+ i.+1).
  by rewrite [m ^+ i.+1]exprS; move: (i.+1%:R : K) (m ^+ i) => n y; ring.
rewrite -[X in _ <= X]mulrA ler_wpmul2r ?mulr_ge0 ?exprn_ge0 //.
by rewrite -natrX -natrD -natrX ler_nat; nia.
Qed.

Section Principal.
Variables (f : CC -> CC) (p : nat) (c : CC) (c1 C delta : R).
Hypothesis p0 : (0 < p)%N.
Hypothesis C0 : 0 <= C.
Hypothesis ec : `|c| = toC c1.
Hypothesis delta1 : delta <= 1.
Hypothesis loc : forall z : CC, `|z| <= toC delta ->
  `|f z - cexp z - c * z ^+ p.+1| <= toC C * `|z| ^+ p.+2.
Variables (Z : CC) (N : nat) (r : R).
Hypothesis N0 : (0 < N)%N.
Hypothesis er : `|Z| <= toC r.
Hypothesis small : r <= N%:R * delta.
Let D := c1 + C.

Theorem principal :
  `|f (Z / N%:R) ^+ N - cexp Z - c * Z ^+ p.+1 * cexp Z / N%:R ^+ p| <=
  toC (exp (r * (e4 + D)) * (D ^+ 2 * r ^+ (p.+1 + p.+1) + (C + c1 * e4) * r ^+ p.+2) / N%:R ^+ p.+1).
Proof.
have n0 := N_pos N0.
have c10 : 0 <= c1 by rewrite -ler0c -/(toC c1) -ec.
have D0 : 0 <= D by rewrite addr_ge0.
have e40 : 0 <= e4 by rewrite mulr_ge0 ?ler0n //; apply/rleE; left; exact: exp_pos.
have r0 : 0 <= r by rewrite -ler0c -/(toC r); apply: le_trans er.
set z := Z / N%:R; pose x := r / N%:R; have x0 : 0 <= x by rewrite divr_ge0 // ltW.
have hzx : `|z| <= toC x.
  by rewrite /z /x normrM normfV normr_nat rmorphM fmorphV rmorph_nat ler_wpmul2r // invr_ge0 ler0n.
have xd : x <= delta by rewrite /x ler_pdivr_mulr // mulrC.
have hz : `|z| <= toC delta by apply: (le_trans hzx); rewrite lecR.
have z1 : `|z| <= 1 by apply: (le_trans hz); rewrite -(rmorph1 toC) lecR.
have x1 : x <= 1 by apply: le_trans delta1.
have zp k : `|z| ^+ k <= toC (x ^+ k).
  by rewrite rmorphX; apply: ler_expn2r => //; rewrite nnegrE // ler0c.
have nz : N%:R != 0 :> CC by rewrite pnatr_eq0 -lt0n.
have eN : cexp Z = cexp z ^+ N by rewrite -cexpX /z mulrC divfK.
rewrite eN; set a := f z; set b := cexp z.
have d1 : `|a - b - c * z ^+ p.+1| <= toC (C * x ^+ p.+2).
  by apply: (le_trans (loc hz)); rewrite rmorphM ler_wpmul2l // ler0c.
have d2 : `|c * z ^+ p.+1| <= toC (c1 * x ^+ p.+1).
  by rewrite normrM normrX ec rmorphM ler_wpmul2l // ler0c.
have d : `|a - b| <= toC (D * x ^+ p.+1).
  have -> : a - b = c * z ^+ p.+1 + (a - b - c * z ^+ p.+1) by rewrite [RHS]addrC subrK.
  apply: (le_trans (ler_norm_add _ _)); apply: (le_trans (ler_add d2 d1)).
  rewrite -rmorphD lecR /D mulrDl ler_add2l ler_wpmul2l // exprS ler_pimull //.
  exact: exprn_ge0.
pose y := (e4 + D) * x; have y0 : 0 <= y by rewrite mulr_ge0 ?addr_ge0.
have bb : `|1 - b| <= toC (e4 * x).
  have := cexp_taylor 0 z1; rewrite {1}/expser big_ord1 expr0 divr1 !expr1 distrC -/b => h.
  apply: (le_trans h); rewrite (_ : 2%:R * exp 1 * 2%:R = e4 :> R); last by ring.
  by rewrite [toC (_ * x)]rmorphM ler_wpmul2l // ler0c.
have mb : `|b| <= toC (1 + y).
  have -> : b = 1 - (1 - b) by ring.
  apply: (le_trans (ler_norm_sub _ _)); rewrite normr1 rmorphD rmorph1 ler_add2l.
  by apply: (le_trans bb); rewrite lecR /y ler_wpmul2r // ler_addl.
have ma : `|a| <= toC (1 + y).
  have -> : a = 1 - (1 - b) + (a - b) by ring.
  apply: (le_trans (ler_norm_add _ _)).
  apply: (@le_trans _ _ (1 + toC (e4 * x) + toC (D * x ^+ p.+1))).
    apply: ler_add => //; apply: (le_trans (ler_norm_sub _ _)); by rewrite normr1 ler_add2l.
  rewrite -(rmorph1 toC) -!rmorphD lecR -addrA ler_add2l.
  have -> : y = e4 * x + D * x by rewrite /y; move: D => q; ring.
  rewrite ler_add2l ler_wpmul2l //; by rewrite exprS ler_pimulr // exprn_ile1.
have m1 : 1 <= toC (1 + y) by rewrite -(rmorph1 toC) lecR ler_addl.
have m0 : 0 <= toC (1 + y) by apply: le_trans m1; exact: ler01.
have Ex : exists i, N = i.+1 by exists N.-1; rewrite prednK.
case: Ex => i eNi.
set G := exp (r * (e4 + D)).
have g : toC ((1 + y) ^+ i) <= toC G.
  rewrite lecR; apply: (le_trans (growth i y0)); apply: exp_mono.
  have -> : r * (e4 + D) = N%:R * y.
    by rewrite /y mulrCA /x [N%:R * _]mulrC divfK ?gt_eqF // mulrC.
  by rewrite ler_wpmul2r // ler_nat eNi.
have gb : `|b ^+ i| <= toC G.
  by rewrite normrX; apply: le_trans g; rewrite rmorphX; apply: ler_expn2r => //; rewrite nnegrE.
have G0 : 0 <= G by apply/rleE; left; exact: exp_pos.
pose T1 := a ^+ N - b ^+ N - N%:R * (a - b) * b ^+ i.
pose T2 := N%:R * ((a - b - c * z ^+ p.+1) * b ^+ i).
pose T3 := N%:R * ((c * z ^+ p.+1) * (1 - b) * b ^+ i).
have -> : a ^+ N - b ^+ N - c * Z ^+ p.+1 * b ^+ N / N%:R ^+ p = T1 + (T2 + T3).
  have -> : c * Z ^+ p.+1 * b ^+ N / N%:R ^+ p = N%:R * (c * z ^+ p.+1 * b ^+ N).
    rewrite /z exprMn exprVn [N%:R ^+ p.+1]exprS; have := expf_neq0 p nz.
    move: (N%:R ^+ p) (Z ^+ p.+1) (b ^+ N) nz => u v w; move: (N%:R : CC) => n nz uz.
    by field; rewrite nz uz.
  rewrite /T1 /T2 /T3 eNi [b ^+ i.+1]exprS; move: (a ^+ i.+1) (b ^+ i) (c * z ^+ p.+1) (i.+1%:R : CC) => u v w n.
  by ring.
have b1 : `|T1| <= toC (N%:R ^+ 2 * (D * x ^+ p.+1) ^+ 2 * G).
  rewrite /T1 {2}eNi [in X in X * b ^+ _]eNi eNi.
  apply: (le_trans (pow_diff2 i m1 ma mb)); rewrite [toC (_ * G)]rmorphM.
  apply: ler_pmul.
  - by rewrite mulr_ge0 // exprn_ge0 // ler0n.
  - by rewrite exprn_ge0.
  - rewrite rmorphM [toC (_ ^+ 2)]rmorphX rmorph_nat ler_wpmul2l ?exprn_ge0 ?ler0n //.
    rewrite [toC (_ ^+ 2)]rmorphX ler_expn2r // nnegrE // ler0c mulr_ge0 // exprn_ge0 //.
  by rewrite -rmorphX.
have b2 : `|T2| <= toC (N%:R * (C * x ^+ p.+2 * G)).
  rewrite /T2 normrM normr_nat rmorphM rmorph_nat ler_wpmul2l ?ler0n // normrM rmorphM.
  by apply: ler_pmul.
have b3 : `|T3| <= toC (N%:R * (c1 * x ^+ p.+1 * (e4 * x) * G)).
  rewrite /T3 normrM normr_nat rmorphM rmorph_nat ler_wpmul2l ?ler0n //.
  rewrite normrM rmorphM; apply: ler_pmul => //; rewrite normrM rmorphM; exact: ler_pmul.
apply: (le_trans (ler_norm_add _ _)); apply: (le_trans (ler_add b1 (le_trans (ler_norm_add _ _) (ler_add b2 b3)))).
rewrite -!rmorphD lecR.
have nz' : N%:R != 0 :> R by rewrite gt_eqF.
have -> : N%:R * (C * x ^+ p.+2 * G) + N%:R * (c1 * x ^+ p.+1 * (e4 * x) * G) =
  G * ((C + c1 * e4) * r ^+ p.+2) / N%:R ^+ p.+1.
  rewrite /x !exprMn !exprVn !exprS; move: (expf_neq0 p nz'); move: (N%:R ^+ p) (r ^+ p) nz' => u v.
  by move: (N%:R : R) (exp 1) => n w nz' uz; field; rewrite nz' uz.
have h1 : N%:R ^+ 2 * (D * x ^+ p.+1) ^+ 2 * G <= G * (D ^+ 2 * r ^+ (p.+1 + p.+1)) / N%:R ^+ p.+1.
  have -> : N%:R ^+ 2 * (D * x ^+ p.+1) ^+ 2 * G = G * (D ^+ 2 * r ^+ (p.+1 + p.+1)) / (N%:R ^+ p * N%:R ^+ p).
    rewrite /x exprD !exprMn !exprVn !exprS !expr0; move: (expf_neq0 p nz'); move: (N%:R ^+ p) (r ^+ p) nz' => u v.
    by move: (N%:R : R) => n nz' uz; field; rewrite nz' uz.
  rewrite ler_wpmul2l ?mulr_ge0 ?exprn_ge0 // lef_pinv ?posrE ?mulr_gt0 ?exprn_gt0 //.
  by rewrite -exprD; apply: ler_weexpn2l; [rewrite ler1n|rewrite -addn1 leq_add2l].
apply: (le_trans (ler_add h1 (lexx _))); rewrite -mulrDl -mulrDr.
exact: lexx.
Qed.
End Principal.
