(* Property C84: the Dahlquist solver in rounded arithmetic. *)
From Coq Require Import Reals Lra.
From Verif.Base Require Import Str.
From mathcomp Require Import all_ssreflect all_algebra ring zify.
From Verif.Base Require Import Outcome Arr LinSolve RField Float64.
From Verif.Model Require Import QGen RoundedSolve.
From Verif.Spec Require Import QCoeffSpec RoundSpec RoundSolveSpec.
From Verif.Proofs Require Import StabP RoundSolveP.
From Verif.Properties Require Import RKProps RoundProps.
Set Implicit Arguments.
Unset Strict Implicit.
Unset Printing Implicit Defensive.
Import GRing.Theory Num.Theory Order.TTheory.
Local Open Scope ring_scope.

Lemma nat100 n : ((20 * n + 10) * 5 <= 100 * n.+1)%N. Proof. lia. Qed.

Section Solve.
Variable K : numFieldType.
Variables (u ed es : K).
Variables cadd csub cmul cdiv : K -> K -> K.
Variable cdot : seq K -> seq K -> K.
Variable csolve : seq (seq K) -> seq K -> option (seq K).
Hypotheses (u0 : 0 <= u) (ed0 : 0 <= ed) (es0 : 0 <= es).
Hypotheses (hadd : op_near u cadd +%R) (hsub : op_near u csub (fun a b => a - b)).
Hypotheses (hmul : op_near u cmul *%R) (hdiv : op_near u cdiv (fun a b => a / b)).
Hypotheses (hdot : dot_near ed cdot) (hsol : backward_stable es csolve).
Variables (nodes w w' : seq K) (we : outcome (seq K)) (Q : seq (seq K)) (lam v0 T : K).
Variables (N n : nat) (b : bool).
Hypotheses (sQ : is_shape Q n n) (sn : size nodes = n) (sw : size w' = n) (ch : chosen w we b w').
Let z := lam * (T / N.+1%:R).
Let R := stabf n Q w' z.
Let run := r_solveDahlquist cadd csub cmul cdiv cdot csolve nodes w we Q lam v0 T N.+1%:Z b.
Let exact := solveDahlquist nodes w we Q lam v0 T N.+1%:Z b.

Theorem C84_solution beta : 0 <= beta -> inverse_bound (stagemx n Q z) beta ->
  stage_err u es (n%:R + `|z| * mnorm Q) beta < 1 ->
  let kap := step_err u ed es (n%:R + `|z| * mnorm Q) beta (vnorm1 w') z n in
  exists us vs, [/\ run = Ok us, exact = Ok vs, size us = N.+2 /\ size vs = N.+2 &
    forall i, (i < N.+2)%N -> nth 0 vs i = R ^+ i * v0 /\
      `|nth 0 us i - nth 0 vs i| <= ((`|R| + kap) ^+ i - `|R| ^+ i) * `|v0|].
Proof.
move=> b0 hb q1 kap.
have [us e [su h]] := loop_near u0 ed0 es0 hadd hsub hmul hdiv hdot hsol sQ sw b0 hb q1 v0 N.+1.
exists (v0 :: us), [seq R ^+ i * v0 | i <- iota 0 N.+2]; split.
- rewrite /run /r_solveDahlquist sn.
  have -> : (if b then we else Ok w) = Ok w' by move: ch; rewrite /chosen; case: b => ->.
  by rewrite /=; move: e; rewrite /= => ->.
- rewrite /exact (C32_stability_function _ _ _ _ sQ sn sw ch).
  have un : stagemx n Q z \in unitmx.
    apply: unitmx_inj => v ev; apply: nrm1_eq0; apply: le_anti; rewrite nrm1_ge0 andbT.
    by apply: (le_trans (hb v)); rewrite ev big1 ?mulr0 // => i _; rewrite mxE normr0.
  by move: un; rewrite unitmxE unitfE /stagemx -/z => /negbTE ->.
- by rewrite size_map size_iota /= su.
move=> i il; have -> : nth 0 [seq R ^+ i * v0 | i <- iota 0 N.+2] i = R ^+ i * v0.
  by rewrite (nth_map 0%N) ?size_iota // nth_iota.
split=> //; case: i il => [|i] il; first by rewrite !expr0 mul1r !subrr mul0r normr0.
exact: h.
Qed.

(* small steps, all errors at most e *)
Section Small.
Variable e : K.
Hypotheses (ue : u <= e) (ede : ed <= e) (ese : es <= e) (small : e * (100 * n.+1)%:R <= 1).
Hypothesis hz : `|z| * mnorm Q <= 2%:R^-1.
Let W := vnorm1 w'.
Let kap := e * (1 + 60%:R * n%:R * n.+1%:R * `|z| * W).

Let e0 : 0 <= e. Proof. exact: le_trans ue. Qed.
Lemma pw_lin2 (c : K) k : 0 <= c -> (2 * k)%:R * c <= 1 -> (1 + c) ^+ k - 1 <= (2 * k)%:R * c.
Proof.
move=> c0; elim: k => [|k ih] h; first by rewrite expr0 subrr mul0r.
have hk : (2 * k)%:R * c <= 1.
  by apply: le_trans h; rewrite ler_wpmul2r // ler_nat leq_mul2l leqnSn orbT.
rewrite ler_subl_addr in ih; rewrite ler_subl_addr exprS.
apply: le_trans (ler_wpmul2l (_ : 0 <= 1 + c) (ih hk)) _; first by rewrite addr_ge0 ?ler01.
have -> : (1 + c) * ((2 * k)%:R * c + 1) = (2 * k)%:R * c + c + 1 + (2 * k)%:R * c * c by ring.
have -> : (2 * k.+1)%:R * c + 1 = (2 * k)%:R * c + c + 1 + c by rewrite mulnS natrD; ring.
by rewrite ler_add2l -[X in _ <= X]mul1r ler_wpmul2r.
Qed.
Let e10 : e * 100%:R <= 1.
Proof. by apply: le_trans small; rewrite ler_wpmul2l // ler_nat leq_pmulr. Qed.
Let p5 (x y : K) : 0 <= x -> x <= e -> 0 <= y -> y <= e -> (1 + x) * (1 + y) ^+ 4 - 1 <= 10%:R * e.
Proof.
move=> x0 xe y0 ye; apply: le_trans (_ : (1 + e) ^+ 5 - 1 <= _).
  rewrite ler_add2r [_ ^+ 5]exprS; apply: ler_pmul; rewrite ?exprn_ge0 ?addr_ge0 ?ler01 ?ler_add2l //.
  by apply: ler_expn2r; rewrite ?nnegrE ?addr_ge0 ?ler01 ?ler_add2l.
apply: (@pw_lin2 e 5) => //; apply: le_trans e10; rewrite mulrC ler_wpmul2l // ler_nat.
by [].
Qed.
Let q := stage_err u es (n%:R + `|z| * mnorm Q) 2%:R.
Let a2 : n%:R + `|z| * mnorm Q <= n%:R + 2%:R^-1. Proof. by rewrite ler_add2l. Qed.
Let a0 : 0 <= n%:R + `|z| * mnorm Q. Proof. by rewrite addr_ge0 ?ler0n // mulr_ge0 ?mnorm_ge0. Qed.
Let q20 : q <= e * (20 * n + 10)%:R.
Proof.
apply: le_trans (_ : 2%:R * (10%:R * e * (n%:R + 2%:R^-1)) <= _).
  rewrite /q /stage_err; apply: ler_wpmul2l; first exact: ler0n.
  apply: le_trans (_ : 10%:R * e * (n%:R + `|z| * mnorm Q) <= _).
    by apply: ler_wpmul2r => //; apply: p5.
  by apply: ler_wpmul2l => //; rewrite mulr_ge0 ?ler0n.
by rewrite le_eqVlt; apply/orP; left; apply/eqP; rewrite natrD natrM; field.
Qed.
Let q5 : q <= 5%:R^-1.
Proof.
apply: (le_trans q20); rewrite -[X in _ <= X]mul1r ler_pdivl_mulr ?ltr0n // -mulrA -natrM.
apply: le_trans small; apply: ler_wpmul2l => //; rewrite ler_nat; exact: nat100.
Qed.
Let q1 : q < 1. Proof. by apply: (le_lt_trans q5); rewrite invf_lt1 ?ltr0n // ltr1n. Qed.
Let ib : inverse_bound (stagemx n Q z) 2%:R.
Proof.
move=> x; apply: (small_bound sQ hz); rewrite /stagemx mulmxBl mul1mx -scalemxAl subrK //.
Qed.
Let kap_le : step_err u ed es (n%:R + `|z| * mnorm Q) 2%:R W z n <= kap.
Proof.
rewrite /step_err -/q /kap [X in _ <= X]mulrDr mulr1; apply: ler_add => //.
have W0 : 0 <= W := vnorm1_ge0 w'.
have q0 : 0 <= q.
  rewrite /q /stage_err mulr_ge0 ?ler0n // mulr_ge0 // subr_ge0 mulr_ege1 ?ler_addl //.
  by rewrite exprn_ege1 // ler_addl.
have c1 : (1 + u) ^+ 4 * (1 + ed) - 1 <= 10%:R * e by rewrite mulrC; apply: p5.
have c2 : 2%:R * n%:R / (1 - q) <= 3%:R * n%:R.
  have h : 3%:R / 2%:R * (1 - q) >= 1.
    have -> : 3%:R / 2%:R * (1 - q) = 1 + (2%:R^-1 - 3%:R / 2%:R * q) by field.
    rewrite ler_addl subr_ge0; apply: le_trans (_ : 3%:R / 2%:R * 5%:R^-1 <= _).
      by apply: ler_wpmul2l => //; rewrite divr_ge0 ?ler0n.
    have -> : 3%:R / 2%:R * 5%:R^-1 = 2%:R^-1 - 5%:R^-1 :> K by field.
    by rewrite ler_subl_addr ler_addl invr_ge0 ler0n.
  rewrite ler_pdivr_mulr ?subr_gt0 //; have -> : 3%:R * n%:R * (1 - q) = 2%:R * n%:R * (3%:R / 2%:R * (1 - q)) by field.
  by apply: ler_pemulr => //; rewrite mulr_ge0 ?ler0n.
apply: le_trans (_ : `|z| * W * (3%:R * n%:R) * (10%:R * e + e * (20 * n + 10)%:R) <= _).
  apply: ler_pmul.
  - rewrite mulr_ge0 ?divr_ge0 ?mulr_ge0 ?ler0n // subr_ge0; exact: ltW.
  - by rewrite addr_ge0 // subr_ge0 mulr_ege1 ?ler_addl // exprn_ege1 // ler_addl.
  - by apply: ler_wpmul2l => //; rewrite mulr_ge0.
  by apply: ler_add.
rewrite le_eqVlt; apply/orP; left; apply/eqP; rewrite natrD natrM -[n.+1]addn1 natrD.
by move: (`|z|) W => c d; ring.
Qed.
Let kap0 : 0 <= kap.
Proof.
by rewrite /kap mulr_ge0 // addr_ge0 ?ler01 // !mulr_ge0 ?ler0n // vnorm1_ge0.
Qed.

Lemma pow_diff (x a c : K) i : 0 <= x -> 0 <= a -> a <= c -> (x + a) ^+ i - x ^+ i <= (x + c) ^+ i - x ^+ i.
Proof.
move=> x0 a0' ac; rewrite ler_add2r; apply: ler_expn2r; rewrite ?nnegrE ?addr_ge0 ?ler_add2l //.
exact: le_trans ac.
Qed.
Theorem C84_small_steps : exists us vs, [/\ run = Ok us, exact = Ok vs, size us = N.+2 /\ size vs = N.+2 &
    forall i, (i < N.+2)%N -> nth 0 vs i = R ^+ i * v0 /\
      `|nth 0 us i - nth 0 vs i| <= ((`|R| + kap) ^+ i - `|R| ^+ i) * `|v0|].
Proof.
have [us [vs [eu ev sz h]]] := C84_solution (ler0n K 2) ib q1.
exists us, vs; split=> // i il; have [h1 h2] := h i il; split=> //.
apply: (le_trans h2); apply: ler_wpmul2r => //; apply: pow_diff => //.
have p := kap_le; apply: (RoundSolveP.kap0 (N := N.+1) _ _ _ _ _ q1) => //; exact: ler0n.
Qed.

Lemma pow_mono (x c : K) i : 0 <= x -> x <= 1 -> 0 <= c -> (x + c) ^+ i - x ^+ i <= (1 + c) ^+ i - 1.
Proof.
move=> x0 x1 c0; rewrite -[X in _ <= _ - X](expr1n _ i) !subrXX.
have -> : x + c - x = c by ring. have -> : 1 + c - 1 = c by ring.
apply: ler_wpmul2l => //; apply: ler_sum => j _; rewrite expr1n.
apply: ler_pmul; rewrite ?exprn_ge0 ?addr_ge0 //; last by apply: exprn_ile1.
by apply: ler_expn2r; rewrite ?nnegrE ?addr_ge0 ?ler01 ?ler_add2r.
Qed.

(* the error grows linearly with the number of steps *)
Theorem C84_growth : `|R| <= 1 ->
  let g := e * (N.+1%:R + 60%:R * n%:R * n.+1%:R * `|lam * T| * W) in
  2%:R * g <= 1 -> exists us vs, [/\ run = Ok us, exact = Ok vs &
    forall i, (i < N.+2)%N -> `|nth 0 us i - nth 0 vs i| <= 2%:R * g * `|v0|].
Proof.
move=> R1 g g1; have [us [vs [eu ev sz h]]] := C84_small_steps; exists us, vs; split=> // i il.
have [_ h2] := h i il; apply: (le_trans h2); apply: ler_wpmul2r => //.
have gE : N.+1%:R * kap = g.
  rewrite /g /kap /z; have -> : lam * (T / N.+1%:R) = lam * T * N.+1%:R^-1 by rewrite mulrA.
  rewrite (normrM (lam * T)) normfV (ger0_norm (ler0n _ N.+1)).
  have nz : N.+1%:R != 0 :> K by rewrite pnatr_eq0.
  by move: nz; move: W (`|lam * T|) (N.+1%:R : K) => c d m nz; field.
have ie : (2 * i)%:R * kap <= 2%:R * g.
  by rewrite -gE natrM -mulrA; apply: ler_wpmul2l; [exact: ler0n|apply: ler_wpmul2r => //; rewrite ler_nat].
apply: (le_trans (pow_mono i _ R1 kap0)) => //; apply: le_trans ie; apply: pw_lin2 => //.
apply: le_trans g1; rewrite -gE natrM -mulrA; apply: ler_wpmul2l; [exact: ler0n|].
by apply: ler_wpmul2r => //; rewrite ler_nat.
Qed.
End Small.

(* the number of steps *)
Theorem C84_bad_number_of_steps :
  let r k := r_solveDahlquist cadd csub cmul cdiv cdot csolve nodes w we Q lam v0 T k b in
  [/\ r 0 = Raise ZeroDivisionError, r (-1) = Raise IndexError & forall m, r (Negz m.+1) = Raise ValueError].
Proof. by move: ch; rewrite /chosen; case: b => /= ->. Qed.
End Solve.
Print Assumptions C84_solution.
Print Assumptions C84_small_steps.
Print Assumptions C84_growth.
Print Assumptions C84_bad_number_of_steps.

(* the exact solver is backward stable *)
Lemma solve_stable (K : numFieldType) : backward_stable (0 : K) (@solve K).
Proof.
move=> n A b sA sb; rewrite (solveE sA sb); have z0 : is_shape (mkmat n n (fun _ _ => 0 : K)) n n.
  exact: mkmat_shape.
have zm : mxl n n (mkmat n n (fun _ _ => 0 : K)) = 0.
  by apply/matrixP => i j; rewrite !mxE ent_mkmat.
have zn : mnorm (mkmat n n (fun _ _ => 0 : K)) = 0.
  by rewrite (mnormE z0) big1 // => i _; rewrite big1 // => j _; rewrite ent_mkmat // normr0.
split=> [s|h]; last by have := h _ z0; rewrite zm zn mul0r addr0 => -> .
case: ifP => // un [<-]; split; first by rewrite size_map size_enum_ord.
exists (mkmat n n (fun _ _ => 0)); split=> //; first by rewrite zn mul0r.
by rewrite zm addr0 lcvK mulKVmx.
Qed.

(* ten steps of the explicit midpoint rule for u' = -u in float64 *)
Section Example84.
Notation RF := r_realFieldType.
Let Q : seq (seq RF) := [:: [:: 0; 0]; [:: 2%:R^-1; 0]].
Let w : seq RF := [:: 0; 1].
Let nodes : seq RF := [:: 0; 2%:R^-1].
Let op (f : RF -> RF -> RF) x y : RF := f64 (f x y).
Let cdot (x y : seq RF) : RF := f64 (dot x y).
Let run := r_solveDahlquist (op +%R) (op (fun x y => x - y)) (op *%R) (op (fun x y => x / y)) cdot
             (@solve RF) nodes w (Raise NotImplementedError) Q (- 1) 1 1 10 false.
Lemma op64 f : op_near (u64 : RF) (op f) f.
Proof. by have [_ h _ _] := C79_float64; move=> x y; apply: h. Qed.
Lemma dot64 : dot_near (u64 : RF) cdot.
Proof.
have [/andP [h0 _] h _ _] := C79_float64; move=> x y sxy; apply: (le_trans (h _)).
by apply: ler_wpmul2l => //; rewrite (dotE (erefl _) (esym sxy)); apply: ler_norm_sum.
Qed.
Example C84_nonvacuous : exists us, run = Ok us /\ size us = 11%N /\
  forall i, (i < 11)%N -> `|nth 0 us i - (181%:R / 200%:R) ^+ i| <= 740%:R * u64.
Proof.
have [u0 _ _] := u64_facts; have u0' := ltW u0.
have sQ : is_shape Q 2 2 by [].
have zE : - 1 * (1 / 10%:R) = - (10%:R^-1) :> RF by field.
have nQ : mnorm Q = 2%:R^-1.
  by rewrite /mnorm !big_cons !big_nil !normr0 ger0_norm ?invr_ge0 ?ler0n // !addr0 !add0r.
have nw : vnorm1 w = 1 by rewrite /vnorm1 !big_cons big_nil normr0 normr1 addr0 add0r.
have nz : `|- (10%:R^-1)| = 10%:R^-1 :> RF by rewrite normrN ger0_norm // invr_ge0 ler0n.
have hz : `|- 1 * (1 / 10%:R)| * mnorm Q <= 2%:R^-1 :> RF.
  rewrite zE nz nQ -[X in _ <= X]mul1r ler_wpmul2r ?invr_ge0 ?ler0n //.
  by rewrite invf_le1 ?ltr0n // ler1n.
have lo : forall i j, (i < 2)%N -> (j < 2)%N -> (i <= j)%N -> ent Q i j = 0.
  by move=> [|[|//]] [|[|//]].
have RE : stabf 2 Q w (- 1 * (1 / 10%:R)) = 181%:R / 200%:R.
  rewrite zE explicit_stabf // !big_ord_recl big_ord0 /moment /=.
  have e0 : (rvl 2 w *m (const_mx 1 : 'cV_2)) 0 0 = 1 :> RF.
    by rewrite !mxE !big_ord_recl big_ord0 !mxE /=; ring.
  have e1 : (rvl 2 w *m (mxl 2 2 Q *m (const_mx 1 : 'cV_2))) 0 0 = 2%:R^-1 :> RF.
    rewrite !mxE !big_ord_recl big_ord0 !mxE /= !big_ord_recl !big_ord0 !mxE /ent /=.
    by ring.
  by rewrite e0 e1; field.
have sm : u64 * (100 * 3)%:R <= 1 :> RF.
  by apply/rleE; rewrite rnatE u64E -[1]/R1 -[_ * _]/(Rmult _ _) /=; lra.
have hR : `|stabf 2 Q w (- 1 * (1 / 10%:R))| <= 1.
  by rewrite RE ger0_norm ?divr_ge0 ?ler0n // ler_pdivr_mulr ?ltr0n // mul1r ler_nat.
have [us [vs [eu ev sz h]]] := C84_small_steps u0' u0' (lexx 0) (op64 _) (op64 _) (op64 _) (op64 _)
   dot64 (@solve_stable RF) 1 (w := w) (w' := w) (we := Raise NotImplementedError) (nodes := nodes) (b := false)
   sQ erefl erefl erefl (lexx _) (lexx _) u0' sm hz.
have g1 : 2%:R * (u64 * (10%:R + 60%:R * 2%:R * 3%:R * `|- 1 * 1| * vnorm1 w)) = 740%:R * u64 :> RF.
  by rewrite nw mulr1 normrN1; ring.
have g2 : 2%:R * (u64 * (10%:R + 60%:R * 2%:R * 3%:R * `|- 1 * 1| * vnorm1 w)) <= 1 :> RF.
  by rewrite g1; apply/rleE; rewrite rnatE u64E -[1]/R1 -[_ * _]/(Rmult _ _) INR_IZR_INZ /=; lra.
have [us2 [vs2 [eu2 ev2 h2]]] := C84_growth u0' u0' (lexx 0) (op64 _) (op64 _) (op64 _) (op64 _)
   dot64 (@solve_stable RF) 1 (w := w) (w' := w) (we := Raise NotImplementedError) (nodes := nodes) (b := false)
   sQ erefl erefl erefl (lexx _) (lexx _) u0' sm hz hR g2.
exists us; split=> //; split; first by case: sz.
move=> i il; have [e _] := h i il; move: e; rewrite mulr1 RE => <-.
move: eu2 ev2; rewrite eu ev => -[eu2] [ev2]; rewrite -eu2 -ev2 in h2.
by apply: (le_trans (h2 i il)); rewrite g1 normr1 mulr1.
Qed.
End Example84.
