(* One step of the Dahlquist solver in rounded arithmetic. *)
From Verif.Base Require Import Str.
From mathcomp Require Import all_ssreflect all_algebra ring.
From Verif.Base Require Import Outcome Arr LinSolve.
From Verif.Model Require Import RoundedSolve.
From Verif.Spec Require Import QCoeffSpec RoundSolveSpec.
From Verif.Proofs Require Import StabP.
Set Implicit Arguments.
Unset Strict Implicit.
Unset Printing Implicit Defensive.
Import GRing.Theory Num.Theory Order.TTheory.
Local Open Scope ring_scope.

Section P.
Variable K : numFieldType.
Variables (u ed es : K).
Variables cadd csub cmul cdiv : K -> K -> K.
Variable cdot : seq K -> seq K -> K.
Variable csolve : seq (seq K) -> seq K -> option (seq K).
Hypotheses (u0 : 0 <= u) (ed0 : 0 <= ed) (es0 : 0 <= es).
Hypotheses (hadd : op_near u cadd +%R) (hsub : op_near u csub (fun a b => a - b)).
Hypotheses (hmul : op_near u cmul *%R) (hdiv : op_near u cdiv (fun a b => a / b)).
Hypotheses (hdot : dot_near ed cdot) (hsol : backward_stable es csolve).
Variables (n : nat) (Q : seq (seq K)) (w : seq K) (lam T : K) (N : nat) (beta : K).
Hypotheses (sQ : is_shape Q n n) (sw : size w = n).
Let z := lam * (T / N%:R).
Let z' := cmul lam (cdiv T N%:R).
Let A := stagemx n Q z.
Let A' := r_stage csub cmul n z' Q.
Let a := n%:R + `|z| * mnorm Q.
Let q := stage_err u es a beta.
Let W := vnorm1 w.
Hypotheses (b0 : 0 <= beta) (hb : inverse_bound A beta) (q1 : q < 1).
Notation pw k := ((1 + u) ^+ k - 1).

Lemma pw0 k : 0 <= pw k. Proof. by rewrite subr_ge0 exprn_ege1 // ler_addl. Qed.
Lemma pwS k (x y : K) op ex (c d : K) : op_near u op ex ->
  `|ex c d - x| <= pw k * y -> `|x| <= y -> `|op c d - x| <= pw k.+1 * y.
Proof.
move=> ho h1 h2; have y0 : 0 <= y by apply: le_trans h2.
have -> : op c d - x = (op c d - ex c d) + (ex c d - x) by ring.
apply: (le_trans (ler_norm_add _ _)).
have e3 : `|ex c d| <= (1 + pw k) * y.
  have -> : ex c d = (ex c d - x) + x by ring.
  by apply: (le_trans (ler_norm_add _ _)); rewrite mulrDl mul1r addrC ler_add.
have -> : pw k.+1 * y = u * ((1 + pw k) * y) + pw k * y by rewrite exprS; ring.
by apply: ler_add => //; apply: (le_trans (ho _ _)); rewrite ler_wpmul2l.
Qed.
Lemma sub_scale k (x y c : K) : `|x - y| <= pw k * `|y| -> `|c * x - c * y| <= pw k * `|c * y|.
Proof. by move=> h; rewrite -mulrBr !normrM mulrCA ler_wpmul2l. Qed.

Lemma zE : `|z' - z| <= pw 2 * `|z|.
Proof.
apply: (pwS hmul) (lexx _); apply: sub_scale.
by apply: (pwS hdiv) (lexx _); rewrite subrr normr0 expr0 subrr mul0r.
Qed.
Lemma A'_shape : is_shape A' n n. Proof. exact: mkmat_shape. Qed.
Lemma A'E (i j : 'I_n) : `|ent A' i j - A i j| <= pw 4 * ((i == j)%:R + `|z| * `|ent Q i j|).
Proof.
rewrite ent_mkmat // !mxE -normrM.
have e1 : `|cmul z' (ent Q i j) - z * ent Q i j| <= pw 3 * `|z * ent Q i j|.
  by apply: (pwS hmul) (lexx _); rewrite ![_ * ent Q i j]mulrC; apply: sub_scale; exact: zE.
have le1 : `|(i == j)%:R - z * ent Q i j| <= (i == j)%:R + `|z * ent Q i j|.
  by apply: (le_trans (ler_norm_sub _ _)); rewrite ger0_norm ?ler0n.
apply: (pwS hsub) => //.
have -> : (i == j)%:R - cmul z' (ent Q i j) - ((i == j)%:R - z * ent Q i j) =
  - (cmul z' (ent Q i j) - z * ent Q i j) by ring.
rewrite normrN; apply: (le_trans e1); apply: ler_wpmul2l; first exact: pw0.
by rewrite ler_addr ler0n.
Qed.
Lemma aE : a = \sum_(i < n) \sum_(j < n) ((i == j)%:R + `|z| * `|ent Q i j|).
Proof.
rewrite /a (mnormE sQ) mulr_sumr.
under [in RHS]eq_bigr => i _ do rewrite big_split /= -mulr_sumr.
rewrite big_split /=; congr (_ + _).
rewrite -[LHS](nrm1_const K n) /nrm1; apply: eq_bigr => i _; rewrite mxE normr1.
by rewrite (bigD1 i) //= eqxx big1 ?addr0 // => j ji; rewrite eq_sym (negbTE ji).
Qed.
Lemma a0 : 0 <= a. Proof. by rewrite addr_ge0 ?ler0n // mulr_ge0 ?mnorm_ge0. Qed.

(* the perturbed system *)
Let eps := (1 + es) * (1 + u) ^+ 4 - 1.
Lemma nA' : mnorm A' <= (1 + u) ^+ 4 * a.
Proof.
rewrite (mnormE A'_shape) aE mulr_sumr; apply: ler_sum => i _; rewrite mulr_sumr; apply: ler_sum => j _.
have -> : ent A' i j = (ent A' i j - A i j) + A i j by ring.
apply: (le_trans (ler_norm_add _ _)).
set y := (_ + _ * _); have -> : (1 + u) ^+ 4 * y = pw 4 * y + y by ring.
apply: ler_add; first exact: A'E.
by rewrite !mxE; apply: (le_trans (ler_norm_sub _ _)); rewrite normrM ger0_norm ?ler0n.
Qed.
Section Pert.
Variable E : seq (seq K).
Hypotheses (sE : is_shape E n n) (hE : mnorm E <= es * mnorm A').
Let B := mxl n n A' + mxl n n E.
Lemma nDelta (x : 'cV_n) : nrm1 ((B - A) *m x) <= eps * a * nrm1 x.
Proof.
have mul_le (M : 'M[K]_n) : nrm1 (M *m x) <= (\sum_i \sum_j `|M i j|) * nrm1 x.
  rewrite mulr_suml; apply: ler_sum => i _.
  rewrite mxE (le_trans (ler_norm_sum _ _ _)) // mulr_suml; apply: ler_sum => j _.
  by rewrite normrM ler_wpmul2l // /nrm1; apply: (@le_term _ _ (fun j => `|x j 0|)).
apply: (le_trans (mul_le _)); apply: ler_wpmul2r; first exact: nrm1_ge0.
have -> : eps * a = pw 4 * a + es * ((1 + u) ^+ 4 * a) by rewrite /eps; ring.
apply: le_trans (_ : pw 4 * a + mnorm E <= _); last first.
  by rewrite ler_add2l; apply: (le_trans hE); rewrite ler_wpmul2l // nA'.
rewrite (mnormE sE) aE mulr_sumr -big_split; apply: ler_sum => i _ /=.
rewrite mulr_sumr -big_split; apply: ler_sum => j _ /=.
have -> : (B - A) i j = (ent A' i j - A i j) + ent E i j.
  by rewrite [LHS]mxE /B !mxE; ring.
by apply: (le_trans (ler_norm_add _ _)); rewrite ler_add2r A'E.
Qed.
Lemma stage_bound (x y : 'cV_n) : B *m x = y -> nrm1 x <= beta / (1 - q) * nrm1 y.
Proof.
move=> e; have h := hb x; rewrite -/(nrm1 x) -/(nrm1 (A *m x)) in h.
have e2 : A *m x = y - (B - A) *m x by rewrite (mulmxBl B A) e opprB addrC subrK.
have h2 : nrm1 x <= beta * nrm1 y + q * nrm1 x.
  apply: (le_trans h); rewrite e2 /q /stage_err -mulrA -mulrDr; apply: ler_wpmul2l => //.
  apply: (le_trans (nrm1D _ _)); rewrite ler_add2l -scaleN1r nrm1Z normrN1 mul1r; exact: nDelta.
rewrite mulrAC ler_pdivl_mulr ?subr_gt0 // mulrBr mulr1 ler_subl_addr [nrm1 x * q]mulrC.
exact: h2.
Qed.
Lemma B_unit : B \in unitmx.
Proof.
apply: unitmx_inj => v /stage_bound h; apply: nrm1_eq0; apply: le_anti; rewrite nrm1_ge0 andbT.
apply: (le_trans h); have -> : nrm1 (0 : 'cV[K]_n) = 0 by rewrite /nrm1 big1 // => i _; rewrite mxE normr0.
by rewrite mulr0.
Qed.
End Pert.
Lemma A_unit : A \in unitmx.
Proof.
apply: unitmx_inj => v e; apply: nrm1_eq0; apply: le_anti; rewrite nrm1_ge0 andbT.
apply: (le_trans (hb v)); rewrite e big1 ?mulr0 // => i _; by rewrite mxE normr0.
Qed.

Lemma nrm1_constc c : nrm1 (const_mx c : 'cV[K]_n) = n%:R * `|c|.
Proof.
rewrite /nrm1 (eq_bigr (fun _ => `|c|)); last by move=> i _; rewrite mxE.
by rewrite sumr_const card_ord mulr_natl.
Qed.

Lemma step_id (x g d c v p t : K) : x * (v + (1 + x) ^+ 3 * (g * ((1 + d) * (t * (c * v))))) +
   (((1 + x) ^+ 3 - 1) * (g * ((1 + d) * (t * (c * v)))) + g * (d * (t * (c * v))) + g * (t * (p * (c * v)))) =
   (x + g * t * c * ((1 + x) ^+ 4 * (1 + d) - 1 + p)) * v.
Proof. by ring. Qed.
(* one step *)
Let Rz := stabf n Q w z.
Let kap := step_err u ed es a beta W z n.
Lemma step_near v s : csolve A' (nseq n v) = Some s -> size s = n /\
  `|cadd v (cmul z' (cdot w s)) - Rz * v| <= kap * `|v|.
Proof.
move=> es'; have [h _] := hsol A'_shape (size_nseq n v); have [ss [E [sE nE eq]]] := h _ es'.
split=> //; have cst : cvl n (nseq n v) = const_mx v.
  by apply/matrixP => i j; rewrite !mxE nth_nseq ltn_ord.
rewrite cst in eq; set x := cvl n s in eq.
have nx := stage_bound sE nE eq; rewrite nrm1_constc in nx.
pose y := invmx A *m const_mx v : 'cV_n.
have Ay : A *m y = const_mx v by rewrite mulKVmx // A_unit.
have dxy : nrm1 (x - y) <= q * nrm1 x.
  have e2 : A *m (x - y) = - ((mxl n n A' + mxl n n E - A) *m x).
    by rewrite mulmxBr Ay (mulmxBl (_ + _) A) eq opprB.
  apply: (le_trans (hb _)); rewrite e2 -/(nrm1 _) -scaleN1r nrm1Z normrN1 mul1r.
  rewrite /q /stage_err -mulrA; apply: ler_wpmul2l => //; exact: nDelta.
have W0 : 0 <= W := vnorm1_ge0 w.
pose S := beta * n%:R / (1 - q) * `|v|.
have nxS : nrm1 x <= S by apply: (le_trans nx); rewrite /S le_eqVlt; apply/orP; left; apply/eqP; ring.
have S0 : 0 <= S by apply: le_trans nxS; exact: nrm1_ge0.
have q0 : 0 <= q.
  rewrite /q /stage_err mulr_ge0 // mulr_ge0 ?a0 // subr_ge0 mulr_ege1 ?ler_addl //.
  by rewrite exprn_ege1 // ler_addl.
have dE : dot w s = (rvl n w *m x) 0 0.
  by rewrite (dotE sw ss) mxE; apply: eq_bigr => i _; rewrite !mxE.
have hd : `|cdot w s - dot w s| <= ed * (W * S).
  apply: (le_trans (hdot (etrans sw (esym ss)))); apply: ler_wpmul2l => //.
  apply: le_trans (_ : W * nrm1 x <= _); last by rewrite ler_wpmul2l.
  rewrite sw /W (vnorm1E sw) mulr_suml; apply: ler_sum => i _; rewrite normrM ler_wpmul2l //.
  have -> : nth 0 s i = x i 0 by rewrite mxE.
  by rewrite /nrm1; apply: (@le_term _ _ (fun j => `|x j 0|)).
have ndot : `|dot w s| <= W * S.
  by rewrite dE; apply: (le_trans (dot_bound _ sw)); rewrite ler_wpmul2l.
have hxy : `|dot w s - (rvl n w *m y) 0 0| <= W * (q * S).
  have -> : dot w s - (rvl n w *m y) 0 0 = (rvl n w *m (x - y)) 0 0 by rewrite dE mulmxBr !mxE.
  apply: (le_trans (dot_bound _ sw)); apply: ler_wpmul2l => //; apply: (le_trans dxy).
  by rewrite ler_wpmul2l.
set d := cdot w s in hd *; set d0 := dot w s in hd ndot hxy; set d1 := (rvl n w *m y) 0 0 in hxy.
have nd : `|d| <= (1 + ed) * (W * S).
  have -> : d = (d - d0) + d0 by ring.
  by apply: (le_trans (ler_norm_add _ _)); rewrite mulrDl mul1r addrC ler_add.
have z0 : 0 <= `|z| by [].
have hm : `|cmul z' d - z * d| <= pw 3 * `|z * d|.
  by apply: (pwS hmul) (lexx _); rewrite ![_ * d]mulrC; apply: sub_scale; exact: zE.
have RE : Rz * v = v + z * d1.
  rewrite /Rz /stabf mulrDl mul1r; congr (_ + _); rewrite -mulrA; congr (_ * _).
  rewrite /d1 /y; have -> : const_mx v = v *: const_mx 1 :> 'cV[K]_n by apply/matrixP => i j; rewrite !mxE mulr1.
  by rewrite -!scalemxAr [in RHS]mxE mulrC mulmxA.
have hm2 : `|v + cmul z' d - (v + z * d)| <= pw 3 * (`|v| + `|z| * ((1 + ed) * (W * S))).
  have -> : v + cmul z' d - (v + z * d) = cmul z' d - z * d by ring.
  apply: (le_trans hm); apply: ler_wpmul2l; first exact: pw0.
  by rewrite normrM; apply: ler_paddl => //; apply: ler_wpmul2l.
have top : `|cmul z' d| <= (1 + u) ^+ 3 * (`|z| * ((1 + ed) * (W * S))).
  have -> : cmul z' d = (cmul z' d - z * d) + z * d by ring.
  apply: (le_trans (ler_norm_add _ _)).
  set g := (`|z| * _); have zg : `|z * d| <= g by rewrite normrM ler_wpmul2l.
  have -> : (1 + u) ^+ 3 * g = pw 3 * g + g by ring.
  by apply: ler_add => //; apply: (le_trans hm); apply: ler_wpmul2l => //; exact: pw0.
have -> : cadd v (cmul z' d) - Rz * v = (cadd v (cmul z' d) - (v + cmul z' d)) +
    ((cmul z' d - z * d) + z * (d - d0) + z * (d0 - d1)) by rewrite RE; ring.
apply: (le_trans (ler_norm_add _ _)).
apply: le_trans (_ : u * (`|v| + (1 + u) ^+ 3 * (`|z| * ((1 + ed) * (W * S)))) +
   (pw 3 * (`|z| * ((1 + ed) * (W * S))) + `|z| * (ed * (W * S)) + `|z| * (W * (q * S))) <= _).
  apply: ler_add.
    apply: (le_trans (hadd _ _)); apply: ler_wpmul2l => //.
    by apply: (le_trans (ler_norm_add _ _)); rewrite ler_add2l.
  apply: (le_trans (ler_norm_add _ _)); apply: ler_add; last by rewrite normrM ler_wpmul2l.
  apply: (le_trans (ler_norm_add _ _)); apply: ler_add; last by rewrite normrM ler_wpmul2l.
  apply: (le_trans hm); rewrite normrM; apply: ler_wpmul2l; first exact: pw0.
  by apply: ler_wpmul2l.
rewrite /kap /step_err -/q /S; set c := beta * n%:R / (1 - q).
by rewrite step_id.
Qed.
Lemma solve_some v : exists s, csolve A' (nseq n v) = Some s.
Proof.
have [_ h] := hsol A'_shape (size_nseq n v).
case e : (csolve _ _) h => [s|] h; first by exists s.
by case: h => // E sE nE; apply: B_unit.
Qed.
Lemma kap0 : 0 <= kap.
Proof.
have q0 : 0 <= q.
  rewrite /q /stage_err mulr_ge0 // mulr_ge0 ?a0 // subr_ge0 mulr_ege1 ?ler_addl //.
  by rewrite exprn_ege1 // ler_addl.
rewrite /kap /step_err -/q addr_ge0 //; apply: mulr_ge0; last first.
  by rewrite addr_ge0 // subr_ge0 mulr_ege1 ?ler_addl // exprn_ege1 // ler_addl.
rewrite mulr_ge0 //; first by rewrite mulr_ge0 ?vnorm1_ge0.
by rewrite divr_ge0 ?mulr_ge0 ?ler0n // subr_ge0 ltW.
Qed.

Lemma loop_near v k : exists2 us, r_dahl_loop cadd cmul cdot csolve n A' w z' v k = Ok us &
  size us = k /\ forall i, (i < k)%N ->
    `|nth 0 us i - Rz ^+ i.+1 * v| <= ((`|Rz| + kap) ^+ i.+1 - `|Rz| ^+ i.+1) * `|v|.
Proof.
elim: k v => [|k ih] v; first by exists [::].
have [s e] := solve_some v; have [ss h1] := step_near e.
have [us eu [su hu]] := ih (cadd v (cmul z' (cdot w s))).
rewrite /= e sw ss eqxx /= eu /=; eexists; first by reflexivity.
split=> [|[|i] il] /=; first by rewrite su.
  by rewrite !expr1 addrAC subrr add0r.
set v' := cadd _ _ in h1 hu *.
have -> : nth 0 us i - Rz ^+ i.+2 * v = (nth 0 us i - Rz ^+ i.+1 * v') + Rz ^+ i.+1 * (v' - Rz * v).
  by rewrite [Rz ^+ i.+2]exprSr; ring.
apply: (le_trans (ler_norm_add _ _)).
have nv' : `|v'| <= (`|Rz| + kap) * `|v|.
  have -> : v' = (v' - Rz * v) + Rz * v by ring.
  by apply: (le_trans (ler_norm_add _ _)); rewrite [X in _ <= X]mulrDl -(normrM Rz) [X in _ <= X]addrC ler_add.
have k0 := kap0.
have mono : 0 <= (`|Rz| + kap) ^+ i.+1 - `|Rz| ^+ i.+1.
  have r0 : 0 <= `|Rz| by []. have r1 : `|Rz| <= `|Rz| + kap by rewrite ler_addl.
  by rewrite subr_ge0; apply: ler_expn2r; rewrite ?nnegrE //; apply: addr_ge0.
apply: le_trans (_ : ((`|Rz| + kap) ^+ i.+1 - `|Rz| ^+ i.+1) * ((`|Rz| + kap) * `|v|) +
   `|Rz| ^+ i.+1 * (kap * `|v|) <= _).
  apply: ler_add; first by apply: (le_trans (hu i il)); rewrite ler_wpmul2l.
  by rewrite normrM normrX ler_wpmul2l // exprn_ge0.
by rewrite !(exprSr _ i.+1) le_eqVlt; apply/orP; left; apply/eqP; ring.
Qed.
End P.
