(* Interpolatory quadrature on distinct nodes: orders of exactness, symmetric nodes, and the
   algebraic conditions behind the order of collocation methods. *)
From Verif.Base Require Import Str.
From mathcomp Require Import all_ssreflect all_algebra ring zify.
From Verif.Base Require Import Arr PolyInterp PolyInt.
From Verif.Proofs Require Import LagrangeP LagrangeInit.
From Verif.Spec Require Import QCoeffSpec.
Set Implicit Arguments.
Unset Strict Implicit.
Unset Printing Implicit Defensive.
Import GRing.Theory Num.Theory Order.TTheory.
Local Open Scope ring_scope.

Section Parts.
Variable F : numFieldType.
(* integration by parts *)
Lemma pint_parts (p q : {poly F}) a b :
  pint (p^`() * q) a b = p.[b] * q.[b] - p.[a] * q.[a] - pint (p * q^`()) a b.
Proof.
by rewrite -!hornerM -pint_deriv derivM pintD addrK.
Qed.
End Parts.

Section Quad.
Variable F : realFieldType.
Variable tau : seq F.
Let M := size tau.
Hypothesis srt : sorted <%O tau.
Implicit Types (p q : {poly F}) (a b : F).

Definition nodal : {poly F} := \prod_(x <- tau) ('X - x%:P).
Definition qsum a b p : F := \sum_(j < M) pint (ell tau j) a b * p.[nth 0 tau j].

Lemma monic_nodal : nodal \is monic.
Proof. exact: monic_prod_XsubC. Qed.
Lemma size_nodal : size nodal = M.+1.
Proof. by rewrite size_prod_XsubC. Qed.

Lemma qsum_exact a b p : (size p <= M)%N -> qsum a b p = pint p a b.
Proof.
move=> sp; have := @sum_pint_ell _ tau p a b; rewrite (np_unique_sorted srt); exact.
Qed.

Lemma qsumD a b p q : qsum a b (p + q) = qsum a b p + qsum a b q.
Proof. by rewrite -big_split; apply: eq_bigr => j _; rewrite hornerD mulrDr. Qed.

Lemma qsum_nodal a b q : qsum a b (q * nodal) = 0.
Proof.
rewrite /qsum big1 // => j _; rewrite hornerM (_ : nodal.[_] = 0) ?mulr0 //.
by apply/rootP; rewrite root_prod_XsubC mem_nth.
Qed.

(* exactness beyond degree M-1 is orthogonality of the nodal polynomial *)
Lemma qsum_order a b r : (forall q, (size q <= r)%N -> pint (q * nodal) a b = 0) ->
  forall p, (size p <= M + r)%N -> qsum a b p = pint p a b.
Proof.
move=> ortho p sp; have m := monic_neq0 monic_nodal.
rewrite (Pdiv.Field.divp_eq p nodal) pintD qsumD qsum_nodal add0r ortho ?add0r.
  by apply: qsum_exact; rewrite -ltnS -size_nodal ltn_modp.
by rewrite size_divp // size_nodal /= leq_subLR.
Qed.

(* symmetric nodes, odd number: one more degree *)
Lemma nodal_sym s : (forall j, (j < M)%N -> nth 0 tau (M - j.+1) = s - nth 0 tau j) ->
  nodal \Po aff (-1) s = (-1) ^+ M *: nodal.
Proof.
move=> sym; rewrite /nodal (big_nth 0) big_mkord rmorph_prod /=.
rewrite (reindex_inj rev_ord_inj) /= -/M.
rewrite -[X in X *: _](_ : \prod_(i < M) (-1) = _); last by rewrite prodr_const card_ord.
rewrite -scaler_prod; apply: eq_bigr => i _.
rewrite sym // comp_polyB comp_polyX comp_polyC /aff polyCB.
by rewrite !scaleN1r !opprB -addrA [s%:P + _]addrC subrK addrC.
Qed.

Lemma nodal_sym_int a b : odd M ->
  (forall j, (j < M)%N -> nth 0 tau (M - j.+1) = a + b - nth 0 tau j) -> pint nodal a b = 0.
Proof.
move=> od sym; have := pint_aff nodal (-1) (a + b) a b.
rewrite (nodal_sym sym) -signr_odd od expr1 scaleN1r pintN.
have -> : -1 * a + (a + b) = b by ring. have -> : -1 * b + (a + b) = a by ring.
rewrite mulN1r opprK [in RHS]pint_sym => /eqP; rewrite -addr_eq0 -mulr2n mulrn_eq0 /=.
by move/eqP.
Qed.

Lemma qsum_sym a b : odd M ->
  (forall j, (j < M)%N -> nth 0 tau (M - j.+1) = a + b - nth 0 tau j) ->
  forall p, (size p <= M.+1)%N -> qsum a b p = pint p a b.
Proof.
move=> od sym; rewrite -addn1; apply: qsum_order => q sq.
rewrite (size1_polyC sq) mul_polyC pintZ nodal_sym_int //; exact: mulr0.
Qed.

(* Condition D: if the quadrature is exact for size p <= P then
   sum_i w_i q(tau_i) A_ij = w_j qhat(tau_j), qhat(t) = int_t^b q *)
Lemma cond_D a b P q (qh : {poly F}) j :
  (forall p, (size p <= P)%N -> qsum a b p = pint p a b) -> (j < M)%N ->
  qh^`() = - q -> qh.[b] = 0 -> (size q + M <= P)%N -> (size qh <= (size q).+1)%N ->
  \sum_(i < M) pint (ell tau i) a b * q.[nth 0 tau i] * pint (ell tau j) a (nth 0 tau i) =
  pint (ell tau j) a b * qh.[nth 0 tau j].
Proof.
move=> ex jM dq qb sq sqh.
pose L : {poly F} := aint (ell tau j) - ((aint (ell tau j)).[a])%:P.
have LE t : L.[t] = pint (ell tau j) a t by rewrite /L hornerD hornerN hornerC.
have dL : L^`() = ell tau j by rewrite derivB derivC subr0 deriv_aint.
have sell := size_ell jM.
have sL : (size L <= M.+1)%N.
  apply: leq_trans (size_add _ _) _; rewrite geq_max size_opp (leq_trans (size_aint _)) //=.
  by rewrite (leq_trans (size_polyC_leq1 _)).
have -> : \sum_(i < M) pint (ell tau i) a b * q.[nth 0 tau i] * pint (ell tau j) a (nth 0 tau i) =
   qsum a b (q * L).
  by apply: eq_bigr => i _; rewrite hornerM LE mulrA.
have -> : pint (ell tau j) a b * qh.[nth 0 tau j] = qsum a b (qh * ell tau j).
  rewrite /qsum (bigD1 (Ordinal jM)) //= hornerM ell_node // eqxx mulr1.
  rewrite big1 ?addr0 // => i ij; rewrite hornerM ell_node //.
  by have /negbTE -> : i != j :> nat by []; rewrite !mulr0.
have s1 : (size (q * L)%R <= P)%N.
  apply: leq_trans (size_mul_leq _ _) _; apply: leq_trans sq.
  by move: sL; move: (size L) (size q) => x y; lia.
have s2 : (size (qh * ell tau j)%R <= P)%N.
  apply: leq_trans (size_mul_leq _ _) _; apply: leq_trans sq.
  by move: sell sqh; rewrite -/M; move: (size qh) (size q) (size (ell _ _)) => x y z; lia.
rewrite !ex // -[q]opprK -dq mulNr pintN pint_parts dL qb.
by rewrite !LE pint_refl mul0r mulr0 !subr0 sub0r opprK.
Qed.

(* the moments b^T A^k 1 *)
Definition Qm a : seq (seq F) := [seq mkseq (fun j => pint (ell tau j) a t) M | t <- tau].
Definition wv a b : seq F := mkseq (fun j => pint (ell tau j) a b) M.

Lemma Qm_shape a : is_shape (Qm a) M M.
Proof.
rewrite /is_shape size_map eqxx all_map (eq_all (a2 := predT)) ?all_predT // => t.
by rewrite /= size_mkseq eqxx.
Qed.
Lemma ent_Qm a i j : (i < M)%N -> (j < M)%N -> ent (Qm a) i j = pint (ell tau j) a (nth 0 tau i).
Proof. by move=> il jl; rewrite /ent (nth_map 0) // nth_mkseq. Qed.

(* (t - a)^k / k! and (b - t)^k / k! *)
Definition upw a k : {poly F} := (k`!)%:R^-1 *: ('X - a%:P) ^+ k.
Definition dnw b k : {poly F} := (k`!)%:R^-1 *: (b%:P - 'X) ^+ k.

Lemma fact_neq0 k : (k`!)%:R != 0 :> F.
Proof. by rewrite pnatr_eq0 -lt0n fact_gt0. Qed.

Lemma upwS a k : (upw a k.+1)^`() = upw a k.
Proof.
rewrite /upw derivZ deriv_exp derivXsubC mul1r -scaler_nat scalerA /=.
congr (_ *: _); by rewrite factS natrM invfM mulrC mulVKf ?pnatr_eq0.
Qed.
Lemma dnwS b k : (dnw b k.+1)^`() = - dnw b k.
Proof.
rewrite /dnw derivZ deriv_exp derivB derivC derivX sub0r mulN1r mulNrn scalerN -scaler_nat /= scalerA.
congr (- (_ *: _)); by rewrite factS natrM invfM mulrC mulVKf ?pnatr_eq0.
Qed.
Lemma size_upw a k : (size (upw a k) <= k.+1)%N.
Proof. by rewrite (leq_trans (size_scale_leq _ _)) // size_exp_XsubC. Qed.
Lemma size_dnw b k : size (dnw b k) = k.+1.
Proof.
rewrite size_scale ?invr_neq0 ?fact_neq0 // -opprB exprNn -signr_odd mulr_sign.
by case: (odd k); rewrite ?size_opp size_exp_XsubC.
Qed.
Lemma upw_a a k : (upw a k.+1).[a] = 0.
Proof. by rewrite hornerZ horner_exp hornerXsubC subrr exprS mul0r mulr0. Qed.
Lemma dnw_b b k : (dnw b k.+1).[b] = 0.
Proof. by rewrite hornerZ horner_exp hornerD hornerN hornerC hornerX subrr exprS mul0r mulr0. Qed.
Lemma upw_int a k t : pint (upw a k) a t = (upw a k.+1).[t].
Proof. by rewrite (pintE _ _ (upwS a k)) upw_a subr0. Qed.

(* beta integral *)
Lemma beta_int a b r m : pint (dnw b r * upw a m) a b = (b - a) ^+ (r + m).+1 / ((r + m).+1`!)%:R.
Proof.
elim: r m => [|r ih] m.
  rewrite [dnw b 0]/dnw expr0 fact0 invr1 scale1r mul1r upw_int hornerZ horner_exp hornerXsubC.
  by rewrite add0n mulrC.
rewrite -{1}(upwS a m) mulrC pint_parts dnw_b upw_a mulr0 mul0r subrr sub0r dnwS mulrN pintN opprK.
by rewrite mulrC ih addnS addSn.
Qed.

Lemma Qm_powers a m : (m <= M)%N ->
  iter m (mulmx (mxl M M (Qm a))) (const_mx 1 : 'cV_M) = \col_i (upw a m).[nth 0 tau i].
Proof.
elim: m => [|m ih] ml.
  by apply/matrixP => i j; rewrite !mxE /upw expr0 fact0 invr1 scale1r hornerC.
rewrite iterS ih ?(ltnW ml) //; apply/matrixP => i j; rewrite !mxE -upw_int.
rewrite -(qsum_exact a (nth 0 tau i) (leq_trans (size_upw a m) ml)).
by apply: eq_bigr => k _; rewrite !mxE ent_Qm.
Qed.

Lemma wv_powers a b P r (v : 'cV_M) : (forall p, (size p <= P)%N -> qsum a b p = pint p a b) ->
  (r + M <= P)%N ->
  (rvl M (wv a b) *m iter r (mulmx (mxl M M (Qm a))) v) 0 0 =
  \sum_(i < M) pint (ell tau i) a b * (dnw b r).[nth 0 tau i] * v i 0.
Proof.
move=> ex; elim: r v => [|r ih] v rP.
  rewrite mxE; apply: eq_bigr => i _; rewrite !mxE nth_mkseq //.
  by rewrite /dnw expr0 fact0 invr1 scale1r hornerC mulr1.
rewrite iterSr ih; last by apply: leq_trans rP; rewrite leq_add2r.
rewrite (eq_bigr (fun i : 'I_M => \sum_(j < M) pint (ell tau i) a b * (dnw b r).[nth 0 tau i] *
    pint (ell tau j) a (nth 0 tau i) * v j 0)); last first.
  by move=> i _; rewrite mxE mulr_sumr; apply: eq_bigr => j _; rewrite mxE ent_Qm // mulrA.
rewrite exchange_big /=; apply: eq_bigr => j _; rewrite -mulr_suml.
congr (_ * _); apply: (cond_D ex) => //; first exact: dnwS.
- exact: dnw_b.
- by rewrite size_dnw.
- by rewrite !size_dnw.
Qed.

Lemma coll_moment a b P k : (forall p, (size p <= P)%N -> qsum a b p = pint p a b) ->
  (M <= P)%N -> (k < P)%N ->
  moment M (Qm a) (wv a b) k = (b - a) ^+ k.+1 / (k.+1`!)%:R.
Proof.
move=> ex MP kP; rewrite /moment.
have [r [m [ek mM rP]]] : exists r m, [/\ k = (r + m)%N, (m <= M)%N & (r + M <= P)%N].
  case: (leqP k M) => h; first by exists 0%N, k.
  by exists (k - M)%N, M; split=> //; lia.
rewrite ek iterD Qm_powers // (wv_powers _ ex) //.
rewrite -beta_int -ex; first by apply: eq_bigr => i _; rewrite hornerM mxE mulrA.
apply: leq_trans (size_mul_leq _ _) _; rewrite size_dnw.
have := size_upw a m; lia.
Qed.
End Quad.
