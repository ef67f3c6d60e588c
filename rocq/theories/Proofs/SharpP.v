(* When a quadrature rule and the moments of a collocation method have no more than the order
   given by the orthogonality of the nodal polynomial; Legendre nodes. *)
From Verif.Base Require Import Str.
From mathcomp Require Import all_ssreflect all_algebra ring zify.
From Verif.Base Require Import Arr PolyInterp PolyInt.
From Verif.Spec Require Import QCoeffSpec NodesSpec.
From Verif.Proofs Require Import LagrangeP LagrangeInit OrthoP QuadP LegendreP LegStabP.
Set Implicit Arguments.
Unset Strict Implicit.
Unset Printing Implicit Defensive.
Import GRing.Theory Num.Theory Order.TTheory.
Local Open Scope ring_scope.

Section Pos.
Variable F : realFieldType.
Implicit Types (p q V N : {poly F}) (a b : F).
Notation leg := (op (fun=> 0) (bleg F)).

(* subtracting a multiple of a polynomial of the same size *)
Lemma drop_lead p q k : size q = k.+1 -> (size p <= k.+1)%N ->
  (size (p - (p`_k / q`_k) *: q)%R <= k)%N.
Proof.
move=> sq sp; apply/leq_sizeP => j kj; rewrite coefB coefZ; case: (ltngtP j k) kj => // [kj|->] _.
  have h1 : p`_j = 0 by apply: nth_default; apply: leq_trans sp _.
  have h2 : q`_j = 0 by apply: nth_default; rewrite sq.
  by rewrite h1 h2 mulr0 subrr.
have qk : q`_k != 0 by rewrite -[k]/(k.+1.-1) -sq -lead_coefE lead_coef_eq0 -size_poly_gt0 sq.
by rewrite divfK // subrr.
Qed.

Lemma sq_pos1 V : V != 0 -> 0 < pint (V * V) (-1) 1.
Proof.
have [n] := ubnP (size V); elim: n V => [//|n ih] V sV V0.
have [k ek] : exists k, size V = k.+1 by exists (size V).-1; rewrite prednK // size_poly_gt0.
have sl : size (leg k) = k.+1 by have [->] := size_op (fun=> 0) (bleg F) k.
set c := V`_k / (leg k)`_k; pose R := V - c *: leg k.
have sR : (size R <= k)%N by apply: drop_lead => //; rewrite ek.
have c0 : c != 0.
  apply: contraTneq (leqnn (size V)) => c0; rewrite -ltnNge ek ltnS.
  by move: sR; rewrite /R c0 scale0r subr0 ek.
have -> : V * V = (c * c) *: (leg k * leg k) + (c *: (leg k * R) + c *: (leg k * R) + R * R).
  have -> : V = c *: leg k + R by rewrite /R addrC subrK.
  rewrite -!mul_polyC polyCM; move: (leg k) (c%:P) (R) => x y z; ring.
rewrite !pintD !pintZ (leg_ort sR) !mulr0 !add0r.
have cc : 0 < c * c by rewrite -expr2 exprn_even_gt0.
have h1 : 0 < c * c * pint (leg k * leg k) (-1) 1 by rewrite mulr_gt0 // leg_norm.
case: (eqVneq R 0) => [->|R0]; first by rewrite mulr0 pint0 addr0.
rewrite addr_gt0 //; apply: ih => //; apply: leq_ltn_trans sR _.
by move: sV; rewrite ek ltnS.
Qed.

Lemma sq_pos V a b : a < b -> V != 0 -> 0 < pint (V * V) a b.
Proof.
move=> ab V0; pose sc := (b - a) / 2%:R; pose sh := (b + a) / 2%:R.
have n2 : 2%:R != 0 :> F by rewrite pnatr_eq0.
have sc0 : 0 < sc by rewrite divr_gt0 ?subr_gt0 ?ltr0n.
have := pint_aff (V * V) sc sh (-1) 1.
have -> : sc * -1 + sh = a by rewrite /sc /sh; field.
have -> : sc * 1 + sh = b by rewrite /sc /sh; field.
move=> <-; rewrite mulr_gt0 // comp_polyM sq_pos1 //.
have e2 : size (aff sc sh) = 2%N.
  by rewrite /aff -mul_polyC size_MXaddC polyC_eq0 (gt_eqF sc0) /= size_polyC (gt_eqF sc0).
by rewrite comp_poly2_eq0.
Qed.

(* a nonzero polynomial orthogonal to everything of smaller degree does not vanish at an end,
   and its squares at both ends agree *)
Section Ends.
Variables (N : {poly F}) (M : nat) (a b : F).
Hypotheses (ab : a < b) (sN : size N = M.+1).
Hypothesis full : forall q, (size q <= M)%N -> pint (q * N) a b = 0.
Let N0 : N != 0. Proof. by rewrite -size_poly_gt0 sN. Qed.
Let sdN : (size N^`() <= M)%N. Proof. by rewrite -ltnS -sN lt_size_deriv. Qed.

Lemma full_eq : N.[b] ^+ 2 = N.[a] ^+ 2.
Proof.
apply/eqP; rewrite -subr_eq0 !expr2 -!hornerM -pint_deriv derivM pintD.
by rewrite full // mulrC full // addr0.
Qed.
Lemma full_end : N.[a] = 0 -> N.[b] = 0 -> False.
Proof.
move=> na nb; pose XA : {poly F} := 'X - a%:P.
have h : pint (XA * N^`() * N) a b = M%:R * pint (N * N) a b.
  have e : (size (XA * N^`() - M%:R *: N)%R <= M)%N.
    apply/leq_sizeP => j Mj; rewrite /XA coefB mulrBl coefB coefXM coefCM coefZ !coef_deriv.
    case: j Mj => [|j] Mj.
      have M0 : M = 0%N by case: (M) Mj.
      by move: sdN; rewrite M0 leqn0 size_poly_eq0 => /eqP e; rewrite -coef_deriv e coef0 mulr0 mul0r !subrr.
    have h1 : N`_j.+2 = 0 by apply: nth_default; rewrite sN.
    rewrite h1 mul0rn mulr0 subr0 /=.
    case: (ltngtP M j.+1) Mj => // [lt|->] _; last by rewrite mulr_natl subrr.
    have -> : N`_j.+1 = 0 by apply: nth_default; rewrite sN.
    by rewrite mul0rn mulr0 subr0.
  have -> : XA * N^`() * N = (XA * N^`() - M%:R *: N) * N + M%:R *: (N * N).
    by rewrite [(_ - _ *: N) * N]mulrBl scalerAl subrK.
  by rewrite pintD full // add0r pintZ.
have := pint_deriv (XA * (N * N)) a b.
rewrite !hornerM na nb !mulr0 subrr.
have -> : (XA * (N * N))^`() = N * N + (XA * N^`() * N + XA * N^`() * N).
  by rewrite !derivM /XA derivXsubC; move: N^`() ('X - a%:P) N => x y z; ring.
rewrite !pintD h => e; have p := sq_pos ab N0.
have : 0 < pint (N * N) a b + (M%:R * pint (N * N) a b + M%:R * pint (N * N) a b).
  by rewrite ltr_paddr // addr_ge0 // mulr_ge0 ?ler0n // ltW.
by rewrite e ltxx.
Qed.
End Ends.

(* vanishing at both ends: orthogonality to degree < M-1 implies the next one *)
Lemma both_ends N M a b : a < b -> (0 < M)%N -> size N = M.+1 -> N.[a] = 0 -> N.[b] = 0 ->
  (forall q, (size q <= M.-1)%N -> pint (q * N) a b = 0) -> False.
Proof.
move=> ab M0 sN na nb h; apply: (full_end ab sN _ na nb) => q sq.
have nd : N^`()`_M.-1 != 0.
  rewrite coef_deriv prednK // mulrn_eq0 negb_or -lt0n M0 /=.
  by rewrite -[M]/(M.+1.-1) -sN -lead_coefE lead_coef_eq0 -size_poly_gt0 sN.
have sd : size N^`() = M.-1.+1.
  apply/eqP; rewrite eqn_leq; apply/andP; split.
    by rewrite prednK // -ltnS -sN lt_size_deriv // -size_poly_gt0 sN.
  by rewrite ltnNge; apply: contra nd => /leq_sizeP ->.
have e : pint (N^`() * N) a b = 0.
  have := pint_deriv (N * N) a b; rewrite !hornerM na nb mulr0 subrr derivM [N * N^`()]mulrC pintD -mulr2n.
  by move/eqP; rewrite mulrn_eq0 /= => /eqP.
set c := q`_M.-1 / N^`()`_M.-1.
have -> : q * N = (q - c *: N^`()) * N + c *: (N^`() * N) by rewrite mulrBl scalerAl subrK.
by rewrite pintD pintZ e mulr0 addr0 h // drop_lead // prednK.
Qed.
End Pos.

Section Sharp.
Variable F : realFieldType.
Variable tau : seq F.
Let M := size tau.
Hypothesis srt : sorted <%O tau.
Variables (a b : F) (r : nat).
Hypothesis orth : forall q : {poly F}, (size q <= r)%N -> pint (q * nodal tau) a b = 0.
Hypothesis stop : ~ forall q : {poly F}, (size q <= r.+1)%N -> pint (q * nodal tau) a b = 0.

(* one polynomial of size r+1 not orthogonal to the nodal polynomial: none is *)
Lemma stop_all (q : {poly F}) : size q = r.+1 -> pint (q * nodal tau) a b != 0.
Proof.
move=> sq; apply/eqP => e; apply: stop => p sp.
set c := p`_r / q`_r.
have -> : p * nodal tau = (p - c *: q) * nodal tau + c *: (q * nodal tau) by rewrite mulrBl scalerAl subrK.
by rewrite pintD pintZ e mulr0 addr0 orth // drop_lead.
Qed.

Lemma qsum_sharp (p : {poly F}) : size p = (M + r).+1 -> qsum tau a b p != pint p a b.
Proof.
move=> sp; rewrite -subr_eq0; have m := monic_neq0 (monic_nodal tau).
rewrite (Pdiv.Field.divp_eq p (nodal tau)) pintD qsumD qsum_nodal add0r qsum_exact //; last first.
  by rewrite -/M -ltnS -(size_nodal tau) ltn_modp.
rewrite opprD addrCA subrr addr0 oppr_eq0; apply: stop_all.
by rewrite size_divp // size_nodal -/M /= sp subSn ?leq_addr // addKn.
Qed.

Lemma moment_sharp : moment M (Qm tau a) (wv tau a b) (M + r) != (b - a) ^+ (M + r).+1 / ((M + r).+1`!)%:R.
Proof.
have ex := qsum_order srt orth; rewrite -/M in ex.
rewrite /moment addnC iterD Qm_powers // (wv_powers srt _ ex) -/M; last by rewrite addnC.
rewrite -beta_int.
have -> : \sum_(i < M) pint (ell tau i) a b * (dnw b r).[nth 0 tau i] * (\col_i0 (upw a M).[nth 0 tau i0]) i 0 =
  qsum tau a b (dnw b r * upw a M).
  by apply: eq_bigr => i _; rewrite hornerM mxE mulrA.
apply: qsum_sharp; have s1 : size (upw a M) = M.+1.
  by rewrite size_scale ?invr_neq0 ?fact_neq0 // size_exp_XsubC.
rewrite size_mul -?size_poly_gt0 ?size_dnw ?s1 //; move: M => m; lia.
Qed.
End Sharp.

(* Legendre nodes *)
Section Legendre.
Variable F : realFieldType.
Variables (tau : seq F) (a b : F).
Let M := size tau.
Hypotheses (ab : a < b) (M0 : (0 < M)%N).
Notation ort r := (forall q : {poly F}, (size q <= r)%N -> pint (q * nodal tau) a b = 0).

Lemma nodal_val x : ((nodal tau).[x] == 0) = (x \in tau).
Proof. by rewrite -root_prod_XsubC. Qed.
Lemma gauss_stop : ~ ort M.+1.
Proof.
move=> h; have N0 := monic_neq0 (monic_nodal tau).
by have := sq_pos ab N0; rewrite h ?ltxx // size_nodal.
Qed.
Lemma radau_stop : (a \in tau) != (b \in tau) -> ~ ort M.-1.+1.
Proof.
rewrite prednK // => ne h; move: ne.
have := full_eq (size_nodal tau) h; rewrite -!nodal_val => e.
by rewrite -(sqrf_eq0 (_.[a])) -(sqrf_eq0 (_.[b])) e eqxx.
Qed.
Lemma lobatto_stop : (1 < M)%N -> a \in tau -> b \in tau -> ~ ort M.-2.+1.
Proof.
move=> M1 ta tb; have -> : M.-2.+1 = M.-1 by move: M1; case: (M) => [|[]].
move=> h.
by apply: (both_ends ab M0 (size_nodal tau) _ _ h); apply/eqP; rewrite nodal_val.
Qed.
End Legendre.
