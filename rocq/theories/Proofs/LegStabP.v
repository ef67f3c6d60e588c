(* Stability of the collocation methods on Legendre nodes. *)
From Verif.Base Require Import Str.
From mathcomp Require Import all_ssreflect all_algebra ring zify.
From Verif.Base Require Import Outcome Arr Ext LinSolve PolyInterp PolyInt.
From Verif.Model Require Import QGen.
From Verif.Spec Require Import QCoeffSpec NodesSpec.
From Verif.Proofs Require Import LagrangeP LagrangeInit OrthoP NodesP QuadP LegendreP StabP AStabP StabFunP.
Set Implicit Arguments.
Unset Strict Implicit.
Unset Printing Implicit Defensive.
Import GRing.Theory Num.Theory Order.TTheory.
Local Open Scope ring_scope.

(* norms of the Legendre polynomials *)
Section Leg.
Variable F : realFieldType.
Implicit Types (p q : {poly F}).
Definition bleg (k : nat) : F := k%:R ^+ 2 / (4%:R * k%:R ^+ 2 - 1).
Notation leg := (op (fun=> 0) bleg).
Lemma bleg_gt0 k : 0 < bleg k.+1.
Proof.
rewrite /bleg divr_gt0 ?exprn_gt0 ?ltr0n // subr_gt0 -natrX -natrM ltr1n.
by rewrite expnS; move: (k.+1 ^ 1)%N (expn_gt0 k.+1 1) => m; nia.
Qed.
Lemma leg_ort k q : (size q <= k)%N -> pint (leg k * q) (-1) 1 = 0.
Proof. by apply: leg_ortho. Qed.
Lemma leg_norm k : 0 < pint (leg k * leg k) (-1) 1.
Proof.
elim: k => [|k ih].
  have e0 : (1 : {poly F}) = ('X : {poly F})^`() by rewrite derivX.
  by rewrite op0 mulr1 e0 pint_deriv !hornerX opprK ltr_paddl ?ltr01 // ler01.
have sk j : (size (leg j) <= j.+1)%N by have [->] := size_op (fun=> 0) bleg j.
have e : pint (leg k.+1 * leg k.+1) (-1) 1 = pint (leg k.+1 * ('X * leg k)) (-1) 1.
  apply/eqP; rewrite -subr_eq0 -pintB -mulrBr; apply/eqP; apply: leg_ort.
  case: (k) => [|j]; first by rewrite op1 op0 polyC0 subr0 mulr1 subrr size_poly0.
  rewrite legS addrAC subrr sub0r size_opp mul_polyC.
  by apply: leq_trans (size_scale_leq _ _) _; apply: leq_trans (sk _) _.
rewrite e mulrA [leg k.+1 * 'X]mulrC.
have -> : 'X * leg k.+1 = leg k.+2 + bleg k.+1 *: leg k by rewrite legS mul_polyC subrK.
rewrite mulrDl pintD -scalerAl pintZ leg_ort ?add0r; last by apply: leq_trans (sk _) _.
by rewrite mulr_gt0 // bleg_gt0.
Qed.
(* on the unit interval *)
Definition lg1 k : {poly F} := leg k \Po aff 2%:R (-1).
Lemma size_aff2 : size (aff (2%:R : F) (-1)) = 2%N.
Proof. by rewrite /aff -mul_polyC size_MXaddC -polyC0 (inj_eq (@polyC_inj _)) pnatr_eq0 /= size_polyC pnatr_eq0. Qed.
Lemma size_lg1 k : size (lg1 k) = k.+1.
Proof. by rewrite /lg1 size_comp_poly2 ?size_aff2 //; have [->] := size_op (fun=> 0) bleg k. Qed.
Lemma pint_lg1 p : 2%:R * pint (p \Po aff 2%:R (-1)) 0 1 = pint p (-1) 1 :> F.
Proof. by rewrite pint_aff mulr0 add0r mulr1; congr (pint _ _ _); ring. Qed.
Lemma lg1_norm k : 0 < pint (lg1 k * lg1 k) 0 1.
Proof. by rewrite -(@pmulr_rgt0 _ 2%:R) ?ltr0n // -comp_polyM pint_lg1 leg_norm. Qed.
Lemma lg1_ort k q : (size q <= k)%N -> pint (lg1 k * q) 0 1 = 0.
Proof.
move=> sq; have n2 : 2%:R != 0 :> F by rewrite pnatr_eq0.
apply: (mulfI n2); rewrite mulr0.
have -> : q = (q \Po aff 2%:R^-1 2%:R^-1) \Po aff 2%:R (-1).
  rewrite -comp_polyA (_ : aff _ _ \Po aff _ _ = 'X) ?comp_polyXr //.
  rewrite /aff comp_polyD comp_polyC comp_polyZ comp_polyX scalerDr scalerA mulVf // scale1r -addrA.
  by rewrite -mul_polyC -polyCM -polyCD mulrN1 addNr addr0.
rewrite -comp_polyM pint_lg1 leg_ort //.
exact: leq_trans (size_comp_aff _ _ _) sq.
Qed.
End Leg.

Section Ext.
Variables (F : realFieldType) (K : numClosedFieldType) (f : {rmorphism F -> K}).
Hypothesis fmono : {mono f : x y / x <= y}.
Lemma f_conj x : (f x)^* = f x.
Proof.
apply/eqP; rewrite -CrealE realE -(rmorph0 f) !fmono; exact: le_total.
Qed.
Lemma f_lt x y : (f x < f y) = (x < y).
Proof. by rewrite !lt_neqAle fmono (inj_eq (@fmorph_inj _ _ f)). Qed.
Lemma cj_map (p : {poly F}) : cj (map_poly f p) = map_poly f p.
Proof. by apply/polyP => i; rewrite !coef_map /= f_conj. Qed.
Lemma posK (V : {poly K}) : V != 0 -> 0 < pint (V * cj V) 0 1.
Proof.
apply: (@sq_gt0 _ (fun k => map_poly f (lg1 F k))).
- by move=> k; rewrite size_map_poly size_lg1.
- by move=> k; rewrite cj_map.
- move=> k q sq; have := ortho_map f (@lg1_ort F k) sq; rewrite rmorph0 rmorph1; exact.
- move=> k; have := pint_map f (lg1 F k * lg1 F k) 0 1; rewrite rmorph0 rmorph1 rmorphM /= => ->.
  by rewrite -(rmorph0 f) f_lt lg1_norm.
Qed.

Section Tau.
Implicit Types U : {poly K}.
Variable tau : seq F.
Hypothesis srt : sorted <%O tau.
Notation M := (size tau).
Notation N := (map_poly f (nodal tau)).
Notation Q' := (map (map f) (Qm tau 0)).
Notation w' := (map f (wv tau 0 1)).
Notation R z := (stabf M Q' w' z).

Lemma start z u (x : 'cV_M) : stagemx M Q' z *m x = u *: const_mx 1 ->
  exists (U : {poly K}) kap, [/\ (size U <= M.+1)%N, U^`() - z *: U = kap *: N, U.[0] = u,
    U.[1] = u + z * (rvl M w' *m x) 0 0 & (U = 0 -> x = 0)].
Proof.
move=> ex; have [kap eU] := cpol_eq srt ex.
exists (cpol f z u x), kap; split=> //; [exact: size_cpol|exact: cpol0|exact: cpol1|exact: cpol_free].
Qed.
Lemma start1 z : stagemx M Q' z \in unitmx ->
  exists (U : {poly K}) kap, [/\ (size U <= M.+1)%N, U^`() - z *: U = kap *: N, U.[0] = 1, U.[1] = R z & U != 0].
Proof.
move=> un; have [x ex] := stages_ex un; rewrite -[const_mx 1]scale1r in ex.
have [U [kap [sU eU u0 u1 _]]] := start ex; exists U, kap; split=> //.
  by rewrite u1 (stabf_stages _ un (x := x)) //; rewrite ex scale1r.
by apply: contraTneq (oner_neq0 K) => e; rewrite -u0 e horner0 eqxx.
Qed.
Lemma start_unit z : (forall U kap, (size U <= M.+1)%N -> U^`() - z *: U = kap *: N -> U.[0] = 0 -> U = 0) ->
  stagemx M Q' z \in unitmx.
Proof.
move=> h; apply: unitmx_inj => x ex; rewrite -(scale0r (const_mx 1)) in ex.
by have [U [kap [sU eU u0 _ hx]]] := start ex; apply: hx; apply: h eU u0.
Qed.

Lemma stable_tau z : stableN N M -> z + z^* <= 0 ->
  [/\ stagemx M Q' z \in unitmx, `|R z| <= 1 & (z + z^* < 0 -> `|R z| < 1)].
Proof.
move=> st hz; have un : stagemx M Q' z \in unitmx.
  by apply: start_unit => U kap sU eU; have [] := st _ _ _ sU eU hz.
have [U [kap [sU eU u0 u1 nz]]] := start1 un; have [_ h1 h2] := st _ _ _ sU eU hz.
rewrite u0 u1 normr1 in h1 h2; split=> // sz; exact: h2.
Qed.
Lemma conserv_tau z : conservN N M -> stagemx M Q' z \in unitmx -> z + z^* = 0 -> `|R z| = 1.
Proof.
move=> co un hz; have [U [kap [sU eU u0 u1 _]]] := start1 un.
by have := co _ _ _ sU eU hz; rewrite u0 u1 normr1.
Qed.

Lemma f_sq x : x != 0 -> 0 < f x ^+ 2.
Proof. by move=> x0; rewrite -rmorphX -(rmorph0 f) f_lt exprn_even_gt0. Qed.
Lemma map_ort r : (forall q : {poly F}, (size q <= r)%N -> pint (nodal tau * q) 0 1 = 0) ->
  forall q : {poly K}, (size q <= r)%N -> pint (N * q) 0 1 = 0.
Proof. by move=> h q /(ortho_map f h); rewrite rmorph0 rmorph1. Qed.

Lemma gauss_stable : (0 < M)%N -> 0 \notin tau ->
  (forall q : {poly F}, (size q <= M)%N -> pint (nodal tau * q) 0 1 = 0) -> stableN N M /\ conservN N M.
Proof.
move=> M0 t0 o; apply: stable_full (map_ort o); rewrite ?monicN ?sizeN ?cj_map //; first exact: posK.
by rewrite N_at0 fmorph_eq0 nodal_root.
Qed.
Lemma right_stable : (0 < M)%N -> 0 \notin tau -> 1 \in tau ->
  (forall q : {poly F}, (size q <= M.-1)%N -> pint (nodal tau * q) 0 1 = 0) -> stableN N M.
Proof.
move=> M0 t0 t1 o; apply: stable_right (map_ort o); rewrite ?monicN ?sizeN ?cj_map //; first exact: posK.
  by rewrite N_at0 f_sq // nodal_root.
by apply/eqP; rewrite N_at1 fmorph_eq0 nodal_root.
Qed.
Lemma lobatto_stable : (1 < M)%N -> 0 \in tau -> 1 \in tau ->
  (forall q : {poly F}, (size q <= M.-2)%N -> pint (nodal tau * q) 0 1 = 0) -> stableN N M /\ conservN N M.
Proof.
move=> M1 t0 t1 o; apply: stable_both (map_ort o); rewrite ?monicN ?sizeN ?cj_map //; first exact: posK.
- by rewrite deriv_map -{1}(rmorph0 f) horner_map fmorph_eq0 nodal_simple.
- by apply/eqP; rewrite N_at0 fmorph_eq0 nodal_root.
- by apply/eqP; rewrite N_at1 fmorph_eq0 nodal_root.
Qed.
(* a node at 0 but not at 1 *)
Lemma left_grows z : (0 < M)%N -> 0 \in tau -> 1 \notin tau ->
  (forall q : {poly F}, (size q <= M.-1)%N -> pint (nodal tau * q) 0 1 = 0) -> z + z^* = 0 ->
  stagemx M Q' z \in unitmx /\ (z != 0 -> 1 < `|R z|).
Proof.
move=> M0 t0 t1 o hz.
have n0 : N.[0] = 0 by apply/eqP; rewrite N_at0 fmorph_eq0 nodal_root.
have un : stagemx M Q' z \in unitmx.
  apply: start_unit => U kap sU eU.
  exact: (unique_left posK (monicN tau f) (sizeN tau f) (cj_map _) M0 n0 (map_ort o) sU eU hz).
split=> // z0; have [U [kap [sU eU u0 u1 nz]]] := start1 un.
rewrite (_ : 1 < `|R z| = (`|U.[0]| < `|U.[1]|)); last by rewrite u0 u1 normr1.
apply: (grows_left posK (monicN tau f) (sizeN tau f) (cj_map _) n0 _ (map_ort o) sU eU _ z0 nz); last by rewrite hz.
by rewrite N_at1 f_sq // nodal_root.
Qed.
End Tau.
End Ext.
