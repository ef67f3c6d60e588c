(* Collocation polynomials of the Dahlquist problem: energy identity, stability of the Legendre
   families. *)
From Verif.Base Require Import Str.
From mathcomp Require Import all_ssreflect all_algebra ring zify.
From Verif.Base Require Import PolyInterp PolyInt.
From Verif.Spec Require Import NodesSpec.
From Verif.Proofs Require Import OrthoP NodesP QuadP LegendreP.
Set Implicit Arguments.
Unset Strict Implicit.
Unset Printing Implicit Defensive.
Import GRing.Theory Num.Theory Order.TTheory.
Local Open Scope ring_scope.

(* integrals and field extensions *)
Section Map.
Variables (F K : numFieldType) (f : {rmorphism F -> K}).
Lemma aint_map (p : {poly F}) : aint (map_poly f p) = map_poly f (aint p).
Proof.
apply/polyP => i; rewrite coef_map !coef_aint coef_map.
by case: i => [|i] /=; rewrite ?mulr0n ?rmorph0 // !mulr1n rmorphM fmorphV rmorph_nat.
Qed.
Lemma pint_map (p : {poly F}) a b : pint (map_poly f p) (f a) (f b) = f (pint p a b).
Proof. by rewrite /pint aint_map !horner_map -rmorphB. Qed.
Lemma ortho_map (p : {poly F}) a b r :
  (forall q : {poly F}, (size q <= r)%N -> pint (p * q) a b = 0) ->
  forall q : {poly K}, (size q <= r)%N -> pint (map_poly f p * q) (f a) (f b) = 0.
Proof.
move=> h q sq; rewrite -[q]coefK poly_def mulr_sumr pint_sum big1 // => i _.
rewrite -scalerAr pintZ (_ : 'X^i = map_poly f 'X^i); last by rewrite map_polyXn.
by rewrite -rmorphM pint_map h ?rmorph0 ?mulr0 // size_polyXn (leq_trans (ltn_ord i)).
Qed.
End Map.

Section Cj.
Variable K : numClosedFieldType.
Implicit Types (p q U V N : {poly K}).
Definition cj p : {poly K} := map_poly conjC p.
Lemma cjE p (t : K) : t^* = t -> (cj p).[t] = (p.[t])^*.
Proof. by move=> e; rewrite -[t in LHS]e /cj horner_map. Qed.
Lemma cj0 p : (cj p).[0] = (p.[0])^*. Proof. by rewrite cjE // rmorph0. Qed.
Lemma cj1 p : (cj p).[1] = (p.[1])^*. Proof. by rewrite cjE // rmorph1. Qed.
Lemma cjM p q : cj (p * q) = cj p * cj q. Proof. exact: rmorphM. Qed.
Lemma cjD p q : cj (p + q) = cj p + cj q. Proof. exact: rmorphD. Qed.
Lemma cjB p q : cj (p - q) = cj p - cj q. Proof. exact: rmorphB. Qed.
Lemma cjZ (c : K) p : cj (c *: p) = c^* *: cj p. Proof. exact: map_polyZ. Qed.
Lemma cj_deriv p : cj p^`() = (cj p)^`(). Proof. by rewrite /cj deriv_map. Qed.
Lemma size_cj p : size (cj p) = size p. Proof. exact: size_map_poly. Qed.
Lemma sq_norm p (t : K) : t^* = t -> (p * cj p).[t] = `|p.[t]| ^+ 2.
Proof. by move=> e; rewrite hornerM cjE // normCK. Qed.

Section Pos.
Variable P : nat -> {poly K}.
Hypothesis sP : forall k, size (P k) = k.+1.
Hypothesis rP : forall k, cj (P k) = P k.
Hypothesis oP : forall k q, (size q <= k)%N -> pint (P k * q) 0 1 = 0.
Hypothesis pP : forall k, 0 < pint (P k * P k) 0 1.
Lemma sq_gt0 V : V != 0 -> 0 < pint (V * cj V) 0 1.
Proof.
have [m] := ubnP (size V); elim: m V => [//|m ih] V sm v0.
have s0 : (0 < size V)%N by rewrite size_poly_gt0.
pose n := (size V).-1; have sV : size V = n.+1 by rewrite /n prednK.
pose c := lead_coef V / lead_coef (P n).
have lP : lead_coef (P n) != 0 by rewrite lead_coef_eq0 -size_poly_gt0 sP.
have c0 : c != 0 by rewrite mulf_neq0 ?invr_eq0 // lead_coef_eq0.
pose W := V - c *: P n.
have sW : (size W <= n)%N.
  apply/leq_sizeP => j; rewrite leq_eqVlt => /orP [/eqP <-|hj]; rewrite coefB coefZ.
    rewrite /c !lead_coefE sV sP /= divfK ?subrr //.
    by move: lP; rewrite lead_coefE sP.
  by rewrite [V`_j]nth_default ?[(P n)`_j]nth_default ?mulr0 ?subr0 ?sP ?sV.
have VE : V = c *: P n + W by rewrite /W addrC subrK.
have i1 : pint (P n * cj W) 0 1 = 0 by apply: oP; rewrite size_cj.
have i2 : pint (W * P n) 0 1 = 0 by rewrite mulrC; apply: oP.
have -> : pint (V * cj V) 0 1 = `|c| ^+ 2 * pint (P n * P n) 0 1 + pint (W * cj W) 0 1.
  have -> : V * cj V = c *: (c^* *: (P n * P n)) + c *: (P n * cj W) + c^* *: (W * P n) + W * cj W.
    by rewrite VE cjD cjZ rP mulrDl mulrDr [W * _]mulrDr -!scalerAl -!scalerAr addrA.
  by rewrite !pintD !pintZ i1 i2 !mulr0 !addr0 mulrA normCK.
case: (W =P 0) => [->|/eqP w0].
  by rewrite mul0r pint0 addr0 mulr_gt0 ?exprn_gt0 ?normr_gt0.
have w1 : 0 < pint (W * cj W) 0 1 by apply: ih => //; apply: leq_ltn_trans sW _; move: sm; rewrite sV ltnS.
by rewrite addr_gt0 // mulr_gt0 ?exprn_gt0 ?normr_gt0.
Qed.
Lemma sq_ge0 V : 0 <= pint (V * cj V) 0 1.
Proof. by case: (V =P 0) => [->|/eqP /sq_gt0 /ltW //]; rewrite mul0r pint0. Qed.
End Pos.


(* solutions of U' - z U = kappa N *)
Section Energy.
Variables (N U : {poly K}) (z kap : K) (M : nat).
Hypothesis mN : N \is monic.
Hypothesis sN : size N = M.+1.
Hypothesis rN : cj N = N.
Hypothesis sU : (size U <= M.+1)%N.
Hypothesis eU : U^`() - z *: U = kap *: N.
Notation c := (U`_M).
Definition rest : {poly K} := U - c *: N.
Notation V := rest.

Lemma N_M : N`_M = 1.
Proof. by have := monicP mN; rewrite lead_coefE sN. Qed.
Lemma kapE : kap = - (z * c).
Proof.
have := congr1 (fun p : {poly K} => p`_M) eU; rewrite coefB !coefZ coef_deriv N_M mulr1 => <-.
by rewrite nth_default // mul0rn sub0r.
Qed.
Lemma size_rest : (size V <= M)%N.
Proof.
apply/leq_sizeP => j; rewrite leq_eqVlt => /orP [/eqP <-|hj]; rewrite coefB coefZ.
  by rewrite N_M mulr1 subrr.
by rewrite [U`_j]nth_default ?[N`_j]nth_default ?mulr0 ?subr0 ?sN // (leq_trans sU).
Qed.
Lemma UE : U = c *: N + V. Proof. by rewrite /rest addrC subrK. Qed.
Lemma restD : V^`() = z *: V - c *: N^`().
Proof.
rewrite /rest derivB derivZ scalerBr scalerA; apply/eqP; rewrite -subr_eq0; apply/eqP.
have -> : U^`() = z *: U + kap *: N by rewrite -eU addrC subrK.
by rewrite kapE scaleNr; ring.
Qed.

Lemma energy : (forall q, (size q <= M.-1)%N -> pint (N * q) 0 1 = 0) ->
  `|U.[1]| ^+ 2 - `|U.[0]| ^+ 2 =
  (z + z^*) * pint (V * cj V) 0 1 + `|c| ^+ 2 * (N.[1] ^+ 2 - N.[0] ^+ 2).
Proof.
move=> oN; have h := pint_deriv (V * cj V) 0 1.
have e1 : pint (N^`() * cj V) 0 1 = N.[1] * (cj V).[1] - N.[0] * (cj V).[0].
  rewrite pint_parts oN ?subr0 // -cj_deriv size_cj.
  by case: (V =P 0) => [->|/eqP v0]; rewrite ?deriv0 ?size_poly0 // -ltnS;
    apply: leq_trans (lt_size_deriv v0) _; apply: leq_trans size_rest _; case: (M).
have e2 : pint (V * cj N^`()) 0 1 = N.[1] * V.[1] - N.[0] * V.[0].
  rewrite cj_deriv rN mulrC pint_parts oN ?subr0 //.
  by case: (V =P 0) => [->|/eqP v0]; rewrite ?deriv0 ?size_poly0 // -ltnS;
    apply: leq_trans (lt_size_deriv v0) _; apply: leq_trans size_rest _; case: (M).
have d : (V * cj V)^`() = (z + z^*) *: (V * cj V) - c *: (N^`() * cj V) - c^* *: (V * cj N^`()).
  have dV : cj V^`() = z^* *: cj V - c^* *: cj N^`().
    by rewrite restD [LHS]cjB [cj (z *: V)]cjZ [cj (c *: _)]cjZ.
  rewrite derivM -cj_deriv dV restD -!mul_polyC polyCD.
  move: (z%:P) (z^*%:P) (c%:P) (c^*%:P) (V) (cj V) (N^`()) (cj N^`()) => a b e g v w n m.
  by ring.
move: h; rewrite d !pintB !pintZ e1 e2 !hornerM cj0 cj1.
have en (t : K) : t^* = t -> `|U.[t]| ^+ 2 = V.[t] * (V.[t])^* + c * N.[t] * (V.[t])^* + c^* * N.[t] * V.[t] + `|c| ^+ 2 * N.[t] ^+ 2.
  move=> te; rewrite normCK normCK {1 2}UE hornerD hornerZ rmorphD rmorphM /= -[(N.[t])^*]cjE // rN.
  by ring.
rewrite (en 0) ?rmorph0 // (en 1) ?rmorph1 //.
move: (V.[1]) (V.[1])^* (V.[0]) (V.[0])^* (N.[1]) (N.[0]) (pint _ _ _) (`|c| ^+ 2) (z + z^*) (c) (c)^*.
move=> v1 v1' v0 v0' n1 n0 I cc zz e e' h.
have {}h : zz * I = v1 * v1' - v0 * v0' + e * (n1 * v1' - n0 * v0') + e' * (n1 * v1 - n0 * v0).
  by rewrite -h; ring.
by rewrite h; ring.
Qed.
End Energy.

Lemma exp_free U (z : K) : z != 0 -> U^`() = z *: U -> U = 0.
Proof.
move=> z0 e; apply/eqP; apply: contraT => u0; have := lt_size_deriv u0.
by rewrite e size_scale // ltnn.
Qed.
Lemma const_free U : U^`() = 0 -> U.[0] = 0 -> U = 0.
Proof. by move=> /deriv0_const ->; rewrite hornerC => ->. Qed.

Section Stab.
Hypothesis pos : forall V, V != 0 -> 0 < pint (V * cj V) 0 1.
Lemma pos0 V : 0 <= pint (V * cj V) 0 1.
Proof. by case: (V =P 0) => [->|/eqP /pos /ltW //]; rewrite mul0r pint0. Qed.

Section One.
Variables (N U : {poly K}) (z kap : K) (M : nat).
Hypothesis mN : N \is monic.
Hypothesis sN : size N = M.+1.
Hypothesis rN : cj N = N.
Hypothesis sU : (size U <= M.+1)%N.
Hypothesis eU : U^`() - z *: U = kap *: N.
Hypothesis oN : forall q, (size q <= M.-1)%N -> pint (N * q) 0 1 = 0.
Notation c := (U`_M).
Notation V := (rest N U M).

Lemma sqr_mono (x y : K) : (`|x| ^+ 2 <= `|y| ^+ 2) = (`|x| <= `|y|).
Proof. by rewrite ler_pexpn2r // nnegrE. Qed.
Lemma sqr_smono (x y : K) : (`|x| ^+ 2 < `|y| ^+ 2) = (`|x| < `|y|).
Proof. by rewrite ltr_pexpn2r // nnegrE. Qed.
Lemma c0_free : z != 0 -> c = 0 -> U = 0.
Proof.
move=> z0 c0; apply: (exp_free z0); apply/eqP; rewrite -subr_eq0 eU.
by rewrite (kapE mN sN sU eU) c0 mulr0 oppr0 scale0r.
Qed.
Lemma z0_free : z = 0 -> U^`() = 0.
Proof. by move=> z0; have := eU; rewrite (kapE mN sN sU eU) z0 mul0r oppr0 !scale0r subr0. Qed.
Lemma rest0 : (0 < M)%N -> V = 0 -> U = 0.
Proof.
move=> M0 v0; have := restD mN sN sU eU; rewrite v0 deriv0 scaler0 sub0r => /eqP.
rewrite eq_sym oppr_eq0 scaler_eq0 => /orP [/eqP c0|/eqP n0].
  by rewrite (UE N U M) v0 addr0 c0 scale0r.
have := congr1 (fun p : {poly K} => p`_M.-1) n0; rewrite coef_deriv prednK // (N_M mN sN) coef0 => /eqP.
by rewrite pnatr_eq0 eqn0Ngt M0.
Qed.

Lemma decay : N.[1] ^+ 2 <= N.[0] ^+ 2 -> z + z^* <= 0 -> `|U.[1]| <= `|U.[0]|.
Proof.
move=> h1 h2; rewrite -sqr_mono -subr_le0 (energy mN sN rN sU eU oN).
have a : (z + z^*) * pint (V * cj V) 0 1 <= 0 by rewrite mulr_le0_ge0 ?pos0.
have b : `|c| ^+ 2 * (N.[1] ^+ 2 - N.[0] ^+ 2) <= 0 by rewrite mulr_ge0_le0 ?exprn_ge0 ?subr_le0.
by have := ler_add a b; rewrite addr0.
Qed.
Lemma decay_strict : N.[1] ^+ 2 <= N.[0] ^+ 2 -> (0 < M)%N -> z + z^* < 0 -> U != 0 -> `|U.[1]| < `|U.[0]|.
Proof.
move=> h1 M0 h2 u0; rewrite -sqr_smono -subr_lt0 (energy mN sN rN sU eU oN).
have v0 : V != 0 by apply: contra u0 => /eqP /(rest0 M0) ->.
have a : (z + z^*) * pint (V * cj V) 0 1 < 0 by rewrite nmulr_rlt0 ?pos.
have b : `|c| ^+ 2 * (N.[1] ^+ 2 - N.[0] ^+ 2) <= 0 by rewrite mulr_ge0_le0 ?exprn_ge0 ?subr_le0.
by have := ltr_le_add a b; rewrite addr0.
Qed.
Lemma isometry : N.[1] ^+ 2 = N.[0] ^+ 2 -> z + z^* = 0 -> `|U.[1]| = `|U.[0]|.
Proof.
move=> h1 h2; apply/eqP; rewrite eq_le -!sqr_mono -eq_le -subr_eq0 (energy mN sN rN sU eU oN).
by rewrite h1 h2 subrr mul0r mulr0 addr0.
Qed.
Lemma growth : N.[0] = 0 -> 0 < N.[1] ^+ 2 -> 0 <= z + z^* -> z != 0 -> U != 0 -> `|U.[0]| < `|U.[1]|.
Proof.
move=> n0 n1 h2 z0 u0; rewrite -sqr_smono -subr_gt0 (energy mN sN rN sU eU oN) n0 expr0n subr0.
have c0 : c != 0 by apply: contra u0 => /eqP /(c0_free z0) ->.
by rewrite ltr_paddl ?mulr_ge0 ?pos0 // mulr_gt0 // exprn_gt0 // normr_gt0.
Qed.
Lemma unique_right : N.[1] = 0 -> 0 < N.[0] ^+ 2 -> z + z^* <= 0 -> U.[0] = 0 -> U = 0.
Proof.
move=> n1 n0 h2 u0; case: (z =P 0) => [/z0_free h|/eqP z0]; first exact: const_free.
apply: (c0_free z0); have := energy mN sN rN sU eU oN; rewrite u0 n1 normr0 !expr0n subr0 sub0r => h.
have a : (z + z^*) * pint (V * cj V) 0 1 <= 0 by rewrite mulr_le0_ge0 ?pos0.
have e : `|c| ^+ 2 * N.[0] ^+ 2 = (z + z^*) * pint (V * cj V) 0 1 - `|U.[1]| ^+ 2.
  by rewrite h mulrN opprD opprK addrA subrr add0r.
have : `|c| ^+ 2 * N.[0] ^+ 2 <= 0 by rewrite e subr_le0 (le_trans a) // exprn_ge0.
by rewrite pmulr_lle0 // => hc; apply/eqP; rewrite -normr_le0 -(@ler_pexpn2r _ 2) ?nnegrE ?expr0n.
Qed.
Lemma unique_full : (forall q, (size q <= M)%N -> pint (N * q) 0 1 = 0) -> N.[0] != 0 ->
  N.[1] ^+ 2 = N.[0] ^+ 2 -> z + z^* <= 0 -> U.[0] = 0 -> U = 0.
Proof.
move=> fN n0 nn h2 u0; case: (z =P 0) => [/z0_free h|/eqP z0]; first exact: const_free.
have u1 : U.[1] = 0.
  have h1 : N.[1] ^+ 2 <= N.[0] ^+ 2 by rewrite nn.
  by have := decay h1 h2; rewrite u0 normr0 normr_le0 => /eqP.
have qU q : (size q <= M)%N -> pint (q * U) 0 1 = 0.
  have [m] := ubnP (size q); elim: m q => [//|m ih] q sm sq.
  case: (q =P 0) => [->|/eqP q0]; first by rewrite mul0r pint0.
  have sd := lt_size_deriv q0.
  have := congr1 (fun p => pint (q * p) 0 1) eU; rewrite mulrBr pintB -!scalerAr !pintZ.
  rewrite [q * N]mulrC fN // mulr0 [q * U^`()]mulrC pint_parts u0 u1 !mul0r subrr sub0r.
  rewrite [U * q^`()]mulrC [pint (q^`() * U) 0 1]ih ?oppr0 ?sub0r; last 2 first.
  - by apply: leq_trans sd _; rewrite -ltnS.
  - by apply: leq_trans (ltnW sd) _.
  by move/eqP; rewrite oppr_eq0 mulf_eq0 (negbTE z0) => /eqP.
have v0 : V = 0.
  apply/eqP; apply: contraT => /pos.
  rewrite /rest mulrBl -scalerAl pintB pintZ mulrC qU ?fN ?size_cj ?size_rest // mulr0 subrr.
  by rewrite ltxx.
have : (c *: N + V).[0] = 0 by rewrite -UE.
rewrite v0 addr0 hornerZ => /eqP; rewrite mulf_eq0 (negbTE n0) orbF => /eqP c0.
exact: c0_free.
Qed.
End One.


Lemma full_ends N M : size N = M.+1 -> (forall q, (size q <= M)%N -> pint (N * q) 0 1 = 0) ->
  N.[1] ^+ 2 = N.[0] ^+ 2.
Proof.
move=> sN fN; apply/eqP; rewrite -subr_eq0 !expr2 -!hornerM -pint_deriv derivM mulrC pintD !fN ?addr0 //.
by rewrite -ltnS -sN lt_size_deriv // -size_poly_gt0 sN.
Qed.
Definition stableN (N : {poly K}) M := forall z kap U, (size U <= M.+1)%N -> U^`() - z *: U = kap *: N ->
  z + z^* <= 0 -> [/\ U.[0] = 0 -> U = 0, `|U.[1]| <= `|U.[0]| &
    (z + z^* < 0 -> U != 0 -> `|U.[1]| < `|U.[0]|)].
Definition conservN (N : {poly K}) M := forall z kap U, (size U <= M.+1)%N -> U^`() - z *: U = kap *: N ->
  z + z^* = 0 -> `|U.[1]| = `|U.[0]|.
Lemma weaken N M : (forall q, (size q <= M)%N -> pint (N * q) 0 1 = 0) ->
  forall q, (size q <= M.-1)%N -> pint (N * q) 0 1 = 0.
Proof. by move=> h q sq; apply: h; apply: leq_trans sq (leq_pred _). Qed.

Lemma stable_full N M : N \is monic -> size N = M.+1 -> cj N = N -> (0 < M)%N -> N.[0] != 0 ->
  (forall q, (size q <= M)%N -> pint (N * q) 0 1 = 0) -> stableN N M /\ conservN N M.
Proof.
move=> mN sN rN M0 n0 fN; have nn := full_ends sN fN.
have nl : N.[1] ^+ 2 <= N.[0] ^+ 2 by rewrite nn.
have oN := weaken fN; split=> z kap U sU eU hz; last exact: isometry mN sN rN sU eU oN nn hz.
split; first exact: (unique_full mN sN rN sU eU oN fN n0 nn hz).
- exact: (decay mN sN rN sU eU oN nl hz).
- exact: (decay_strict mN sN rN sU eU oN nl M0).
Qed.
Lemma stable_right N M : N \is monic -> size N = M.+1 -> cj N = N -> (0 < M)%N ->
  0 < N.[0] ^+ 2 -> N.[1] = 0 ->
  (forall q, (size q <= M.-1)%N -> pint (N * q) 0 1 = 0) -> stableN N M.
Proof.
move=> mN sN rN M0 n0 n1 oN z kap U sU eU hz.
have nl : N.[1] ^+ 2 <= N.[0] ^+ 2 by rewrite n1 expr0n ltW.
split; first exact: (unique_right mN sN rN sU eU oN n1 n0 hz).
- exact: (decay mN sN rN sU eU oN nl hz).
- exact: (decay_strict mN sN rN sU eU oN nl M0).
Qed.
Lemma stable_both N M : N \is monic -> size N = M.+1 -> cj N = N -> (1 < M)%N ->
  N^`().[0] != 0 -> N.[0] = 0 -> N.[1] = 0 ->
  (forall q, (size q <= M.-2)%N -> pint (N * q) 0 1 = 0) -> stableN N M /\ conservN N M.
Proof.
move=> mN sN rN M1 d0 n0 n1 oN; have M0 : (0 < M)%N by apply: ltnW.
have mz : M%:R != 0 :> K by rewrite pnatr_eq0 -lt0n.
set G := M%:R^-1 *: N^`().
have sd : size N^`() = M.
  apply/eqP; rewrite eqn_leq; apply/andP; split.
    by rewrite -ltnS -sN lt_size_deriv // -size_poly_gt0 sN.
  have : N^`()`_M.-1 != 0 by rewrite coef_deriv prednK // (N_M mN sN).
  by apply: contraR; rewrite -ltnNge => h; rewrite nth_default // -ltnS prednK.
have sG : size G = M.-1.+1 by rewrite size_scale ?invr_eq0 // sd prednK.
have mG : G \is monic.
  by apply/monicP; rewrite /lead_coef sG /= coefZ coef_deriv prednK // (N_M mN sN) mulVf.
have rG : cj G = G by rewrite cjZ cj_deriv rN fmorphV rmorph_nat.
have G0 : G.[0] != 0 by rewrite hornerZ mulf_neq0 ?invr_eq0.
have fG q : (size q <= M.-1)%N -> pint (G * q) 0 1 = 0.
  move=> sq; rewrite -scalerAl pintZ pint_parts n0 n1 !mul0r subrr sub0r.
  case: (q =P 0) => [->|/eqP q0]; first by rewrite deriv0 mulr0 pint0 oppr0 mulr0.
  by rewrite oN ?oppr0 ?mulr0 //; have := leq_trans (lt_size_deriv q0) sq; case: (M) M1 => [|[|m]].
have MM0 : (0 < M.-1)%N by case: (M) M1 => [|[|m]].
have [st co] := stable_full mG sG rG MM0 G0 fG.
have W z kap U : (size U <= M.+1)%N -> U^`() - z *: U = kap *: N ->
  [/\ (size U^`() <= M.-1.+1)%N, U^`()^`() - z *: U^`() = (kap * M%:R) *: G,
      U^`().[0] = z * U.[0] & U^`().[1] = z * U.[1]].
  move=> sU eU; split.
  - rewrite prednK //; case: (U =P 0) => [->|/eqP u0]; first by rewrite deriv0 size_poly0.
    by rewrite -ltnS; apply: leq_trans (lt_size_deriv u0) sU.
  - have := congr1 (fun p : {poly K} => p^`()) eU; rewrite derivB !derivZ => ->.
    by rewrite scalerA -mulrA mulfV // mulr1.
  - by have := congr1 (fun p => p.[0]) eU; rewrite hornerD hornerN !hornerZ n0 mulr0 => /eqP; rewrite subr_eq0 => /eqP.
  - by have := congr1 (fun p => p.[1]) eU; rewrite hornerD hornerN !hornerZ n1 mulr0 => /eqP; rewrite subr_eq0 => /eqP.
split=> z kap U sU eU hz; have [sW eW w0 w1] := W _ _ _ sU eU.
  have [h1 h2 h3] := st _ _ _ sW eW hz; split.
  - by move=> u0; apply: const_free => //; apply: h1; rewrite w0 u0 mulr0.
  - case: (z =P 0) => [z0|/eqP z0].
      by move: (z0_free mN sN sU eU z0) => /deriv0_const ->; rewrite !hornerC.
    by move: h2; rewrite w0 w1 !normrM ler_pmul2l // normr_gt0.
  - move=> sz u0; have z0 : z != 0 by apply: contraTneq sz => ->; rewrite conjC0 addr0 ltxx.
    have : U^`() != 0.
      apply: contra u0 => /eqP d; have := eU; rewrite d sub0r => /eqP.
      rewrite -scaleNr => /eqP e; move: (congr1 (fun p : {poly K} => p`_M) e); rewrite !coefZ (N_M mN sN) mulr1.
      move/deriv0_const: d => ->; rewrite coefC eqn0Ngt M0 /= mulr0 => k0.
      have := congr1 (fun p : {poly K} => p.[0]) e; rewrite !hornerZ n0 mulr0 => /eqP.
      by rewrite mulf_eq0 oppr_eq0 (negbTE z0) /= => /eqP hh; rewrite polyC_eq0 -horner_coef0 hh.
    by move/(h3 sz); rewrite w0 w1 !normrM ltr_pmul2l // normr_gt0.
case: (z =P 0) => [z0|/eqP z0].
  by move: (z0_free mN sN sU eU z0) => /deriv0_const ->; rewrite !hornerC.
have := co _ _ _ sW eW hz; rewrite w0 w1 !normrM; apply: mulfI.
by rewrite normr_eq0.
Qed.
Lemma grows_left N M : N \is monic -> size N = M.+1 -> cj N = N ->
  N.[0] = 0 -> 0 < N.[1] ^+ 2 ->
  (forall q, (size q <= M.-1)%N -> pint (N * q) 0 1 = 0) ->
  forall z kap U, (size U <= M.+1)%N -> U^`() - z *: U = kap *: N ->
  0 <= z + z^* -> z != 0 -> U != 0 -> `|U.[0]| < `|U.[1]|.
Proof.
by move=> mN sN rN n0 n1 oN z kap U sU eU hz z0 u0; apply: growth mN sN rN sU eU oN n0 n1 hz z0 u0.
Qed.

(* a node at 0: no non-trivial solution starts from 0 on the imaginary axis *)
Lemma unique_left N M z kap U : N \is monic -> size N = M.+1 -> cj N = N -> (0 < M)%N -> N.[0] = 0 ->
  (forall q, (size q <= M.-1)%N -> pint (N * q) 0 1 = 0) ->
  (size U <= M.+1)%N -> U^`() - z *: U = kap *: N -> z + z^* = 0 -> U.[0] = 0 -> U = 0.
Proof.
move=> mN sN rN M0 n0 oN sU eU hz u0.
have fac (p : {poly K}) : p.[0] = 0 -> exists2 g, p = 'X * g & forall i, g`_i = p`_i.+1.
  move/rootP/factor_theorem => [g]; rewrite subr0 mulrC => e; exists g => // i.
  by rewrite e coefXM.
have [g eg cg] := fac _ u0; have [n en cn] := fac _ n0.
have rn : cj n = n.
  have : 'X * cj n = 'X * n by rewrite -en -[RHS]rN en cjM /cj map_polyX.
  by apply: mulfI; rewrite polyX_eq0.
set c := U`_M; set h := pint (N * n) 0 1.
have ort (p : {poly K}) a : (forall i, (M.-1 <= i)%N -> p`_i = (a *: n)`_i) -> pint (N * p) 0 1 = a * h.
  move=> hp; rewrite -[p](subrK (a *: n)) mulrDr pintD oN ?add0r ?[N * (a *: n)]mulrC -?scalerAl ?pintZ ?[n * N]mulrC //.
  by apply/leq_sizeP => i /hp e; rewrite coefB e subrr.
have gn i : (M.-1 <= i)%N -> g`_i = (c *: n)`_i.
  rewrite leq_eqVlt => /orP [/eqP <-|hi]; rewrite coefZ cg cn.
    by rewrite prednK // (N_M mN sN) mulr1.
  have iM : (M < i.+1)%N by rewrite ltnS -(prednK M0).
  by rewrite [U`_i.+1]nth_default ?[N`_i.+1]nth_default ?mulr0 ?sN //; apply: leq_trans sU _.
have i1 : pint (N * g) 0 1 = c * h by apply: ort.
have i2 : pint (N * cj g) 0 1 = c^* * h.
  by apply: ort => i hi; rewrite coefZ -[in RHS]rn !coef_map gn // coefZ -rmorphM.
have e1 : U^`() * cj g - z *: (U * cj g) = kap *: (N * cj g) by rewrite !scalerAl -mulrBl eU.
have eU' : cj U^`() - z^* *: cj U = kap^* *: N.
  by have := congr1 cj eU; rewrite cjB !cjZ rN.
have e2 : cj U^`() * g - z^* *: (cj U * g) = kap^* *: (N * g) by rewrite !scalerAl -mulrBl eU'.
have sumE : g * cj g + ('X * (g * cj g))^`() - (z + z^*) *: ('X * (g * cj g)) = kap *: (N * cj g) + kap^* *: (N * g).
  rewrite -e1 -e2 cj_deriv eg cjM /cj map_polyX -/(cj g).
  rewrite !derivM derivX scalerDl.
  move: (cj g) ((cj g)^`()) (g^`()) => gb gb' g'; rewrite -!mul_polyC.
  by move: (z%:P) (z^*%:P) => y y'; ring.
have := congr1 (fun p => pint p 0 1) sumE.
rewrite hz scale0r subr0 !pintD !pintZ i1 i2 pint_deriv (kapE mN sN sU eU) -/c.
rewrite !hornerM !hornerX mul0r subr0 mul1r cj1 -normCK rmorphN rmorphM /= => e3.
have {}e3 : pint (g * cj g) 0 1 + `|g.[1]| ^+ 2 = 0.
  rewrite e3; transitivity (- (z + z^*) * (c * c^* * h)); last by rewrite hz oppr0 mul0r.
  by move: (c^*) (z^*) => c' z'; ring.
apply/eqP; rewrite eg mulf_eq0 polyX_eq0 /=; apply: contraT => /pos gp.
have : 0 < pint (g * cj g) 0 1 + `|g.[1]| ^+ 2 by rewrite ltr_paddr ?exprn_ge0.
by rewrite e3 ltxx.
Qed.
End Stab.
End Cj.
