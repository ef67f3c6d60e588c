(* Which points are the nodes: a criterion, and trigonometric forms of the Chebyshev polynomials. *)
From Coq Require Import Reals.
From Verif.Base Require Import Str.
From mathcomp Require Import all_ssreflect all_algebra ring zify.
From Verif.Base Require Import RField Outcome Arr.
From Verif.Model Require Import Nodes.
From Verif.Spec Require Import NodesSpec.
From Verif.Proofs Require Import OrthoP NodesP NodesThms ChebP FejerP.
From Verif.Properties Require Import NodesProps.
Set Implicit Arguments.
Unset Strict Implicit.
Unset Printing Implicit Defensive.
Import GRing.Theory Num.Theory Order.TTheory.
Local Open Scope ring_scope.
Bind Scope ring_scope with R.
Local Arguments cos x%R.
Local Arguments sin x%R.

Section Criterion.
Variable F : realFieldType.
Variables (fpi : F) (eigh : seq F -> seq F -> seq F) (fsqrt : F -> F).
Implicit Types (nt qt : string).
Notation P nt k := (clas F nt k).

Lemma clas_ends nt k : nt \in ORTHO ->
  exists u v, [/\ 0 < u, 0 < v, gam F nt k * (P nt k).[1] = u & gam F nt k * (P nt k).[-1] = (-1) ^+ k * v].
Proof.
move=> hnt; have [h1 h2] := family (0 : F) k hnt.
exists (op (afun F nt) (bfun 0 nt) k).[1], (op (neg (afun F nt)) (bfun 0 nt) k).[1].
rewrite h1 // h2 // -!hornerZ -(op_clas (0 : F)) // op_m1; split=> //; by rewrite hornerZ.
Qed.

Lemma two_terms nt m (d1 d2 : F) : nt \in ORTHO -> let D := d1 *: P nt m.+1 + d2 *: P nt m in
  D.[1] = 0 -> D.[-1] = 0 -> D = 0.
Proof.
move=> hnt D; have [u [v [u0 v0 e1 e2]]] := clas_ends m hnt; have [u' [v' [u0' v0' e1' e2']]] := clas_ends m.+1 hnt.
have g0 := gam_neq0 F nt m; have g1 := gam_neq0 F nt m.+1.
rewrite /D !hornerD !hornerZ => h1 hm.
have {}h1 : d1 / gam F nt m.+1 * u' + d2 / gam F nt m * u = 0.
  rewrite -e1 -e1' -[RHS]h1; move: (_.[_]) (_.[_]) (gam _ _ _) (gam _ _ _) g0 g1 => x y g h g0 g1; field.
  by rewrite g1 g0.
have {}hm : d1 / gam F nt m.+1 * v' = d2 / gam F nt m * v.
  have : d1 / gam F nt m.+1 * ((-1) ^+ m.+1 * v') + d2 / gam F nt m * ((-1) ^+ m * v) = 0.
    rewrite -e2 -e2' -[RHS]hm; move: (_.[_]) (_.[_]) (gam _ _ _) (gam _ _ _) g0 g1 => x y g h g0 g1; field.
    by rewrite g1 g0.
  rewrite exprS; move/(congr1 ( *%R ((-1) ^+ m))); rewrite mulr0.
  have s1 : (-1) ^+ m * (-1) ^+ m = 1 :> F by rewrite -expr2 sqrr_sign.
  move: (_ ^+ m) s1 => s s1 h; apply/eqP; rewrite -subr_eq0; apply/eqP.
  have -> : d1 / gam F nt m.+1 * v' - d2 / gam F nt m * v =
    - (s * (d1 / gam F nt m.+1 * (-1 * s * v') + d2 / gam F nt m * (s * v))) +
    (1 - s * s) * (d1 / gam F nt m.+1 * v' - d2 / gam F nt m * v) by ring.
  by rewrite h s1 subrr mul0r oppr0 addr0.
have z2 : d2 / gam F nt m = 0.
  move: (d1 / _) (d2 / _) h1 hm => x y h1 hm.
  have : y * (u * v' + u' * v) = (x * u' + y * u) * v' - u' * (x * v' - y * v) by ring.
  rewrite h1 hm subrr mul0r mulr0 subr0 => /eqP; rewrite mulf_eq0 => /orP [/eqP //|].
  by rewrite gt_eqF // addr_gt0 // mulr_gt0.
have z1 : d1 / gam F nt m.+1 = 0.
  by move: hm; rewrite z2 mul0r => /eqP; rewrite mulf_eq0 (gt_eqF v0') orbF => /eqP.
move: z1 z2 => /eqP; rewrite mulf_eq0 invr_eq0 (negbTE g1) orbF => /eqP -> /eqP.
by rewrite mulf_eq0 invr_eq0 (negbTE g0) orbF => /eqP ->; rewrite !scale0r addr0.
Qed.

Lemma one_term nt m (d x : F) : nt \in ORTHO -> (x == 1) || (x == -1) ->
  d * (P nt m).[x] = 0 -> d = 0.
Proof.
move=> hnt hx; have [u [v [u0 v0 e1 e2]]] := clas_ends m hnt; have g0 := gam_neq0 F nt m.
move/eqP; rewrite mulf_eq0 => /orP [/eqP //|/eqP e]; exfalso; move: hx => /orP [] /eqP ex; rewrite ex in e.
  by move: u0; rewrite -e1 e mulr0 ltxx.
by move: e2; rewrite e mulr0 => /esym /eqP; rewrite mulf_eq0 signr_eq0 /= gt_eqF.
Qed.

(* n increasing points at which a combination of the last three classical polynomials vanishes,
   among them the required end points, are the nodes *)
Lemma nodes_criterion nt qt n t c1 c2 : nt \in ORTHO -> qt \in QUAD_TYPES -> (least_nodes qt <= n)%N ->
  eig_contract fpi eigh fsqrt (NodesGen nt qt) n -> size t = n -> sorted <%O t ->
  (forall x, x \in t -> (P nt n).[x] + c1 * (P nt n.-1).[x] + c2 * (P nt n.-2).[x] = 0) ->
  (qt = "GAUSS"%string -> c1 = 0 /\ c2 = 0) ->
  (qt = "RADAU-LEFT"%string \/ qt = "RADAU-RIGHT"%string -> c2 = 0) ->
  (has_left qt -> -1 \in t) -> (has_right qt -> 1 \in t) ->
  getNodes fpi eigh fsqrt (NodesGen nt qt) n%:Z = Ok t.
Proof.
move=> hnt hqt ln ct st srt rt hG hR el er.
have [s es [d0 [d1 [d2 [d0n pr gG gR]]]]] := C62_nodal_polynomial hnt hqt ln ct.
have [s' es' [ss ssrt _ ml mr]] := C19_nodes hnt hqt ln ct.
have {es'} : s' = s by move: es'; rewrite es => -[].
move=> e; rewrite {}e {s'} in ss ssrt ml mr; rewrite es; congr Ok.
pose N : {poly F} := \prod_(x <- s) ('X - x%:P).
have N0 x : x \in s -> N.[x] = 0 by rewrite /N -root_prod_XsubC => /rootP.
pose D := (d1 - d0 * c1) *: P nt n.-1 + (d2 - d0 * c2) *: P nt n.-2.
have NE x : N.[x] = d0 * ((P nt n).[x] + c1 * (P nt n.-1).[x] + c2 * (P nt n.-2).[x]) + D.[x].
  by rewrite /N pr /D !hornerD !hornerZ; move: (clas F nt n).[x] (clas F nt n.-1).[x] (clas F nt n.-2).[x] => u v w; ring.
have DE x : x \in s -> x \in t -> D.[x] = 0.
  by move=> xs xt; have := NE x; rewrite N0 // rt // mulr0 add0r => /esym.
have D0 : D = 0.
  move: hqt; rewrite !inE => /or4P [] /eqP eq.
  - by rewrite /D; have [-> ->] := hG eq; have [-> ->] := gG eq; rewrite !mulr0 subrr !scale0r addr0.
  - have hl : has_left qt by rewrite eq.
    have e2 : d2 - d0 * c2 = 0 by rewrite hR ?gR ?mulr0 ?subrr //; left.
    have : (d1 - d0 * c1) * (P nt n.-1).[-1] = 0.
      by rewrite -(DE (-1)) ?el ?ml // /D e2 scale0r addr0 hornerZ.
    by move/(one_term hnt) => h; rewrite /D e2 h ?eqxx ?orbT // !scale0r addr0.
  - have hr : has_right qt by rewrite eq.
    have e2 : d2 - d0 * c2 = 0 by rewrite hR ?gR ?mulr0 ?subrr //; right.
    have : (d1 - d0 * c1) * (P nt n.-1).[1] = 0.
      by rewrite -(DE 1) ?er ?mr // /D e2 scale0r addr0 hornerZ.
    by move/(one_term hnt) => h; rewrite /D e2 h ?eqxx // !scale0r addr0.
  have hl : has_left qt by rewrite eq.
  have hr : has_right qt by rewrite eq.
  have [m en] : exists m, n = m.+2 by move: ln; rewrite /least_nodes hl; case: (n) => [//|[//|m]] _; exists m.
  by move: (DE 1) (DE (-1)); rewrite /D en /= ml mr hl hr el // er // => h1 h2; apply: two_terms; auto.
apply: (sorted_roots_uniq (p := N)); first exact: monic_prod_XsubC.
  split=> //; first by rewrite /N size_prod_XsubC.
  by apply/allP => x xs; apply/rootP; apply: N0.
split=> //; first by rewrite /N size_prod_XsubC st ss.
by apply/allP => x xt; apply/rootP; rewrite NE rt // mulr0 add0r D0 horner0.
Qed.
End Criterion.

(* the four kinds of Chebyshev polynomials at cosines *)
Notation RF := r_realFieldType.
Notation C k nt := (clas RF nt k).


Lemma clas_recR nt k (x : R) : nt != "LEGENDRE"%string ->
  (C k.+2 nt).[x] = 2%:R * x * (C k.+1 nt).[x] - (C k nt).[x].
Proof. by move=> h; rewrite clasS (negbTE h) hornerD hornerN hornerZ hornerM hornerX mulrA. Qed.

Lemma kSS (k : nat) (t : R) : k.+2%:R * t = k.+1%:R * t + t :> R.
Proof. by rewrite -[k.+2]addn1 natrD mulrDl mul1r. Qed.
Lemma kS (k : nat) (t : R) : k%:R * t = k.+1%:R * t - t :> R.
Proof. by rewrite -[k.+1]addn1 natrD mulrDl mul1r addrK. Qed.

Lemma cos_T k (t : R) : (C k "CHEBY-1").[cos t] = cos (k%:R * t).
Proof.
elim/ind2: k => [||k h1 h2]; first by rewrite /clas /= hornerC mulr0n mul0r rcos0.
  by rewrite /clas /= hornerX mul1r.
rewrite clas_recR // h1 h2.
rewrite (kSS k t).
rewrite (kS k t).
 rewrite rcosB rcosD; ring.
Qed.
Lemma rec_mul (x p q s : R) : (x * p - q) * s = x * (p * s) - q * s :> R.
Proof. by rewrite mulrBl mulrA. Qed.
Lemma cos_U k (t : R) : (C k "CHEBY-2").[cos t] * sin t = sin (k.+1%:R * t).
Proof.
elim/ind2: k => [||k h1 h2]; first by rewrite /clas /= hornerC mul1r mul1r.
  by rewrite /clas /= hornerZ hornerX kSS mul1r rsinD; ring.
rewrite clas_recR // rec_mul h1 h2 (kSS k.+1 t) (kS k.+1 t) rsinB rsinD; ring.
Qed.
Lemma kO (k : nat) (u : R) : (2 * k.+1 + 1)%:R * u = (2 * k + 1)%:R * u + 2%:R * u :> R.
Proof. by rewrite -mulrDl -natrD; congr (_%:R * _); lia. Qed.
Lemma sin_sq (u : R) : sin u * sin u = 1 - cos u * cos u :> R.
Proof.
have e : sin u * sin u + cos u * cos u = 1 :> R by exact: sin2_cos2.
by rewrite -e addrK.
Qed.
Lemma cos_V k (u : R) : (C k "CHEBY-3").[cos (2%:R * u)] * cos u = cos ((2 * k + 1)%:R * u).
Proof.
have d2 : cos (2%:R * u) = 2%:R * (cos u * cos u) - 1.
  have e := sin_sq u.
  by rewrite mulr_natl mulr2n rcosD e; ring.
elim/ind2: k => [||k h1 h2]; first by rewrite /clas /= hornerC mul1r mul1r.
  rewrite (kO 0) [(2 * 0 + 1)%:R * u]mul1r /clas /= !hornerE rcosD.
  rewrite [sin u * _]mulrC.
  have -> : sin (2%:R * u) * sin u = 2%:R * cos u * (sin u * sin u) by rewrite mulr_natl mulr2n rsinD; ring.
  rewrite sin_sq d2; ring.
rewrite clas_recR // rec_mul h2 h1 (kO k.+1).
have -> : (2 * k + 1)%:R * u = (2 * k.+1 + 1)%:R * u - 2%:R * u by rewrite kO addrK.
rewrite rcosB rcosD; ring.
Qed.
Lemma cos_W k (u : R) : (C k "CHEBY-4").[cos (2%:R * u)] * sin u = sin ((2 * k + 1)%:R * u).
Proof.
have d2 : cos (2%:R * u) = 2%:R * (cos u * cos u) - 1.
  have e := sin_sq u.
  by rewrite mulr_natl mulr2n rcosD e; ring.
elim/ind2: k => [||k h1 h2]; first by rewrite /clas /= hornerC mul1r mul1r.
  rewrite (kO 0) [(2 * 0 + 1)%:R * u]mul1r /clas /= !hornerE rsinD.
  have -> : sin (2%:R * u) = 2%:R * (sin u * cos u) by rewrite mulr_natl mulr2n rsinD; ring.
  rewrite d2; ring.
rewrite clas_recR // rec_mul h2 h1 (kO k.+1).
have -> : (2 * k + 1)%:R * u = (2 * k.+1 + 1)%:R * u - 2%:R * u by rewrite kO addrK.
rewrite rsinB rsinD; ring.
Qed.
