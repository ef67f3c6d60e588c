(* Properties C60 and C65: the expected order of spectral deferred corrections, getOrderSDC. *)
From Coq Require Import ZArith QArith Qcanon.
From Verif.Base Require Import Str.
From mathcomp Require Import all_ssreflect all_algebra ring zify.
From Verif.Base Require Import QcField Outcome Arr Ext PolyInterp PolyInt LinSolve.
From Verif.Model Require Import Lagrange QGen Nodes Collocation Sweeps Registry Sdc.
From Verif.Spec Require Import LagrangeSpec QCoeffSpec NodesSpec CollSpec SweepSpec SdcSpec.
From Verif.Proofs Require Import LagrangeP LagrangeInit LagrangeThms StabP CollP SweepP SdcP SdcOrderP.
From Verif.Properties Require Import LagrangeProps CollProps TimeStepProps SdcProps SdcOrderProps.
Set Implicit Arguments.
Unset Strict Implicit.
Unset Printing Implicit Defensive.
Import GRing.Theory Num.Theory Order.TTheory.

Definition SCHEMES : seq string := [:: "BE"; "FE"; "TRAP"; "BEPAR"; "TRAPAR"; "SOE"]%string.

Definition KS : seq int := [:: Posz 1; Posz 2; Posz 3; Posz 4].
Definition MS : seq nat := [:: 2; 3; 4]%N.
Local Open Scope nat_scope.

(* the bonus depends on its arguments only through comparisons with constants: other values
   behave like a default one *)
Section Reduce.
Lemma red_qd k x M nt qt : x \notin SCHEMES ->
  bonus_quad k x M nt qt = bonus_quad k "" M nt qt /\ bonus_last k x M nt qt = bonus_last k "" M nt qt.
Proof.
rewrite /SCHEMES !inE !negb_or => /andP [/negPf h1 /andP [/negPf h2 /andP [/negPf h3 /andP [/negPf h4 /andP [/negPf h5 /negPf h6]]]]].
by rewrite /bonus_quad /bonus_last ?h1 ?h2 ?h3 ?h4 ?h5 ?h6.
Qed.
Lemma red_k k x M nt qt : k \notin KS ->
  bonus_quad k x M nt qt = bonus_quad 0%R x M nt qt /\ bonus_last k x M nt qt = bonus_last 0%R x M nt qt.
Proof.
rewrite /KS !inE !negb_or => /andP [/negPf h1 /andP [/negPf h2 /andP [/negPf h3 /negPf h4]]].
by rewrite /bonus_quad /bonus_last ?h1 ?h2 ?h3 ?h4.
Qed.
Lemma red_M k x M nt qt : M \notin MS ->
  bonus_quad k x M nt qt = bonus_quad k x 0 nt qt /\ bonus_last k x M nt qt = bonus_last k x 0 nt qt.
Proof.
rewrite /MS !inE !negb_or => /andP [/negPf h1 /andP [/negPf h2 /negPf h3]].
by rewrite /bonus_quad /bonus_last ?h1 ?h2 ?h3.
Qed.
Lemma red_nt k x M nt qt : nt \notin NODE_TYPES ->
  bonus_quad k x M nt qt = bonus_quad k x M "" qt /\ bonus_last k x M nt qt = bonus_last k x M "" qt.
Proof.
rewrite /NODE_TYPES !inE !negb_or => /andP [/negPf h1 /andP [/negPf h2 /andP [/negPf h3 /andP [/negPf h4 /andP [/negPf h5 /negPf h6]]]]].
by rewrite /bonus_quad /bonus_last ?inE ?h1 ?h2 ?h3 ?h4 ?h5 ?h6.
Qed.
Lemma red_qt k x M nt qt : qt \notin QUAD_TYPES ->
  bonus_quad k x M nt qt = bonus_quad k x M nt "" /\ bonus_last k x M nt qt = bonus_last k x M nt "".
Proof.
rewrite /QUAD_TYPES !inE !negb_or => /andP [/negPf h1 /andP [/negPf h2 /andP [/negPf h3 /negPf h4]]].
by rewrite /bonus_quad /bonus_last ?inE ?h1 ?h2 ?h3 ?h4.
Qed.

(* hence a statement about all arguments follows from finitely many cases *)
Definition grid (P : nat -> nat -> int -> string -> nat -> string -> string -> bool) : bool :=
  all (fun k => all (fun x => all (fun M => all (fun nt => all (fun qt =>
    P (bonus_quad k x M nt qt) (bonus_last k x M nt qt) k x M nt qt)
    (rcons QUAD_TYPES ""%string)) (rcons NODE_TYPES ""%string)) (rcons MS 0))
    (rcons SCHEMES ""%string)) (rcons KS 0%R).
End Reduce.

Lemma bonus_dec k x M nt qt : exists k' x' M' nt' qt',
  [/\ k' \in (rcons KS 0%R), x' \in rcons SCHEMES ""%string, M' \in (rcons MS 0),
      nt' \in rcons NODE_TYPES ""%string & qt' \in rcons QUAD_TYPES ""%string] /\
  [/\ (k \in KS) = (k' != 0%R), (x \in SCHEMES) = (x' != ""%string),
      (M \in MS) = (M' != 0%N), (nt \in NODE_TYPES) = (nt' != ""%string) &
      bonus_quad k x M nt qt = bonus_quad k' x' M' nt' qt' /\
      bonus_last k x M nt qt = bonus_last k' x' M' nt' qt'].
Proof.
exists (if k \in KS then k else 0%R), (if x \in SCHEMES then x else ""%string),
  (if M \in MS then M else 0%N), (if nt \in NODE_TYPES then nt else ""%string),
  (if qt \in QUAD_TYPES then qt else ""%string); split.
  split.
  - by case: ifP => // h; rewrite mem_rcons inE h orbT.
  - by case: ifP => // h; rewrite mem_rcons inE h orbT.
  - by case: ifP => // h; rewrite mem_rcons inE h orbT.
  - by case: ifP => // h; rewrite mem_rcons inE h orbT.
  by case: ifP => // h; rewrite mem_rcons inE h orbT.
split.
- by case: ifP => // h; apply: esym; apply/eqP => e; rewrite e in h.
- by case: ifP => // h; apply: esym; apply/eqP => e; rewrite e in h.
- by case: ifP => // h; apply: esym; apply/eqP => e; rewrite e in h.
- by case: ifP => // h; apply: esym; apply/eqP => e; rewrite e in h.
have [h|h] := boolP (k \in _); last rewrite (red_k _ _ _ _ h).1 (red_k _ _ _ _ h).2.
all: have [h1|h1] := boolP (x \in _); last rewrite (red_qd _ _ _ _ h1).1 (red_qd _ _ _ _ h1).2.
all: have [h2|h2] := boolP (M \in _); last rewrite (red_M _ _ _ _ h2).1 (red_M _ _ _ _ h2).2.
all: have [h3|h3] := boolP (nt \in _); last rewrite (red_nt _ _ _ _ h3).1 (red_nt _ _ _ _ h3).2.
all: have [h4|h4] := boolP (qt \in _); last rewrite (red_qt _ _ _ _ h4).1 (red_qt _ _ _ _ h4).2; by [].
Qed.

Lemma grid_all (P : nat -> nat -> bool -> bool -> bool -> bool -> bool) :
  grid (fun a b k x M nt _ => P a b (k != 0%R) (x != ""%string) (M != 0%N) (nt != ""%string)) ->
  forall k x M nt qt, P (bonus_quad k x M nt qt) (bonus_last k x M nt qt)
    (k \in KS) (x \in SCHEMES) (M \in MS) (nt \in NODE_TYPES).
Proof.
move=> g k x M nt qt; have [k' [x' [M' [nt' [qt' [[hk hx hM hnt hqt] [-> -> -> -> [-> ->]]]]]]]] := bonus_dec k x M nt qt.
move: g; rewrite /grid => /allP /(_ k' hk) /allP /(_ x' hx) /allP /(_ M' hM) /allP /(_ nt' hnt) /allP; exact.
Qed.

(* C60: the bonus is at most 1 (quadrature update) resp. 2 (last node), and present only for the
   schemes of the table *)
Theorem C60_bonus k x M nt qt :
  (bonus_quad k x M nt qt <= 1)%N /\ (bonus_last k x M nt qt <= 2)%N /\
  ((0 < bonus_quad k x M nt qt + bonus_last k x M nt qt)%N ->
    [/\ k \in KS, x \in SCHEMES, M \in MS & nt \in NODE_TYPES]).
Proof.
have := @grid_all (fun a b k x M nt => [&& (a <= 1)%N, (b <= 2)%N & (0 < a + b)%N ==> [&& k, x, M & nt]]).
have -> : grid (fun a b k x M nt _ => [&& (a <= 1)%N, (b <= 2)%N &
   (0 < a + b)%N ==> [&& k != 0%R, x != ""%string, M != 0%N & nt != ""%string]]) by vm_compute.
move=> /(_ isT k x M nt qt) /and3P [h1 h2 /implyP h3]; split=> //; split=> // /h3 /and4P [*]; split=> //.
Qed.

Section Bounds.
Variables (M : nat) (nt qt : string) (p k : int) (x su : string).
Notation order := (getOrderSDC M nt qt p k x su).
Notation base := (baseOrder p k x su).

Theorem C60_bounds : (base <= order)%R /\ (base <= p)%R /\
  (order <= base + (if su == "QUADRATURE" then 1 else if su == "LASTNODE" then 2 else 0)%string)%R /\
  (~ [/\ k \in KS, x \in SCHEMES, M \in MS & nt \in NODE_TYPES] -> order = base).
Proof.
have [h1 [h2 h3]] := C60_bonus k x M nt qt.
have bp : (base <= p)%R by rewrite /baseOrder le_minl lexx.
rewrite /getOrderSDC; move: (baseOrder _ _ _ _) bp => b bp.
move: (bonus_quad _ _ _ _ _) (bonus_last _ _ _ _ _) h1 h2 h3 => a c h1 h2 h3.
split; first by do ?case: ifP => _; lia.
split=> //; split; first by do ?case: ifP => _; lia.
move=> no; have : ~~ (0 < a + c)%N by apply/negP => /h3.
by do ?case: ifP => _; lia.
Qed.
End Bounds.

(* the base order is monotone in the number of sweeps and saturates at the collocation order *)
Theorem C60_base_monotone p k k' x su : (k <= k')%R -> (baseOrder p k x su <= baseOrder p k' x su)%R.
Proof.
move=> kk; rewrite /baseOrder; case: (x \in _); case: (su == _)%string;
  case: (ltrP 0 k) => h; case: (ltrP 0 k') => h'; rewrite ?le_minr ?le_minl ?lexx ?orbT /=; lia.
Qed.
Theorem C60_base_bound p k x su : (0 <= k)%R -> (baseOrder p k x su <= k + (if x \in [:: "TRAPAR"; "TRAP"]%string then 1 else 0)
   + (if su == "QUADRATURE"%string then 1 else 0))%R.
Proof.
move=> k0; rewrite /baseOrder; case: (x \in _); case: (su == _)%string;
  case: (ltrP 0 k) => h; rewrite ?le_minl; lia.
Qed.

(* the number of special combinations is that announced in the source (lines 187 and 251) *)
Definition combos : seq (int * string * nat * string * string) :=
  [seq (kx.1, kx.2, mnq.1, mnq.2.1, mnq.2.2) |
     kx <- [seq (k, x) | k <- KS, x <- SCHEMES],
     mnq <- [seq (M, nq) | M <- MS, nq <- [seq (n, q) | n <- NODE_TYPES, q <- QUAD_TYPES]]].
Theorem C60_count :
  count (fun c => let: (k, x, M, nt, qt) := c in (0 < bonus_quad k x M nt qt)%N) combos = 58 /\
  count (fun c => let: (k, x, M, nt, qt) := c in (0 < bonus_last k x M nt qt)%N) combos = 85.
Proof. by split; vm_compute. Qed.

(* the expected order may exceed that of the collocation method, decrease with an additional
   sweep, and exceed 2 nSweeps + 1 *)
Theorem C60_exceeds_refuted : exists M nt qt k x su (p : int),
  (forall (F : realFieldType) (c : coll F), co_nodeType c = nt -> co_quadType c = qt ->
     size (co_nodes c) = M -> omap Posz (coll_order c) = Some p) /\
  (p < getOrderSDC M nt qt p k x su)%R.
Proof.
exists 2, "CHEBY-2"%string, "RADAU-RIGHT"%string, (Posz 3), "BEPAR"%string, "LASTNODE"%string, (Posz 2).
by split=> [F c e1 e2 e3|]; [rewrite /coll_order e1 e2 e3|vm_compute].
Qed.
Theorem C60_monotone_refuted : exists M nt qt k x su (p : int),
  (forall (F : realFieldType) (c : coll F), co_nodeType c = nt -> co_quadType c = qt ->
     size (co_nodes c) = M -> omap Posz (coll_order c) = Some p) /\
  (getOrderSDC M nt qt p (k + 1)%R x su < getOrderSDC M nt qt p k x su)%R.
Proof.
exists 2, "CHEBY-2"%string, "RADAU-RIGHT"%string, (Posz 3), "BEPAR"%string, "LASTNODE"%string, (Posz 2).
by split=> [F c e1 e2 e3|]; [rewrite /coll_order e1 e2 e3|vm_compute].
Qed.
Theorem C60_twice_refuted : exists M nt qt k x su (p : int),
  (forall (F : realFieldType) (c : coll F), co_nodeType c = nt -> co_quadType c = qt ->
     size (co_nodes c) = M -> omap Posz (coll_order c) = Some p) /\
  (2%:Z * k + 1 < getOrderSDC M nt qt p k x su)%R.
Proof.
exists 3, "EQUID"%string, "RADAU-LEFT"%string, (Posz 1), "TRAP"%string, "QUADRATURE"%string, (Posz 3).
by split=> [F c e1 e2 e3|]; [rewrite /coll_order e1 e2 e3|vm_compute].
Qed.

Lemma posz_min a b : Posz (minn a b) = Num.min (Posz a) (Posz b).
Proof. by rewrite minEle lez_nat /minn; case: (leqP a b) => h; case: ltngtP h => // ->. Qed.

Theorem C60_base_value (p k : nat) x su : baseOrder p k x su =
  minn p (k + (if (x \in [:: "TRAPAR"; "TRAP"]%string) && (0 < k) then 1 else 0)
            + (if su == "QUADRATURE"%string then 1 else 0)).
Proof.
rewrite /baseOrder posz_min; congr Num.min; case: k => [|k]; first by case: (x \in _); case: (su == _)%string.
by rewrite andbT /=; case: (x \in _); case: (su == _)%string; lia.
Qed.

(* C65: the base order is attained by every collocation method *)
Section Base.
Variable F : realFieldType.
Variables (fpi : F) (eigh : seq F -> seq F -> seq F) (fsqrt : F -> F).
Variables (flog fexp : F -> F) (underflow : seq F -> bool).
Variables (leggauss roots_legendre fejer : nat -> outcome (seq F * seq F)).
Notation cinit := (coll_init fpi eigh fsqrt flog fexp underflow leggauss roots_legendre fejer).
Notation base nt qt M := (getNodes fpi eigh fsqrt (NodesGen nt qt) (Posz M)).
Variables (nt qt : string) (M : nat) (c : coll F) (s : seq F) (p : nat).
Hypothesis ok : nodes_ok fpi eigh fsqrt nt qt M.
Hypothesis lg : logs_all flog fexp underflow.
Hypothesis rl : rules_ok leggauss roots_legendre fejer M "FEJER".
Hypothesis ec : cinit M%:Z nt qt 0%R 1%R = Ok c.
Hypothesis es : base nt qt M = Ok s.
Hypothesis sep : separated 0%R 1%R s.
Hypothesis ep : coll_order c = Some p.
Variables (K : numFieldType) (f : {rmorphism F -> K}).
Variables (QD : nat -> seq (seq K)) (k : nat) (qDelta stepUpdate : string).
Hypothesis hQD : forall j, (j < k)%N -> is_shape (QD j) M M.
(* TRAP and TRAPAR are the sweeps of that name on the nodes of the method *)
Variables (tr : F -> F) (int : bool) (self : ts F).
Hypothesis ei : ts_init tr int (co_nodes c) 0%R = Ok self.
Hypothesis io : int -> tr (nth 0 (co_nodes c) 0)%R = (nth 0 (co_nodes c) 0)%R.
Hypothesis hT : qDelta = "TRAP"%string -> (1 < M)%N /\ QD 0%N = map (map f) (qd_TRAP self).
Hypothesis hA : qDelta = "TRAPAR"%string -> (1 < M)%N /\ QD 0%N = map (map f) (qd_TRAPAR self).
(* the value at the last node approximates the end of the step *)
Hypothesis hl : stepUpdate <> "QUADRATURE"%string -> last 0%R (co_nodes c) = 1%R.

Theorem C65_base_attained : exists Q w q,
  [/\ co_Q c = fmat Q, co_weights c = map (@Fin F) w, is_shape Q M M & size w = M] /\
  Posz q = baseOrder p k qDelta stepUpdate /\
  agrees (fun z => sdcR M (map (map f) Q) QD
     (if stepUpdate == "QUADRATURE"%string then Some (map f w) else None) z k) (expser q) q.
Proof.
have [Q [w [facts [h1 h2]]]] := C57_collocation ok lg rl ec es sep ep f hQD.
have [facts1 facts2 _ _] := facts.
have [|] := boolP ((qDelta \in [:: "TRAPAR"; "TRAP"]%string) && (0 < k)%N); last first.
  move=> /negPf no; exists Q, w; rewrite C60_base_value no addn0.
  case: (stepUpdate =P "QUADRATURE"%string) => su; first by exists (minn p k.+1); rewrite addn1.
  by exists (minn p k); rewrite addn0; split=> //; split=> //; exact: h2 (hl su).
move=> /andP [qd k0].
have [M1 e0] : (1 < M)%N /\ (QD 0%N = map (map f) (qd_TRAP self) \/ QD 0%N = map (map f) (qd_TRAPAR self)).
  by move: qd; rewrite !inE => /orP [] /eqP q; [have [? ?] := hA q; split=> //; right|have [? ?] := hT q; split=> //; left].
have [Q2 [w2 [[eQ ew _ _] [h3 h4]]]] := C58_collocation ok lg rl ec es sep ep hQD ei io M1 k0 e0.
have eQQ : Q2 = Q by apply: fmat_inj; rewrite -eQ -facts1.
have eww : w2 = w by apply: (inj_map (f := @Fin F)); [move=> x y []|rewrite -ew -facts2].
rewrite eQQ eww in h3 h4; exists Q, w; rewrite C60_base_value qd k0 addn1.
case: (stepUpdate =P "QUADRATURE"%string) => su; first by exists (minn p k.+2); rewrite addn1.
by exists (minn p k.+1); rewrite addn0; split=> //; split=> //; exact: h4 (hl su).
Qed.
End Base.
Print Assumptions C60_bonus.
Print Assumptions C60_bounds.
Print Assumptions C60_base_monotone.
Print Assumptions C60_base_bound.
Print Assumptions C60_base_value.
Print Assumptions C60_count.
Print Assumptions C60_exceeds_refuted.
Print Assumptions C60_monotone_refuted.
Print Assumptions C60_twice_refuted.
Print Assumptions C65_base_attained.
