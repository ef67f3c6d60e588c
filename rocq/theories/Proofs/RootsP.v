(* Over a real closed field the polynomials of a three-term recurrence have simple real roots;
   symmetric tridiagonal matrices with nonzero off-diagonal entries have a basis of
   eigenvectors. *)
From Verif.Base Require Import Str.
From mathcomp Require Import all_ssreflect all_algebra ring polyrcf zify.
From Verif.Base Require Import Outcome Arr.
From Verif.Model Require Import Nodes.
From Verif.Spec Require Import NodesSpec.
From Verif.Proofs Require Import OrthoP NodesP NodesThms.
Set Implicit Arguments.
Unset Strict Implicit.
Unset Printing Implicit Defensive.
Import GRing.Theory Num.Theory Order.TTheory.
Local Open Scope ring_scope.

Lemma fin_choice (T : Type) (x0 : T) (P : nat -> T -> Prop) n :
  (forall i, (i < n)%N -> exists x, P i x) -> exists f, forall i, (i < n)%N -> P i (f i).
Proof.
elim: n => [|n ih] h; first by exists (fun=> x0).
have [f hf] := ih (fun i il => h i (ltnW il)); have [x hx] := h n (leqnn _).
exists (fun i => if i == n then x else f i) => i; rewrite ltnS leq_eqVlt.
by case: eqP => [->|_] // /hf.
Qed.

(* arithmetic used below *)
Lemma nat1 i k : (i < k -> k - i = (k.-1 - i).+1)%N. Proof. lia. Qed.
Lemma nat2 i k : (i < k -> k <= i.+1 -> i = k.-1)%N. Proof. lia. Qed.
Lemma nat3 i k : (k <= i -> k - i = 0)%N. Proof. lia. Qed.
Lemma nat4 i k : (i < k.+1 -> k.+1 - i = (k - i).+1)%N. Proof. lia. Qed.
Lemma nat5 i j k : (i < k.+1 -> j < i -> j < k)%N. Proof. lia. Qed.
Lemma nat6 i j k : (i < k.+1 -> j.+1 < i -> j.+1 < i < k.+2)%N. Proof. lia. Qed.
Lemma nat7 i j k : (i < j -> j < k -> i.+1 < j.+1 < k.+2)%N. Proof. lia. Qed.

Section Interlace.
Variable F : rcfType.
Implicit Types (a b r t : nat -> F).

Definition incr r k : Prop := forall i j, (i < j < k)%N -> r i < r j.
Lemma incrP r k : (forall i, (i.+1 < k)%N -> r i < r i.+1) -> incr r k.
Proof.
move=> h i j /andP []; elim: j => // j ih; rewrite ltnS leq_eqVlt => /orP [/eqP ->|ij] jk; first exact: h.
by apply: lt_trans (h _ jk); apply: ih => //; apply: ltnW.
Qed.

(* sign of a product of differences *)
Lemma prod_sign r k i (x : F) : (i <= k)%N -> (forall j, (j < i)%N -> r j < x) ->
  (forall j, (i <= j < k)%N -> x < r j) -> 0 < (-1) ^+ (k - i) * \prod_(j < k) (x - r j).
Proof.
elim: k => [|k ih] ik h1 h2; first by rewrite big_ord0 mulr1 (eqP (_ : i == 0)%N) ?expr0 ?ltr01 // -leqn0.
rewrite big_ord_recr; move: ik; rewrite leq_eqVlt => /orP [/eqP e|ik].
  subst i; rewrite subnn expr0 mul1r; apply: mulr_gt0; last by rewrite subr_gt0 h1.
  by apply: prodr_gt0 => j _; rewrite subr_gt0 h1 // ltnS ltnW.
have h : 0 < (-1) ^+ (k - i) * \prod_(j < k) (x - r j).
  by apply: ih => // j /andP [ij jk]; apply: h2; rewrite ij ltnW.
rewrite subSn // exprS.
have -> : -1 * (-1) ^+ (k - i) * (\prod_(j < k) (x - r j) * (x - r k)) =
  ((-1) ^+ (k - i) * \prod_(j < k) (x - r j)) * (r k - x) by move: (_ ^+ _) (\prod_(_ < _) _) => u v; ring.
by apply: mulr_gt0 => //; rewrite subr_gt0 h2 // ltnSn andbT.
Qed.

Lemma sg_opp s (u v : F) : 0 < (-1) ^+ s.+1 * u -> 0 < (-1) ^+ s * v -> Num.sg u * Num.sg v = -1.
Proof.
rewrite exprS -signr_odd; case: (odd s); rewrite ?expr1 ?expr0 ?mulr1 ?mul1r !mulN1r ?opprK ?mul1r ?oppr_gt0 => h1 h2.
  by rewrite (gtr0_sg h1) (ltr0_sg h2) mul1r.
by rewrite (ltr0_sg h1) (gtr0_sg h2) mulr1.
Qed.

Lemma prodE r k : \prod_(i < k) ('X - (r i)%:P) = \prod_(x <- mkseq r k) ('X - x%:P).
Proof. by rewrite big_map -(big_mkord xpredT (fun i => 'X - (r i)%:P)) /index_iota subn0. Qed.

Definition bnd r k (L U : F) (i : nat) : F := if i is i'.+1 then (if (i' < k)%N then r i' else U) else L.

Lemma far_points (p : {poly F}) (m : F) k : p \is monic -> size p = k.+1 ->
  (exists2 L, L < m & 0 < (-1) ^+ k * p.[L]) /\ (exists2 U, m < U & 0 < p.[U]).
Proof.
move=> mp sp; have nz := monic_neq0 mp; split.
  exists (Num.min (- cauchy_bound p) (m - 1)); first by rewrite lt_minl ltr_subl_addl ltr_addr ltr01 orbT.
  have := sgp_minftyP (le_cauchy_bound nz); set L := Num.min _ _.
  move/(_ L); rewrite in_itv /= le_minl lexx => /(_ isT).
  rewrite /sgp_minfty (monicP mp) mulr1 sp /= sgrX sgrN1 => e.
  by rewrite -sgr_gt0 sgrM e sgrX sgrN1 -expr2 sqrr_sign ltr01.
exists (Num.max (cauchy_bound p) (m + 1)); first by rewrite lt_maxr ltr_addl ltr01 orbT.
have := sgp_pinftyP (ge_cauchy_bound nz); set U := Num.max _ _.
move/(_ U); rewrite in_itv /= le_maxr lexx => /(_ isT).
by rewrite /sgp_pinfty (monicP mp) sgr1 => e; rewrite -sgr_gt0 e ltr01.
Qed.

(* k simple roots, and the sign of the previous polynomial at each of them *)
Definition interlaced a b k : Prop := exists r, [/\ incr r k,
  op a b k = \prod_(i < k) ('X - (r i)%:P) &
  forall i, (i < k)%N -> 0 < (-1) ^+ (k.-1 - i) * (opp a b k).1.[r i]].

Lemma interlaceS a b k : ((0 < k)%N -> 0 < b k) -> interlaced a b k -> interlaced a b k.+1.
Proof.
move=> bk [r [inc e sg]]; have [sp mp] := size_op a b k.+1.
have rt i : (i < k)%N -> (op a b k).[r i] = 0.
  move=> il; apply/rootP; rewrite e prodE.
  by rewrite root_prod_XsubC map_f // mem_iota.
have sgp i : (i < k)%N -> 0 < (-1) ^+ (k - i) * (op a b k.+1).[r i].
  move=> il; rewrite horner_step rt // mulr0 sub0r.
  rewrite (nat1 il).
  rewrite exprS mulN1r mulrN mulNr opprK mulrCA; apply: mulr_gt0; last exact: sg.
  by apply: bk; apply: leq_ltn_trans il.
have [[L hL pL] _] := far_points (r 0%N) mp sp.
have [_ [U]] := far_points (Num.max (r k.-1) L) mp sp; rewrite lt_maxl => /andP [hU hLU] pU.
pose g := bnd r k L U.
have ginc : incr g k.+2.
  apply: incrP => -[_|i] /=; first by case: ltnP => [_|] //; case: k {e sg rt sgp bk sp mp inc g} r hL hU => //.
  rewrite ltnS => il; have il' : (i < k)%N by [].
  rewrite il'; case: ltnP => h; first by apply: inc; rewrite ltnSn.
  by rewrite (nat2 il' h).
have gsg i : (i < k.+2)%N -> 0 < (-1) ^+ (k.+1 - i) * (op a b k.+1).[g i].
  case: i => [_|i il] /=; first by rewrite subn0.
  rewrite subSS; case: ltnP => h; first exact: sgp.
  by rewrite (nat3 h) expr0 mul1r.
have [t ht] : exists t : nat -> F, forall i, (i < k.+1)%N -> [/\ g i < t i, t i < g i.+1 & root (op a b k.+1) (t i)].
  apply: (@fin_choice F 0 (fun i x => [/\ g i < x, x < g i.+1 & root (op a b k.+1) x])) => i il.
  have gi : g i < g i.+1 by apply: ginc; rewrite ltnSn.
  have [|x] := @ivt_sign _ (op a b k.+1) _ _ (ltW gi).
    have := gsg i (ltnW il); have := gsg i.+1 il; rewrite subSS.
    by rewrite (nat4 il) => h1 h2; apply: (sg_opp h2 h1).
  by rewrite in_itv /= => /andP [x1 x2] rx; exists x.
have tinc : incr t k.+1.
  apply: incrP => i il; have [_ h1 _] := ht i (ltnW il); have [h2 _ _] := ht i.+1 il.
  exact: lt_trans h1 h2.
exists t; split=> //.
  rewrite prodE; apply: sorted_roots_prod => //; split; last 2 first.
  - by rewrite size_mkseq sp.
  - apply/(all_nthP 0) => i; rewrite size_mkseq => il; rewrite nth_mkseq //.
    by have [] := ht i il.
  apply: sorted_mkseq => i il; apply: tinc; rewrite ltnSn //.
move=> i il; rewrite opp1 e horner_prod.
have -> : \prod_(j < k) ('X - (r j)%:P).[t i] = \prod_(j < k) (t i - r j).
  by apply: eq_bigr => j _; rewrite hornerXsubC.
have [h1 h2 _] := ht i il; apply: prod_sign => // j.
  move=> ji; apply: le_lt_trans h1; have -> : r j = g j.+1 by rewrite /g /bnd (nat5 il ji).
  by move: ji; rewrite leq_eqVlt => /orP [/eqP -> //|ji]; apply: ltW; apply: ginc; apply: nat6.
move=> /andP [ij jk]; apply: lt_le_trans h2 _; have -> : r j = g j.+1 by rewrite /g /bnd jk.
by move: ij; rewrite leq_eqVlt => /orP [/eqP -> //|ij]; apply: ltW; apply: ginc; apply: nat7.
Qed.

Lemma op_interlaced a b k : (forall j, (0 < j < k)%N -> 0 < b j) -> interlaced a b k.
Proof.
elim: k => [_|k ih h]; first by exists (fun=> 0); split=> [i j|//|//]; rewrite ?op0 ?big_ord0 // ltn0 andbF.
apply: interlaceS => [k0|]; first by apply: h; rewrite k0 ltnSn.
by apply: ih => j /andP [j0 jk]; apply: h; rewrite j0 ltnW.
Qed.

Lemma rootsR_op a b k : (forall j, (0 < j < k)%N -> 0 < b j) -> sorted_roots (op a b k) (rootsR (op a b k)).
Proof.
move=> h; have [sp mp] := size_op a b k; have nz := monic_neq0 mp.
have [r [inc e _]] := op_interlaced a h.
have sr : sorted <%O (mkseq r k) by apply: sorted_mkseq => i il; apply: inc; rewrite ltnSn.
have -> : rootsR (op a b k) = mkseq r k.
  apply: (irr_sorted_eq lt_trans (@ltxx _ _)) => //; first exact: polyrcf.sorted_roots.
  move=> x; rewrite -(roots_on_rootsR nz) in_itv /= e.
  by rewrite prodE root_prod_XsubC.
split=> //; first by rewrite size_mkseq sp.
by apply/allP => x; rewrite e prodE root_prod_XsubC.
Qed.
End Interlace.
