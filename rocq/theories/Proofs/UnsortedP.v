(* LagrangeApproximation on distinct points in any order: the weights are those of the sorted
   points, used by position. *)
From Verif.Base Require Import Str.
From mathcomp Require Import all_ssreflect all_algebra ring zify.
From Verif.Base Require Import Outcome Arr Ext PolyInterp PolyInt.
From Verif.Model Require Import Lagrange.
From Verif.Proofs Require Import LagrangeP LagrangeInit LagrangeThms.
From Verif.Spec Require Import LagrangeSpec.
Set Implicit Arguments.
Unset Strict Implicit.
Unset Printing Implicit Defensive.
Import GRing.Theory Num.Theory Order.TTheory.
Local Open Scope ring_scope.

Section Weighted.
Variable F : realFieldType.
Variable pts : seq F.
Let n := size pts.
Hypothesis un : uniq pts.
Variable self : lagr F.
Variable v : nat -> F.
Hypothesis v0 : forall j, (j < n)%N -> v j != 0.
Hypothesis upE : uniquePoints self = pts.
Hypothesis wE : weights self = mkseq (fun j => Fin (v j)) n.

Lemma w_at i : (i < n)%N -> interp_row self (nth 0 pts i) = mkseq (fun j => Fin (j == i)%:R) n.
Proof.
move=> il; rewrite /interp_row upE wE map_pts (map_mkseq (@is_inf F)).
have inE j : (j < n)%N -> is_inf (ediv (Fin 1) (Fin (nth 0 pts i - nth 0 pts j))) = (j == i).
  move=> jl; rewrite /= subr_eq0 nth_uniq // eq_sym.
  by case: eqP => //= _; rewrite /inf_of ltr01.
have -> : mkseq (fun j => is_inf (ediv (Fin 1) (Fin (pts`_i - pts`_j)))) (size pts) = mkseq (eq_op^~ i) n.
  by apply: eq_mkseq_in.
have -> : has id (mkseq (eq_op^~ i) n).
  apply/hasP; exists true => //; apply/mapP; exists i; rewrite ?eqxx //.
  by rewrite mem_iota.
rewrite map_mkseq map_zip_mkseq /=.
have -> : esum (mkseq (fun j => Fin ((j == i)%:R * v j)) n) = Fin (v i).
  rewrite (@esum_mkseq _ _ (fun j => (j == i)%:R * v j)) //.
  rewrite (bigD1 (Ordinal il)) //= eqxx mul1r big1 ?addr0 // => j ji.
  by rewrite (_ : (nat_of_ord j == i) = false) ?mul0r //; apply: negbTE; rewrite -val_eqE in ji.
rewrite map_mkseq; apply: eq_mkseq_in => j jl.
rewrite ediv_fin ?v0 //; case: (j =P i) => [->|_]; last by rewrite !mul0r.
by rewrite mul1r mulfV ?v0.
Qed.

Definition wq (t : F) (j : nat) : F := v j / (t - nth 0 pts j).

Lemma w_off t : t \notin pts ->
  interp_row self t = mkseq (fun j => ediv (Fin (wq t j)) (Fin (\sum_(k < n) wq t k))) n.
Proof.
move=> tnin; rewrite /interp_row upE wE map_pts (map_mkseq (@is_inf F)).
have tx j : (j < n)%N -> t - nth 0 pts j != 0.
  by move=> jl; rewrite subr_eq0; apply: contra tnin => /eqP ->; rewrite mem_nth.
have -> : has id (mkseq (fun j => is_inf (ediv (Fin 1) (Fin (t - pts`_j)))) (size pts)) = false.
  apply/hasP => [[b /mapP [j]]]; rewrite mem_iota /= add0n => jl ->.
  by rewrite (negPf (tx j jl)).
rewrite map_zip_mkseq /=.
have -> : mkseq (fun j => emul (if t - pts`_j == 0 then inf_of 1 else Fin (1 / (t - pts`_j)))
            (Fin (v j))) n = mkseq (fun j => Fin (wq t j)) n.
  apply: eq_mkseq_in => j jl; rewrite (negPf (tx j jl)) /=; congr Fin.
  by rewrite /wq div1r mulrC.
by rewrite (@esum_mkseq _ _ (wq t)) // map_mkseq.
Qed.

Lemma fin_ediv (a b y : F) : a != 0 -> ediv (Fin a) (Fin b) = Fin y -> b != 0 /\ y = a / b.
Proof.
move=> a0; rewrite /=; case: eqP => [_|_ [<-]] //; rewrite /inf_of.
by case: ltrgt0P a0.
Qed.

Lemma w_D1_off i j : (i < n)%N -> (j < n)%N -> i != j ->
  nth NaN (nth [::] (deriv_D1 self) i) j = Fin (v j / v i / (nth 0 pts i - nth 0 pts j)).
Proof.
move=> il jl ij.
have bE : deriv_base self = mkseq (fun i => mkseq (fun j =>
    Fin (if i == j then 0 else v j / v i / (nth 0 pts i - nth 0 pts j))) n) n.
  rewrite /deriv_base wE /deriv_iDiff upE map_pts map_zip_mkseq; apply: eq_mkseq_in => a al.
  rewrite map_pts map_zip_mkseq; apply: eq_mkseq_in => b bl.
  rewrite /= (negPf (v0 al)); case: (a =P b) => [->|/eqP ab].
    by rewrite subrr eqxx /inf_of ltr01 /= mulr0.
  have d0 : nth 0 pts a - nth 0 pts b != 0 by rewrite subr_eq0 nth_uniq.
  by rewrite (negPf d0) /= div1r.
rewrite /deriv_D1 bE fill_diagE nth_mkseq // nth_mkseq //.
by rewrite (negPf ij).
Qed.

(* the interpolation weights of the points in the given order *)
Let w := bwn pts.
Let w0 j : (j < n)%N -> w j != 0.
Proof. by move=> jl; apply: bwn_neq0U. Qed.

Lemma prop_exact c : c != 0 -> (forall j, (j < n)%N -> v j = c * w j) ->
  weights self = mkseq (fun j => Fin (c * bwn pts j)) (size pts).
Proof. by move=> c0 h; rewrite wE; apply: eq_mkseq_in => j jl; rewrite h. Qed.

(* a row that reproduces all polynomials of degree < n is the row of cardinal polynomials *)
Lemma exact_row (r : seq F) (L : {poly F} -> F) : size r = n ->
  (forall p : {poly F}, (size p <= n)%N -> dot r (pvals p pts) = L p) ->
  forall j, (j < n)%N -> nth 0 r j = L (ell pts j).
Proof.
move=> sr h j jl; rewrite -h ?size_ell // (dotE sr) ?size_map //.
rewrite (bigD1 (Ordinal jl)) //= (nth_map 0) // ell_nodeU // eqxx mulr1 big1 ?addr0 // => i ij.
rewrite (nth_map 0) // ell_nodeU // (_ : (nat_of_ord i == j) = false) ?mulr0 //.
by apply: negbTE.
Qed.

Lemma exact_prop t r : (0 < n)%N -> t \notin pts -> size r = n ->
  interp_row self t = map (@Fin F) r ->
  (forall p : {poly F}, (size p <= n)%N -> dot r (pvals p pts) = p.[t]) ->
  exists2 c, c != 0 & forall j, (j < n)%N -> v j = c * w j.
Proof.
move=> n0 tn sr e h; move: e; rewrite w_off // => e.
have tx j : (j < n)%N -> t - nth 0 pts j != 0.
  by move=> jl; rewrite subr_eq0; apply: contra tn => /eqP ->; rewrite mem_nth.
have q0 j : (j < n)%N -> wq t j != 0.
  by move=> jl; rewrite /wq mulf_neq0 ?v0 ?invr_neq0 ?tx.
have ent j : (j < n)%N -> (\sum_(k < n) wq t k) != 0 /\ nth 0 r j = wq t j / \sum_(k < n) wq t k.
  move=> jl; apply: fin_ediv; first exact: q0.
  by have := congr1 (fun s => nth NaN s j) e; rewrite nth_mkseq // (nth_map 0) ?sr.
have [s0 _] := ent 0%N n0.
set s := \sum_(k < n) wq t k in ent s0.
have N0 : (nodp (xs (pts := pts))).[t] != 0.
  by rewrite nodpE; apply/prodf_neq0 => k _; apply: tx.
exists (s * (nodp (xs (pts := pts))).[t]); first by rewrite mulf_neq0.
move=> j jl; have [_ ej] := ent j jl.
have := @exact_row r (fun p => p.[t]) sr h j jl.
rewrite ej (ellE (Ordinal jl)) lag_off ?tx // -bwnE /= /wq /xs /=.
have tj := tx j jl; rewrite -/(w j); move: {ent ej h e} s0 tj N0 (w j) (v j).
move: s (t - _) (nodp _).[t] => s d N s0 d0 N0 a b e1.
have : b / d / s * (d * s) = a / d * N * (d * s) by rewrite e1.
have -> : b / d / s * (d * s) = b by field; rewrite s0 d0.
by move=> ->; field.
Qed.

Lemma deriv_prop D : (0 < n)%N -> is_shape D n n -> deriv_D1 self = fmat D ->
  (forall p : {poly F}, (size p <= n)%N -> mv D (pvals p pts) = pvals p^`() pts) ->
  exists2 c, c != 0 & forall j, (j < n)%N -> v j = c * w j.
Proof.
move=> n0 /is_shapeP [sD rD] e h.
exists (v 0%N / w 0%N); first exact: (mulf_neq0 (v0 n0) (invr_neq0 (w0 n0))).
move=> j jl; case: (j =P 0%N) => [->|/eqP j0]; first by rewrite (divfK (w0 n0)).
have j0' : 0%N != j by rewrite eq_sym.
have := w_D1_off n0 jl j0'; rewrite e (nth_map [::]) ?sD // (nth_map 0) ?rD // => -[].
have := @exact_row (nth [::] D 0) (fun p => p^`().[nth 0 pts 0]).
rewrite rD // => /(_ erefl) hr; rewrite hr //; last first.
  move=> p sp; have := congr1 (fun s => nth 0 s 0) (h p sp).
  by rewrite /mv (nth_map [::]) ?sD // (nth_map 0).
have := @dlag_off _ _ _ (xs_injU un) (Ordinal n0) (Ordinal jl) j0'.
rewrite (ellE (Ordinal jl)) /xs /= => ->; rewrite -!bwnE /= -!/(w _).
have d0 : nth 0 pts 0 - nth 0 pts j != 0 by rewrite subr_eq0 nth_uniq.
have := w0 n0; have := v0 n0; move: (w 0%N) (v 0%N) (w j) (v j) (_ - _) d0 => a b a' b' d d0 a0 b0 e1.
have : b' / b / d * (b * d) = a' / a / d * (b * d) by rewrite e1.
have -> : b' / b / d * (b * d) = b' by field; rewrite a0 d0.
by move=> ->; field; rewrite b0 d0.
Qed.
End Weighted.

Section Init.
Variable F : realFieldType.
Variables (flog fexp : F -> F) (underflow : seq F -> bool).
Notation init := (lagrange_init flog fexp underflow).

Lemma unsorted_init (pts : seq F) wc sw sr d : uniq pts -> (0 < size pts)%N ->
  setting_ok pts wc sr -> logs_ok flog fexp underflow pts wc ->
  exists2 self, init pts wc sw sr d None = Ok self &
    [/\ points self = pts, uniquePoints self = pts, dup self = None &
     exists2 c, c != 0 &
     weights self = mkseq (fun j => Fin (c * bwn (np_unique pts) j)) (size pts)].
Proof.
move=> un n0 st lg; rewrite /lagrange_init.
have sz : size (np_unique pts) = size pts by apply/eqP; rewrite size_np_unique.
have u0 : (0 < size (np_unique pts))%N by rewrite sz.
have hv : valid_setting underflow (np_unique pts) wc sr.
  rewrite /valid_setting -ndistE.
  by case: st => [->|[[[] -> [] ->]|[-> h]]] //=; rewrite ?implybT.
have hl : uses_logs underflow (np_unique pts) wc -> exp_log_laws flog fexp.
  by rewrite /uses_logs; case: lg => [->|[[-> h]|//]] //=; rewrite h.
have [c c0 ->] := compute_weightsE (np_unique_srt pts) u0 sw hv hl.
rewrite sz eqxx /=; eexists; first reflexivity.
by split=> //; exists c.
Qed.
End Init.

Section Exact.
Variable F : realFieldType.
Variable pts : seq F.
Let n := size pts.
Hypothesis un : uniq pts.
Hypothesis n0 : (0 < size pts)%N.
Variable self : lagr F.
Variable c : F.
Hypothesis c0 : c != 0.
Hypothesis ptE : points self = pts.
Hypothesis upE : uniquePoints self = pts.
Hypothesis dpE : dup self = None.
Hypothesis wE : weights self = mkseq (fun j => Fin (c * bwn pts j)) n.
Variables (leggauss roots_legendre fejer : nat -> outcome (seq F * seq F)).

Lemma u_row (g : nat -> F) (p : {poly F}) v :
  \sum_(j < n) g j * p.[nth 0 pts j] = v -> dot (mkseq g n) (pvals p pts) = v.
Proof.
move=> <-; rewrite (@dotE _ _ _ n) ?size_mkseq ?size_map //.
by apply: eq_bigr => j _; rewrite nth_mkseq // (nth_map 0).
Qed.

Lemma u_interp times : getInterpolationMatrix self times true =
  fmat [seq mkseq (fun j => (ell pts j).[t]) n | t <- times].
Proof.
rewrite /getInterpolationMatrix /fmat -map_comp; apply: eq_map => t /=.
by rewrite /handleDup dpE (interp_rowEU un n0 c0 upE wE) map_mkseq.
Qed.

Lemma u_integ nq ivs : rules_ok leggauss roots_legendre fejer (size pts) nq ->
  getIntegrationMatrix leggauss roots_legendre fejer self ivs nq true =
  Ok (fmat [seq mkseq (fun j => pint (ell pts j) ab.1 ab.2) n | ab <- ivs]).
Proof.
move=> hr; rewrite /getIntegrationMatrix.
suff [r rE [deg dg ex]] : exists2 r, quad_rule leggauss roots_legendre fejer self nq = Ok r &
    exists2 deg, (size pts <= deg.+1)%N & rule_exact r deg.
  rewrite rE /= /fmat -map_comp; congr Ok; apply: eq_map => ab /=.
  rewrite /handleDup dpE (integ_rowEU un n0 c0 upE wE) ?map_mkseq //; last by case: ex.
  apply: eq_mkseq_in => j jl; congr Fin.
  pose s := (ab.2 - ab.1) / 2%:R; pose t := (ab.2 + ab.1) / 2%:R.
  have sl : (size (ell pts j \Po aff s t) <= deg.+1)%N.
    apply: leq_trans (size_comp_aff _ _ _) _; apply: leq_trans dg; exact: size_ell.
  have := rule_pint ex sl; move/(congr1 (fun y => s * y)); rewrite pint_aff.
  have -> : s * (-1) + t = ab.1 by rewrite /s /t; field.
  have -> : s * 1 + t = ab.2 by rewrite /s /t; field.
  move=> <-; rewrite mulr_sumr; apply: eq_bigr => q _.
  rewrite horner_comp aff_horner -/s -/t.
  have com (a b e : F) : a * b * e = e * (b * a) by ring.
  exact: com.
rewrite /quad_rule ptE addn1; move: hr; rewrite /rules_ok.
move: (size pts) n0 => s s0.
have half : (s <= 2 * (s.+1 %/ 2))%N.
  by have := divn_eq s.+1 2; have := ltn_pmod s.+1 (isT : (0 < 2)%N); lia.
case=> [[-> [r -> ex]]|[[-> [r -> ex]]|[-> [r rE ex]]]] /=; exists r => //.
- by exists (2 * (s.+1 %/ 2) - 1)%N => //; lia.
- by exists (2 * (s.+1 %/ 2) - 1)%N => //; lia.
- rewrite -rE modn2 /=; congr fejer; case: (odd s); rewrite ?subn0 ?subn1 //.
- exists (if odd s then s else s.-1) => //; case: ifP; lia.
Qed.

Lemma u_sum_pint (p : {poly F}) a b : (size p <= n)%N ->
  \sum_(k < n) pint (ell pts k) a b * p.[nth 0 pts k] = pint p a b.
Proof.
move=> sp; have e : \sum_(k < n) p.[nth 0 pts k] *: ell pts k = p.
  rewrite [in RHS](interpE (xs_injU un) sp); apply: eq_bigr => k _.
  by rewrite ellE.
rewrite -[in RHS]e pint_sum; apply: eq_bigr => k _.
by rewrite [RHS]pintZ mulrC.
Qed.

Lemma u_deriv : getDerivativeMatrix self (OStr "ALL") true =
  Ok (DBoth (fmat [seq mkseq (fun j => (ell pts j)^`().[t]) n | t <- pts])
            (fmat [seq mkseq (fun j => (ell pts j)^`()^`().[t]) n | t <- pts])).
Proof.
have h (G : F -> nat -> F) :
    map (handleDup self) (mkseq (fun i => mkseq (fun j => Fin (G (nth 0 pts i) j)) n) n) =
    fmat [seq mkseq (G t) n | t <- pts].
  rewrite map_mkseq /fmat -map_comp map_pts; apply: eq_mkseq_in => i il.
  by rewrite /handleDup dpE /= map_mkseq.
rewrite /= (deriv_D1EU un c0 upE wE) (deriv_D2EU un c0 upE wE).
by rewrite (h (fun t j => (ell pts j)^`().[t])) (h (fun t j => (ell pts j)^`()^`().[t])).
Qed.

Lemma u_deriv1 : getDerivativeMatrix self (OInt 1) true =
  Ok (DOne (fmat [seq mkseq (fun j => (ell pts j)^`().[t]) n | t <- pts])).
Proof. by have := u_deriv; rewrite /= => -[-> _]. Qed.
End Exact.
