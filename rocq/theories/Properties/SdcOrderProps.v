(* Properties C57 and C58: distance to the collocation solution after k sweeps, and the order of
   one step with spectral deferred corrections. *)
From Coq Require Import ZArith QArith Qcanon.
From Verif.Base Require Import Str.
From mathcomp Require Import all_ssreflect all_algebra ring zify.
From Verif.Base Require Import QcField Outcome Arr Ext PolyInterp PolyInt LinSolve.
From Verif.Model Require Import Lagrange QGen Nodes Collocation Sweeps Registry Sdc.
From Verif.Spec Require Import LagrangeSpec QCoeffSpec NodesSpec CollSpec SweepSpec SdcSpec.
From Verif.Proofs Require Import LagrangeP LagrangeInit LagrangeThms StabP CollP SweepP SdcP SdcOrderP.
From Verif.Properties Require Import LagrangeProps CollProps TimeStepProps SdcProps.
Set Implicit Arguments.
Unset Strict Implicit.
Unset Printing Implicit Defensive.
Import GRing.Theory Num.Theory Order.TTheory.
Local Open Scope ring_scope.

Section Order.
Variable K : numFieldType.
Variables (n : nat) (Q : seq (seq K)) (QD : nat -> seq (seq K)) (k : nat).
Hypothesis hQ : is_shape Q n n.
Hypothesis hQD : forall j, (j < k)%N -> is_shape (QD j) n n.
Let Qx := mxl n n Q.

(* C57 *)
Theorem C57_bound z (U : 'cV[K]_n) : `|z| * mnorm Q <= 2%:R^-1 ->
  (forall j, (j < k)%N -> `|z| * mnorm (QD j) <= 2%:R^-1) -> collocation Q z 1 U ->
  \sum_i `|(sdcv n Q QD z k - U) i 0| <=
    2%:R * n%:R * mnorm Q * \prod_(j < k) (2%:R * mnorm (msub Q (QD j))) * `|z| ^+ k.+1.
Proof.
move=> zQ zD cU; rewrite -/(nrm1 _).
have bU : nrm1 U <= 2%:R * n%:R by rewrite -(nrm1_const K n); apply: (small_bound hQ zQ cU).
suff h j : (j <= k)%N -> nrm1 (sdcv n Q QD z j - U) <=
  2%:R * n%:R * mnorm Q * \prod_(i < j) (2%:R * mnorm (msub Q (QD i))) * `|z| ^+ j.+1 by apply: h.
elim: j => [_|j ih jk].
  rewrite big_ord0 mulr1 expr1 {1}cU /= opprD addrA subrr add0r -scaleNr nrm1Z normrN mulrC ler_wpmul2r //.
  by rewrite (le_trans (nrm1_mul _ hQ)) // mulrC ler_wpmul2r ?mnorm_ge0.
have un := small_unit (hQD jk) (zD j jk).
have [e _] := C57_error_recursion hQ (hQD jk) cU un.
have e' : (sdcv n Q QD z j.+1 - U) - z *: (mxl n n (QD j) *m (sdcv n Q QD z j.+1 - U)) =
  z *: ((Qx - mxl n n (QD j)) *m (sdcv n Q QD z j - U)) + 0.
  by rewrite addr0 -e /stagemx mulmxBl mul1mx -scalemxAl.
apply: (le_trans (sweep_bound hQ (hQD jk) (zD j jk) e')).
rewrite (_ : nrm1 0 = 0) ?addr0; last by rewrite /nrm1 big1 // => i _; rewrite mxE normr0.
rewrite big_ord_recr exprS /=.
set m := mnorm (msub Q (QD j)); have m0 : 0 <= m by apply: mnorm_ge0.
rewrite [leRHS](_ : _ = 2%:R * (`|z| * m * (2%:R * n%:R * mnorm Q *
   \prod_(i < j) (2%:R * mnorm (msub Q (QD i))) * `|z| ^+ j.+1))); last first.
  by move: (\prod_(i < j) _) (mnorm Q) `|z| (`|z| ^+ _) => a b c d; ring.
rewrite ler_pmul2l ?ltr0n // ler_wpmul2l ?mulr_ge0 //; exact: ih (ltnW jk).
Qed.

(* the order of a step is determined by the expansion coefficients *)
Theorem C57_order_exact w p : (if w is Some w then size w = n else True) ->
  agrees (fun z => sdcR n Q QD w z k) (expser p) p <->
  (forall d, (d <= p)%N -> step_coef n Q QD w k d = (d`!)%:R^-1).
Proof. move=> hw; exact: order_iff. Qed.

Lemma step_weights w q : (forall d, (d < q)%N -> sdc_coef n Q QD k d = iter d (mulmx Qx) (const_mx 1)) ->
  (forall d, (d < q)%N -> moment n Q w d = (d.+1`!)%:R^-1) ->
  forall d, (d <= q)%N -> step_coef n Q QD (Some w) k d = (d`!)%:R^-1.
Proof. by move=> hc hm [|d] dq; [rewrite fact0 invr1|rewrite /step_coef hc // -hm]. Qed.

Lemma step_last w q : (0 < n)%N -> last [::] Q = w ->
  (forall d, (d <= q)%N -> sdc_coef n Q QD k d = iter d (mulmx Qx) (const_mx 1)) ->
  (forall d, (d < q)%N -> moment n Q w d = (d.+1`!)%:R^-1) ->
  forall d, (d <= q)%N -> step_coef n Q QD None k d = (d`!)%:R^-1.
Proof.
move=> n0 lw hc hm; have h : (n.-1 < n)%N by rewrite prednK.
have [sQ _] := is_shapeP _ _ _ hQ.
case=> [|d] dq; rewrite /step_coef hc // -nth_last size_lcv -[n.-1]/(nat_of_ord (Ordinal h)) nth_lcv.
  by rewrite mxE fact0 invr1.
rewrite -hm // /moment iterS !mxE; apply: eq_bigr => j _; rewrite !mxE; congr (_ * _).
by rewrite -lw /ent -[last [::] Q]nth_last sQ.
Qed.

(* w, Q integrate exactly up to degree p: quadrature update *)
Theorem C57_order_weights w p : size w = n -> (forall d, (d < p)%N -> moment n Q w d = (d.+1`!)%:R^-1) ->
  agrees (fun z => sdcR n Q QD (Some w) z k) (expser (minn p k.+1)) (minn p k.+1).
Proof.
move=> sw hm; apply/C57_order_exact => //; apply: step_weights => d.
  by rewrite leq_min ltnS => /andP [_ dk]; apply: coef_coll.
by rewrite leq_min => /andP [dp _]; apply: hm.
Qed.

(* update with the last node, which has to be the end of the step *)
Theorem C57_order_last w p : (0 < n)%N -> last [::] Q = w ->
  (forall d, (d < p)%N -> moment n Q w d = (d.+1`!)%:R^-1) ->
  agrees (fun z => sdcR n Q QD None z k) (expser (minn p k)) (minn p k).
Proof.
move=> n0 lw hm; apply/C57_order_exact => //; apply: step_last n0 lw _ _ => d.
  by rewrite leq_min => /andP [_ dk]; apply: coef_coll.
by rewrite leq_min => /andP [dp _]; apply: hm.
Qed.

(* C58: the first sweep is exact for linear functions *)
Section Trap.
Hypothesis tr : mxl n n (QD 0%N) *m (Qx *m const_mx 1) = Qx *m (Qx *m const_mx 1) :> 'cV[K]_n.
Hypothesis k0 : (0 < k)%N.

Theorem C58_order_weights w p : size w = n ->
  (forall d, (d < p)%N -> moment n Q w d = (d.+1`!)%:R^-1) ->
  agrees (fun z => sdcR n Q QD (Some w) z k) (expser (minn p k.+2)) (minn p k.+2).
Proof.
move=> sw hm; apply/C57_order_exact => //; apply: step_weights => d.
  by rewrite leq_min ltnS => /andP [_ dk]; apply: coef_coll_trap.
by rewrite leq_min => /andP [dp _]; apply: hm.
Qed.

Theorem C58_order_last w p : (0 < n)%N -> last [::] Q = w ->
  (forall d, (d < p)%N -> moment n Q w d = (d.+1`!)%:R^-1) ->
  agrees (fun z => sdcR n Q QD None z k) (expser (minn p k.+1)) (minn p k.+1).
Proof.
move=> n0 lw hm; apply/C57_order_exact => //; apply: step_last n0 lw _ _ => d.
  by rewrite leq_min => /andP [_ dk]; apply: coef_coll_trap.
by rewrite leq_min => /andP [dp _]; apply: hm.
Qed.
End Trap.
End Order.

(* TRAP and TRAPAR, built on the interval starting at zero, integrate the identity exactly *)
Section TrapMatrix.
Variable F : realFieldType.
Variable tr : F -> F.
Variables (int : bool) (nodes : seq F) (self : ts F).
Hypothesis e : ts_init tr int nodes 0 = Ok self.
Hypothesis intOk : int -> tr (nth 0 nodes 0 - 0) = nth 0 nodes 0 - 0.
Notation M := (size nodes).

Theorem C58_trap_linear i : (i < M)%N ->
  \sum_(j < M) ent (qd_TRAP self) i j * nth 0 nodes j = nth 0 nodes i ^+ 2 / 2%:R /\
  \sum_(j < M) ent (qd_TRAPAR self) i j * nth 0 nodes j = nth 0 nodes i ^+ 2 / 2%:R.
Proof.
move=> il; split; last first.
  rewrite (bigD1 (Ordinal il)) //= big1 ?addr0.
    have [_ [_ [_ ->]]] := C38_entries e intOk il il.
    by rewrite eqxx subr0 expr2 mulrAC.
  move=> j; rewrite -val_eqE /= => ne; have [_ [_ [_ ->]]] := C38_entries e intOk il (ltn_ord j).
  by rewrite eq_sym (negPf ne) subr0 mul0r.
have [_ [_ [_ en]]] := C37_entries e intOk.
have delE j : step nodes 0 j = nth 0 nodes j - (if j is j'.+1 then nth 0 nodes j' else 0) by case: j.
have main m : (m < M)%N -> \sum_(j < M)
   ((if (j <= m)%N then step nodes 0 j else 0) + (if (j < m)%N then step nodes 0 j.+1 else 0)) / 2%:R * nth 0 nodes j
   = nth 0 nodes m ^+ 2 / 2%:R.
  elim: m => [|m ih] ml.
    rewrite (bigD1 (Ordinal ml)) //= big1 ?addr0; first by rewrite delE subr0 expr2 mulrAC.
    by move=> [[|j] jl] //= _; rewrite addr0 mul0r mul0r.
  have m' := ltnW ml.
  rewrite (eq_bigr (fun j : 'I_M =>
    ((if (j <= m)%N then step nodes 0 j else 0) + (if (j < m)%N then step nodes 0 j.+1 else 0)) / 2%:R * nth 0 nodes j
    + ((if j == Ordinal ml then step nodes 0 m.+1 / 2%:R * nth 0 nodes m.+1 else 0)
    + (if j == Ordinal m' then step nodes 0 m.+1 / 2%:R * nth 0 nodes m else 0)))).
    rewrite big_split ih //= big_split /= -!big_mkcond !big_pred1_eq delE.
    by move: (nth 0 nodes m) (nth 0 nodes m.+1) => x y; field.
  move=> j _; rewrite -!val_eqE /=.
  case: (ltngtP j m) => [jm|jm|->].
  - rewrite !ltnS (ltnW jm) (ltnW (leqW jm)) (_ : (j == m.+1 :> nat) = false) ?addr0 //; lia.
  - rewrite ltnS; case: (ltngtP j m.+1) => [|jm1|->]; first lia.
      by rewrite (_ : (j <= m)%N = false) ?addr0 ?mul0r ?addr0 //; lia.
    by rewrite ltnn !addr0 mul0r mul0r add0r.
  - rewrite leqnSn ltnSn (_ : (m == m.+1) = false); last lia.
    by rewrite addr0 add0r -mulrDl -mulrDl.
rewrite -main //; apply: eq_bigr => j _.
by have [e1 [e2 ->]] := en i j il (ltn_ord j); rewrite e1 e2.
Qed.
End TrapMatrix.

(* an embedding of F preserves everything *)
Section Map.
Variables (F : realFieldType) (K : numFieldType) (f : {rmorphism F -> K}).
Lemma map_shape n m (A : seq (seq F)) : is_shape A n m -> is_shape (map (map f) A) n m.
Proof.
case/andP=> q1 q2; rewrite /is_shape size_map q1 all_map; apply: sub_all q2 => r /=.
by rewrite size_map.
Qed.
Lemma map_mxl n m (A : seq (seq F)) : is_shape A n m -> mxl n m (map (map f) A) = map_mx f (mxl n m A).
Proof.
move=> /is_shapeP [zA hA]; apply/matrixP => i j; rewrite !mxE.
by rewrite /ent (nth_map [::]) ?zA // (nth_map 0) ?hA.
Qed.
Lemma map_const n : map_mx f (const_mx 1) = const_mx 1 :> 'cV[K]_n.
Proof. by apply/matrixP => i j; rewrite !mxE rmorph1. Qed.
Lemma map_trap n (A Q : seq (seq F)) : is_shape A n n -> is_shape Q n n ->
  mxl n n A *m (mxl n n Q *m const_mx 1) = mxl n n Q *m (mxl n n Q *m const_mx 1) :> 'cV[F]_n ->
  mxl n n (map (map f) A) *m (mxl n n (map (map f) Q) *m const_mx 1) =
  mxl n n (map (map f) Q) *m (mxl n n (map (map f) Q) *m const_mx 1) :> 'cV[K]_n.
Proof.
by move=> hA hQ /(congr1 (map_mx f)); rewrite !map_mxl // !map_mxM map_const.
Qed.
End Map.

(* collocation methods on the unit interval; K contains F (for instance the complex numbers) *)
Section Coll.
Variable F : realFieldType.
Variables (fpi : F) (eigh : seq F -> seq F -> seq F) (fsqrt : F -> F).
Variables (flog fexp : F -> F) (underflow : seq F -> bool).
Variables (leggauss roots_legendre fejer : nat -> outcome (seq F * seq F)).
Notation cinit := (coll_init fpi eigh fsqrt flog fexp underflow leggauss roots_legendre fejer).
Notation base nt qt M := (getNodes fpi eigh fsqrt (NodesGen nt qt) (Posz M)).
Variables (nt qt : string) (M : nat) (c : coll F) (s : seq F) (p : nat).
Hypothesis ok : nodes_ok fpi eigh fsqrt nt qt M.
Hypothesis lg : logs_all flog fexp underflow.
Hypothesis rl : rules_ok leggauss roots_legendre fejer M "FEJER".
Hypothesis ec : cinit M%:Z nt qt 0 1 = Ok c.
Hypothesis es : base nt qt M = Ok s.
Hypothesis sep : separated 0 1 s.
Hypothesis ep : coll_order c = Some p.
Variables (K : numFieldType) (f : {rmorphism F -> K}).
Variables (QD : nat -> seq (seq K)) (k : nat).
Hypothesis hQD : forall j, (j < k)%N -> is_shape (QD j) M M.
Let h01 : 0 < 1 :> F. Proof. exact: ltr01. Qed.

Let facts : exists Q w, [/\ co_Q c = fmat Q, co_weights c = map (@Fin F) w, is_shape Q M M, size w = M &
   (0 < M)%N] /\ [/\ (forall d, (d < p)%N -> moment M (map (map f) Q) (map f w) d = (d.+1`!)%:R^-1),
   (last 0 (co_nodes c) = 1 -> last [::] (map (map f) Q) = map f w) &
   (1 < M)%N -> forall i, (i < M)%N -> \sum_(j < M) ent Q i j * nth 0 (co_nodes c) j = nth 0 (co_nodes c) i ^+ 2 / 2%:R /\
      \sum_(j < M) ent Q i j = nth 0 (co_nodes c) i].
Proof.
have mom d : (d < p)%N -> _ := C26_moments ok h01 lg rl ec es sep ep (k := d).
have [Q [w [eQ [ew [shQ [zw [ex [es1 _]]]]]]]] := C21_exact ok h01 lg rl ec.
have [zn _] := C21_nodes ok h01 lg rl ec.
have M0 : (0 < M)%N by have [_ _ hM _] := ok; have [] := least_pos hM.
have [zQ hQ] := is_shapeP _ _ _ shQ.
exists Q, w; split; split=> //.
- move=> d dp; rewrite (moment_map f d shQ zw); have [Q2 [w2 [eQ2 ew2 mE]]] := mom d dp.
  have e1 : Q2 = Q by apply: fmat_inj; rewrite -eQ2 -eQ.
  have e2 : w2 = w by apply: (inj_map (f := @Fin F)); [move=> x y []|rewrite -ew2 -ew].
  by move: mE; rewrite e1 e2 => ->; rewrite subr0 expr1n mul1r fmorphV rmorph_nat.
- move=> /(C22_last_row ok h01 lg rl ec); rewrite eQ ew /fmat -!nth_last !size_map zQ.
  rewrite (nth_map [::]) ?zQ ?prednK // => /(inj_map (f := @Fin F)) <-; last by move=> x y [].
  by rewrite (nth_map [::]) ?zQ ?prednK.
move=> M1 i il; split.
  have sX : (size (('X^2 : {poly F}) *+ 1) <= M.+1)%N by rewrite mulr1n size_polyXn ltnS.
  have [+ _] := ex _ sX; rewrite mulr1n => /(congr1 (fun s => nth 0 s i)).
  rewrite (@nth_mv _ _ _ M M) ?size_map // (nth_map 0) ?zn // !hornerXn expr0n subr0 => <-.
  rewrite mulr_suml; apply: eq_bigr => j _.
  rewrite (nth_map 0) ?zn // derivXn hornerMn hornerXn expr1 mulr2n; move: (nth _ _ _) (ent _ _ _) => x y.
  by field.
move: es1 => /(congr1 (fun s => nth 0 s i)); rewrite (nth_map [::]) ?zQ // (nth_map 0) ?zn // subr0 => <-.
by rewrite vsumE hQ.
Qed.

Theorem C57_collocation : exists Q w, [/\ co_Q c = fmat Q, co_weights c = map (@Fin F) w,
  is_shape Q M M & size w = M] /\
  let Q' := map (map f) Q in let w' := map f w in
  agrees (fun z => sdcR M Q' QD (Some w') z k) (expser (minn p k.+1)) (minn p k.+1) /\
  (last 0 (co_nodes c) = 1 ->
   agrees (fun z => sdcR M Q' QD None z k) (expser (minn p k)) (minn p k)).
Proof.
have [Q [w [[eQ ew shQ zw M0] [mom lst _]]]] := facts; exists Q, w; split=> // Q' w'.
have shQ' : is_shape Q' M M by apply: map_shape.
split; first by apply: C57_order_weights; rewrite ?size_map.
by move=> l1; apply: (C57_order_last shQ' hQD M0 (lst l1)).
Qed.

(* the first sweep is TRAP or TRAPAR on the same nodes *)
Theorem C58_collocation tr int self : ts_init tr int (co_nodes c) 0 = Ok self ->
  (int -> tr (nth 0 (co_nodes c) 0) = nth 0 (co_nodes c) 0) -> (1 < M)%N -> (0 < k)%N ->
  QD 0%N = map (map f) (qd_TRAP self) \/ QD 0%N = map (map f) (qd_TRAPAR self) ->
  exists Q w, [/\ co_Q c = fmat Q, co_weights c = map (@Fin F) w, is_shape Q M M & size w = M] /\
  let Q' := map (map f) Q in let w' := map f w in
  agrees (fun z => sdcR M Q' QD (Some w') z k) (expser (minn p k.+2)) (minn p k.+2) /\
  (last 0 (co_nodes c) = 1 ->
   agrees (fun z => sdcR M Q' QD None z k) (expser (minn p k.+1)) (minn p k.+1)).
Proof.
move=> ei io M1 k0 e0; have [Q [w [[eQ ew shQ zw M0] [mom lst lin]]]] := facts; exists Q, w; split=> // Q' w'.
have [zn _] := C21_nodes ok h01 lg rl ec.
have shQ' : is_shape Q' M M by apply: map_shape.
have io' : int -> tr (nth 0 (co_nodes c) 0 - 0) = nth 0 (co_nodes c) 0 - 0 by rewrite subr0.
have [_ [_ [shT _]]] := C37_entries ei io'.
have shA : is_shape (qd_TRAPAR self) M M.
  by have := C38_entries (i := 0) (j := 0) ei io'; rewrite zn => /(_ M0 M0) [_ []].
rewrite zn in shT.
have col (A : seq (seq F)) : is_shape A M M ->
    (forall i, (i < M)%N -> \sum_(j < M) ent A i j * nth 0 (co_nodes c) j = nth 0 (co_nodes c) i ^+ 2 / 2%:R) ->
    mxl M M A *m (mxl M M Q *m const_mx 1) = mxl M M Q *m (mxl M M Q *m const_mx 1) :> 'cV[F]_M.
  move=> shA' hA; have e1 : mxl M M Q *m const_mx 1 = cvl M (co_nodes c) :> 'cV[F]_M.
    apply/matrixP => i j; rewrite !mxE -(lin M1 i (ltn_ord i)).2; apply: eq_bigr => l _.
    by rewrite !mxE mulr1.
  rewrite e1; apply/matrixP => i j; rewrite !mxE.
  transitivity (nth 0 (co_nodes c) i ^+ 2 / 2%:R).
    by rewrite -hA //; apply: eq_bigr => l _; rewrite !mxE.
  by rewrite -(lin M1 i (ltn_ord i)).1; apply: eq_bigr => l _; rewrite !mxE.
have lin1 i := C58_trap_linear (i := i) ei io'; rewrite zn in lin1.
have trp : mxl M M (QD 0%N) *m (mxl M M Q' *m const_mx 1) = mxl M M Q' *m (mxl M M Q' *m const_mx 1) :> 'cV[K]_M.
  case: e0 => ->; apply: map_trap => //; apply: col => // i il; by have [] := lin1 i il.
split; first by apply: C58_order_weights; rewrite ?size_map.
by move=> l1; apply: (C58_order_last shQ' hQD trp k0 M0 (lst l1)).
Qed.

(* C61: the step of a converged iteration does not depend on the kind of update *)
Theorem C61_collocation z u : last 0 (co_nodes c) = 1 ->
  exists Q w, [/\ co_Q c = fmat Q, co_weights c = map (@Fin F) w, is_shape Q M M & size w = M] /\
  forall x : 'cV[K]_M, collocation (map (map f) Q) z u x ->
    u + z * (rvl M (map f w) *m x) 0 0 = last 0 (lcv x).
Proof.
move=> l1; have [Q [w [[eQ ew shQ zw M0] [_ lst _]]]] := facts; exists Q, w; split=> // x.
by apply: C61_converged => //; [apply: map_shape|apply: lst].
Qed.
End Coll.

(* without the end of the step among the nodes the last-node update has order zero, however many
   sweeps are made: the midpoint rule, of order two *)
Theorem C57_last_node_refuted (K : numFieldType) : exists n (Q : seq (seq K)) w, [/\ is_shape Q n n, (0 < n)%N, size w = n &
  (forall d, (d < 2)%N -> moment n Q w d = (d.+1`!)%:R^-1) /\
  forall QD k, (forall j, (j < k.+1)%N -> is_shape (QD j) n n) ->
   ~ agrees (fun z => sdcR n Q QD None z k.+1) (expser 1) 1].
Proof.
exists 1%N, [:: [:: 2%:R^-1]], [:: 1]; split=> //; split.
  case=> [|[|d]] // _; rewrite /moment /= !mxE big_ord1 !mxE /=.
    by rewrite mul1r fact_prod big_nat1 invr1.
  by rewrite big_ord1 !mxE mul1r mulr1.
move=> QD k hQD /(C57_order_exact (QD := QD) _ hQD (w := None) 1 I) /(_ 1%N (leqnn _)).
rewrite /step_coef coef_coll //= -nth_last size_lcv /= -[0%N]/(nat_of_ord (0 : 'I_1)) nth_lcv !mxE big_ord1 !mxE mulr1 /=.
move=> /(_ isT); rewrite invr1 /ent /= => h; have /eqP : (2%:R^-1 : K) * 2%:R = 1 * 2%:R by rewrite h.
by rewrite mulVf ?pnatr_eq0 // mul1r (eqr_nat K 1 2).
Qed.
Print Assumptions C57_bound.
Print Assumptions C57_order_exact.
Print Assumptions C57_order_weights.
Print Assumptions C57_order_last.
Print Assumptions C57_collocation.
Print Assumptions C57_last_node_refuted.
Print Assumptions C58_order_weights.
Print Assumptions C58_order_last.
Print Assumptions C58_trap_linear.
Print Assumptions C58_collocation.
Print Assumptions C61_collocation.

(* Concrete cases: three equidistant nodes on [0,1] (Simpson, order 4). *)
Notation qc3 := (qcoll 3%:Z "EQUID" "LOBATTO" 0%R 1%R).
Notation qt3 := (qts false (co_nodes qc3) 0%R).

Example C57_nonvacuous :
  nodes_ok (1 : Qf) q_eigh q_id "EQUID" "LOBATTO" 3 /\ rules_ok q_none q_none q_fejer 3 "FEJER" /\
  qinit 3%:Z "EQUID" "LOBATTO" 0%R 1%R = Ok qc3 /\ coll_order qc3 = Some 4%N /\
  co_nodes qc3 = [:: 0; qc 1 2; 1]%R /\
  ts_init q_trunc false (co_nodes qc3) 0%R = Ok qt3 /\
  qd_BE qt3 = [:: [:: 0; 0; 0]; [:: 0; qc 1 2; 0]; [:: 0; qc 1 2; qc 1 2]]%R /\
  qd_TRAP qt3 = [:: [:: 0; 0; 0]; [:: qc 1 4; qc 1 4; 0]; [:: qc 1 4; qc 1 2; qc 1 4]]%R.
Proof.
split; first by split.
split; first exact: q_rules3.
split; first by apply: ok_orE; vm_compute.
split; first by vm_compute.
split; first by apply/eqP; vm_compute.
split; first by apply: ok_orE; vm_compute.
by split; apply/eqP; vm_compute.
Qed.

(* one sweep with BE has order 2, one sweep with TRAP order 3 *)
Example C58_nonvacuous :
  let QB := fun _ : nat => qd_BE qt3 in let QT := fun _ : nat => qd_TRAP qt3 in
  exists (Q : seq (seq Qf)) w, [/\ co_Q qc3 = fmat Q, co_weights qc3 = map (@Fin Qf) w,
  agrees (fun z => sdcR 3 Q QB (Some w) z 1) (expser 2) 2 &
  agrees (fun z => sdcR 3 Q QT (Some w) z 1) (expser 3) 3 /\
  agrees (fun z => sdcR 3 Q QT None z 1) (expser 2) 2].
Proof.
have [ok [rl [ec [eo [en [ei _]]]]]] := C57_nonvacuous.
have [es [sep _]] := C25_nonvacuous.
have mapid (s : seq Qf) : map (@idfun Qf) s = s by rewrite map_id.
have mapid2 (A : seq (seq Qf)) : map (map (@idfun Qf)) A = A.
  by rewrite (eq_map mapid) map_id.
move=> QB QT; have shB j : (j < 1)%N -> is_shape (QB j) 3 3 by move=> _; vm_compute.
have shT j : (j < 1)%N -> is_shape (QT j) 3 3 by move=> _; vm_compute.
have lst : last 0%R (co_nodes qc3) = 1%R by rewrite en.
have [Q [w [[eQ ew _ _] [h1 _]]]] := C57_collocation ok q_logs rl ec es sep eo [rmorphism of (@idfun Qf)] shB.
have e0 : QT 0%N = map (map (@idfun Qf)) (qd_TRAP qt3) by rewrite mapid2.
have [Q' [w' [[eQ' ew' _ _] [h2 h3]]]] :=
  C58_collocation ok q_logs rl ec es sep eo (f := [rmorphism of (@idfun Qf)]) shT ei (fun a => False_ind _ (notF a)) isT isT (or_introl e0).
have eQQ : Q' = Q by apply: fmat_inj; rewrite -eQ' -eQ.
have eww : w' = w by apply: (inj_map (f := @Fin Qf)); [move=> x y []|rewrite -ew' -ew].
move: h1 h2 (h3 lst); rewrite eQQ eww [map (map _) Q]mapid2 [map _ w]mapid => h1 h2 h3'.
exists Q, w; split; [exact: eQ|exact: ew|exact: h1|split; [exact: h2|exact: h3']].
Qed.
