(* Proofs about solveDahlquist: stability function, explicit tables, padding, order. *)
From Verif.Base Require Import Str.
From mathcomp Require Import all_ssreflect all_algebra ring.
From Verif.Base Require Import Outcome Arr Ext LinSolve.
From Verif.Model Require Import QGen.
From Verif.Spec Require Import QCoeffSpec.
Set Implicit Arguments.
Unset Strict Implicit.
Unset Printing Implicit Defensive.
Import GRing.Theory Num.Theory Order.TTheory.
Local Open Scope ring_scope.

Lemma mkseq_S (T : Type) (f : nat -> T) k : mkseq f k.+1 = f 0%N :: mkseq (fun i => f i.+1) k.
Proof. by rewrite /mkseq /= (iotaDl 1 0) -map_comp. Qed.

Section Loop.
Variable K : fieldType.
Variables (n : nat) (Q : seq (seq K)) (w : seq K) (z : K).
Hypothesis hQ : is_shape Q n n.

Definition amat := msub (eye K n) (mscale z Q).

Lemma amat_shape : is_shape amat n n.
Proof. by apply: msub_shape; [exact: eye_shape|exact: mscale_shape]. Qed.

Lemma mxl_amat : mxl n n amat = stagemx n Q z.
Proof.
rewrite (@mxl_msub _ _ _ n n) ?mxl_eye ?(@mxl_mscale _ _ _ n n) //; first exact: eye_shape.
exact: mscale_shape.
Qed.

Lemma cvl_nseq (u : K) : cvl n (nseq n u) = u *: const_mx 1.
Proof. by apply/matrixP => i j; rewrite !mxE nth_nseq ltn_ord mulr1. Qed.

Lemma dot_rvl (b : seq K) (v : 'cV_n) : size b = n -> dot b (lcv v) = (rvl n b *m v) 0 0.
Proof.
move=> sb; rewrite (@dotE _ _ _ n) ?size_lcv // mxE; apply: eq_bigr => i _.
by rewrite nth_lcv mxE.
Qed.

Lemma solve_amat u : solve amat (nseq n u) =
  if stagemx n Q z \in unitmx then Some (lcv (u *: (invmx (stagemx n Q z) *m const_mx 1)))
  else None.
Proof.
rewrite (@solveE _ _ _ n) ?size_nseq ?mxl_amat ?cvl_nseq ?amat_shape //.
by rewrite -scalemxAr.
Qed.

Lemma loopE u k : size w = n ->
  dahl_loop n amat w z u k =
  if (k == 0)%N || (stagemx n Q z \in unitmx)
  then Ok (mkseq (fun i => stabf n Q w z ^+ i.+1 * u) k) else Raise LinAlgError.
Proof.
move=> sw; elim: k u => [//|k ih] u; rewrite /= solve_amat.
case: ifP => // un; rewrite size_lcv sw eqxx /= ih un orbT /= mkseq_S; congr Ok.
have e : u + z * dot w (lcv (u *: (invmx (stagemx n Q z) *m const_mx 1))) = stabf n Q w z * u.
  by rewrite dot_rvl // -scalemxAr mxE /stabf mulmxA mulrDl mul1r; congr (_ + _); rewrite mulrCA [RHS]mulrC.
rewrite e; congr cons; apply: eq_mkseq => i /=.
by rewrite [in RHS]exprSr mulrA.
Qed.

Lemma loop_mismatch u k : size w != n -> (0 < k)%N -> stagemx n Q z \in unitmx ->
  dahl_loop n amat w z u k = Raise ValueError.
Proof.
by move=> sw; case: k => // k _ un; rewrite /= solve_amat un size_lcv sw.
Qed.
Lemma loop_singular u k : (0 < k)%N -> stagemx n Q z \notin unitmx ->
  dahl_loop n amat w z u k = Raise LinAlgError.
Proof. by case: k => // k _ /negPf un; rewrite /= solve_amat un. Qed.
End Loop.

Section Dahl.
Variable K : fieldType.
Implicit Types (Q : seq (seq K)) (w nodes : seq K).

Lemma dahlquistE nodes w we Q lam u0 tEnd N n : is_shape Q n n -> size nodes = n -> size w = n ->
  let z := lam * (tEnd / N.+1%:R) in
  solveDahlquist nodes w we Q lam u0 tEnd (Posz N.+1) false =
  if stagemx n Q z \in unitmx
  then Ok (mkseq (fun i => stabf n Q w z ^+ i * u0) N.+2) else Raise LinAlgError.
Proof.
move=> hQ sn sw z; rewrite /solveDahlquist /= sn.
have := @loopE K n Q w z hQ u0 N.+1 sw; rewrite /amat /= => ->; case: ifP => //= _.
by rewrite [in RHS]mkseq_S expr0 mul1r.
Qed.
End Dahl.

(* uniqueness of the stages *)
Section Stages.
Variable K : fieldType.
Lemma stabf_stages n (A : seq (seq K)) b z (x : 'cV_n) : stagemx n A z \in unitmx ->
  stagemx n A z *m x = const_mx 1 -> stabf n A b z = 1 + z * (rvl n b *m x) 0 0.
Proof. by move=> un e; rewrite /stabf -mulmxA -e mulKmx. Qed.

Lemma stages_ex n (A : seq (seq K)) z : stagemx n A z \in unitmx ->
  exists x : 'cV_n, stagemx n A z *m x = const_mx 1.
Proof. by move=> un; exists (invmx (stagemx n A z) *m const_mx 1); rewrite mulKVmx. Qed.

Lemma stages_eq n (A : seq (seq K)) z (x : 'cV_n) : stagemx n A z *m x = const_mx 1 ->
  x = const_mx 1 + z *: (mxl n n A *m x).
Proof. by move=> <-; rewrite /stagemx mulmxBl mul1mx -scalemxAl subrK. Qed.

(* x = sum_{k<p} z^k A^k 1 + z^p A^p x *)
Lemma stages_series n (A : seq (seq K)) z (x : 'cV_n) p : stagemx n A z *m x = const_mx 1 ->
  x = \sum_(k < p) z ^+ k *: iter k (mulmx (mxl n n A)) (const_mx 1) +
      z ^+ p *: iter p (mulmx (mxl n n A)) x.
Proof.
move=> e; elim: p => [|p ih]; first by rewrite big_ord0 add0r expr0 scale1r.
rewrite {1}ih big_ord_recr /= -addrA; congr (_ + _).
have lin (M : 'M[K]_n) k : linear (iter k (mulmx M) : 'cV_n -> 'cV_n).
  elim: k => [|k ihk] a u v //=; by rewrite ihk mulmxDr -scalemxAr.
rewrite {1}(stages_eq e) addrC lin scalerDr exprSr scalerA addrC.
by rewrite -iterSr iterS.
Qed.

Lemma stabf_series n (A : seq (seq K)) b z (x : 'cV_n) p : stagemx n A z \in unitmx ->
  stagemx n A z *m x = const_mx 1 ->
  stabf n A b z = 1 + \sum_(k < p) z ^+ k.+1 * moment n A b k +
     z ^+ p.+1 * (rvl n b *m iter p (mulmx (mxl n n A)) x) 0 0.
Proof.
move=> un e; rewrite (stabf_stages b un e) {1}(stages_series p e) -addrA; congr (_ + _).
rewrite mulmxDr mxE mulrDr; congr (_ + _); last first.
  by rewrite -scalemxAr mxE mulrA -exprS.
rewrite mulmx_sumr summxE mulr_sumr; apply: eq_bigr => k _.
by rewrite -scalemxAr mxE mulrA -exprS.
Qed.
End Stages.

(* strictly lower triangular tables *)
Section Explicit.
Variable K : fieldType.
Definition strict_lower n (A : seq (seq K)) : Prop :=
  forall i j, (i < n)%N -> (j < n)%N -> (i <= j)%N -> ent A i j = 0.

Lemma explicit_det n (A : seq (seq K)) z : strict_lower n A -> \det (stagemx n A z) = 1.
Proof.
move=> h; rewrite det_trig; last first.
  apply/is_trig_mxP => i j ij; rewrite !mxE h ?(ltnW ij) // mulr0 subr0.
  by case: eqP => // e; rewrite e ltnn in ij.
rewrite big1 // => i _; rewrite !mxE eqxx h // mulr0 subr0 //.
Qed.

Lemma explicit_unit n (A : seq (seq K)) z : strict_lower n A -> stagemx n A z \in unitmx.
Proof. by move=> h; rewrite unitmxE explicit_det // unitr1. Qed.

Lemma explicit_iter n (A : seq (seq K)) (x : 'cV_n) k (i : 'I_n) : strict_lower n A ->
  (i < k)%N -> iter k (mulmx (mxl n n A)) x i 0 = 0.
Proof.
move=> h; elim: k i => [//|k ih] i ik; rewrite iterS mxE big1 // => j _.
rewrite mxE; case: (ltnP j i) => ji; last by rewrite h // mul0r.
by rewrite ih ?mulr0 // (leq_trans ji).
Qed.

Lemma explicit_nil n (A : seq (seq K)) (x : 'cV_n) k : strict_lower n A -> (n <= k)%N ->
  iter k (mulmx (mxl n n A)) x = 0.
Proof.
move=> h nk; apply/matrixP => i j; rewrite ord1 mxE explicit_iter //.
exact: leq_trans (ltn_ord i) nk.
Qed.

Lemma explicit_stabf n (A : seq (seq K)) b z : strict_lower n A ->
  stabf n A b z = 1 + \sum_(k < n) z ^+ k.+1 * moment n A b k.
Proof.
move=> h; have un := explicit_unit z h; have [x e] := stages_ex un.
by rewrite (stabf_series b n un e) explicit_nil // mulmx0 mxE mulr0 addr0.
Qed.
End Explicit.

(* remainder of the stability function *)
Section Remainder.
Variable K : numFieldType.
Definition nrm1 n (x : 'cV[K]_n) : K := \sum_i `|x i 0|.

Lemma nrm1_ge0 n (x : 'cV_n) : 0 <= nrm1 x.
Proof. by apply: sumr_ge0. Qed.

Lemma nrm1_eq0 n (x : 'cV_n) : nrm1 x = 0 -> x = 0.
Proof.
move/eqP; rewrite psumr_eq0 // => /allP h; apply/matrixP => i j; rewrite ord1 mxE.
by apply/eqP; rewrite -normr_eq0; apply: h; rewrite mem_index_enum.
Qed.

Lemma nrm1D n (x y : 'cV_n) : nrm1 (x + y) <= nrm1 x + nrm1 y.
Proof. by rewrite -big_split; apply: ler_sum => i _; rewrite mxE ler_norm_add. Qed.

Lemma nrm1Z n a (x : 'cV_n) : nrm1 (a *: x) = `|a| * nrm1 x.
Proof. by rewrite mulr_sumr; apply: eq_bigr => i _; rewrite mxE normrM. Qed.

Lemma mnormE n m (A : seq (seq K)) : is_shape A n m ->
  mnorm A = \sum_(i < n) \sum_(j < m) `|ent A i j|.
Proof.
move=> /is_shapeP [sA hA]; rewrite /mnorm (big_nth [::]) sA big_mkord.
by apply: eq_bigr => i _; rewrite (big_nth 0) big_mkord hA.
Qed.

Lemma mnorm_ge0 (A : seq (seq K)) : 0 <= mnorm A.
Proof. by rewrite /mnorm; apply: sumr_ge0 => r _; apply: sumr_ge0. Qed.

Lemma vnorm1_ge0 (b : seq K) : 0 <= vnorm1 b.
Proof. by rewrite /vnorm1; apply: sumr_ge0. Qed.

Lemma vnorm1E n (b : seq K) : size b = n -> vnorm1 b = \sum_(i < n) `|nth 0 b i|.
Proof. by move=> <-; rewrite /vnorm1 (big_nth 0) big_mkord. Qed.

Lemma le_term (n : nat) (f : 'I_n -> K) i : (forall j, 0 <= f j) -> f i <= \sum_j f j.
Proof. by move=> h; rewrite (bigD1 i) //= ler_addl sumr_ge0. Qed.

Lemma nrm1_mul n m (A : seq (seq K)) (x : 'cV_m) : is_shape A n m ->
  nrm1 (mxl n m A *m x) <= mnorm A * nrm1 x.
Proof.
move=> hA; rewrite (mnormE hA) mulr_suml; apply: ler_sum => i _.
rewrite mxE (le_trans (ler_norm_sum _ _ _)) // mulr_suml; apply: ler_sum => j _.
rewrite mxE normrM ler_wpmul2l // /nrm1.
exact: (@le_term _ (fun j => `|x j 0|)).
Qed.

Lemma dot_bound n (b : seq K) (x : 'cV_n) : size b = n ->
  `|(rvl n b *m x) 0 0| <= vnorm1 b * nrm1 x.
Proof.
move=> sb; rewrite (vnorm1E sb) mxE (le_trans (ler_norm_sum _ _ _)) // mulr_suml.
apply: ler_sum => j _; rewrite mxE normrM ler_wpmul2l // /nrm1.
exact: (@le_term _ (fun j => `|x j 0|)).
Qed.

Lemma nrm1_iter n (A : seq (seq K)) (x : 'cV_n) k : is_shape A n n ->
  nrm1 (iter k (mulmx (mxl n n A)) x) <= mnorm A ^+ k * nrm1 x.
Proof.
move=> hA; elim: k => [|k ih]; first by rewrite expr0 mul1r.
rewrite iterS (le_trans (nrm1_mul _ hA)) // exprS -mulrA ler_wpmul2l //; exact: mnorm_ge0.
Qed.

Lemma small_bound n (A : seq (seq K)) z (x y : 'cV_n) : is_shape A n n ->
  `|z| * mnorm A <= 2%:R^-1 -> x = y + z *: (mxl n n A *m x) -> nrm1 x <= 2%:R * nrm1 y.
Proof.
move=> hA hz e.
have h : nrm1 x <= nrm1 y + 2%:R^-1 * nrm1 x.
  rewrite {1}e (le_trans (nrm1D _ _)) // ler_add2l nrm1Z.
  rewrite (le_trans (ler_wpmul2l _ (nrm1_mul x hA))) // mulrA ler_wpmul2r //; exact: nrm1_ge0.
move: h; move: (nrm1 x) (nrm1 y) => a b h.
have h2 : 0 <= 2%:R * (b + 2%:R^-1 * a - a) by rewrite mulr_ge0 ?ler0n ?subr_ge0.
have e2 : 2%:R * (b + 2%:R^-1 * a - a) = 2%:R * b - a by field.
by rewrite -subr_ge0 -e2.
Qed.

Lemma small_unit n (A : seq (seq K)) z : is_shape A n n -> `|z| * mnorm A <= 2%:R^-1 ->
  stagemx n A z \in unitmx.
Proof.
move=> hA hz; apply: unitmx_inj => v e; apply: nrm1_eq0; apply/eqP.
have e' : v = 0 + z *: (mxl n n A *m v).
  by move/eqP: e; rewrite /stagemx mulmxBl mul1mx -scalemxAl subr_eq => /eqP.
have := small_bound hA hz e'.
have -> : nrm1 (0 : 'cV[K]_n) = 0 by rewrite /nrm1 big1 // => i _; rewrite mxE normr0.
rewrite mulr0.
by move=> h; apply/eqP/le_anti; rewrite h nrm1_ge0.
Qed.

Lemma nrm1_const n : nrm1 (const_mx 1 : 'cV_n) = n%:R.
Proof.
rewrite /nrm1 (eq_bigr (fun _ => 1)); last by move=> i _; rewrite mxE normr1.
by rewrite sumr_const card_ord.
Qed.

Lemma expserE p (z : K) : expser p z = 1 + \sum_(k < p) z ^+ k.+1 * (k.+1`!)%:R^-1.
Proof. by rewrite /expser big_ord_recl expr0 fact0 divr1. Qed.

Lemma stabf_remainder n (A : seq (seq K)) b z p : is_shape A n n -> size b = n ->
  `|z| * mnorm A <= 2%:R^-1 ->
  `|stabf n A b z - expser p z| <=
    \sum_(k < p) `|z| ^+ k.+1 * `|moment n A b k - (k.+1`!)%:R^-1| +
    2%:R * n%:R * vnorm1 b * mnorm A ^+ p * `|z| ^+ p.+1.
Proof.
move=> hA sb hz; have un := small_unit hA hz; have [x e] := stages_ex un.
rewrite (stabf_series b p un e) expserE.
have com (a s1 r s2 : K) : a + s1 + r - (a + s2) = (s1 - s2) + r by ring.
rewrite com -sumrB (le_trans (ler_norm_add _ _)) //; apply: ler_add.
  apply: (le_trans (ler_norm_sum _ _ _)); apply: ler_sum => k _.
  by rewrite -mulrBr normrM normrX.
rewrite normrM normrX mulrC ler_wpmul2r ?exprn_ge0 //.
rewrite (le_trans (dot_bound _ sb)) //.
have -> : 2%:R * n%:R * vnorm1 b * mnorm A ^+ p = vnorm1 b * (mnorm A ^+ p * (2%:R * n%:R)).
  by move: (vnorm1 b) (mnorm A ^+ p) => c d; ring.
rewrite ler_wpmul2l ?vnorm1_ge0 //.
rewrite (le_trans (nrm1_iter _ _ hA)) // ler_wpmul2l ?exprn_ge0 ?mnorm_ge0 //.
rewrite -(nrm1_const n); apply: (small_bound hA hz); exact: stages_eq.
Qed.
End Remainder.
