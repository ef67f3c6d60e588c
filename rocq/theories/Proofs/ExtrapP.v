(* Polynomial regression on nodes: the normal equations and the extrapolation matrix. *)
From Verif.Base Require Import Str.
From mathcomp Require Import all_ssreflect all_algebra ring zify.
From Verif.Base Require Import Outcome Arr Ext LinSolve.
From Verif.Model Require Import NumUtil.
From Verif.Spec Require Import LagrangeSpec.
Set Implicit Arguments.
Unset Strict Implicit.
Unset Printing Implicit Defensive.
Import GRing.Theory Num.Theory Order.TTheory.
Local Open Scope ring_scope.

Section Extrap.
Variable F : realFieldType.
Implicit Types (nodes times v : seq F) (p q : {poly F}).

Lemma vander_shape nodes N : is_shape (vander nodes N) (size nodes) N.
Proof.
apply/is_shapeP; rewrite size_map; split=> // i il.
by rewrite (nth_map 0) // size_mkseq.
Qed.
Lemma ent_vander nodes N i j : (i < size nodes)%N -> (j < N)%N ->
  ent (vander nodes N) i j = nth 0 nodes i ^+ j.
Proof. by move=> il jl; rewrite /ent (nth_map 0) // nth_mkseq. Qed.

Definition vmx nodes N : 'M[F]_(size nodes, N) := mxl (size nodes) N (vander nodes N).

(* coefficients of a polynomial *)
Definition pcoef N p : 'cV[F]_N := \col_i p`_i.
Definition cpoly N (c : 'cV[F]_N) : {poly F} := \poly_(i < N) (lcv c)`_i.

Lemma size_cpoly N (c : 'cV[F]_N) : (size (cpoly c) <= N)%N.
Proof. exact: size_poly. Qed.
Lemma cpolyK N (c : 'cV[F]_N) : pcoef N (cpoly c) = c.
Proof.
apply/matrixP => i j; rewrite mxE /cpoly coef_poly ltn_ord nth_lcv.
by rewrite ord1.
Qed.
Lemma pcoefK N p : (size p <= N)%N -> cpoly (pcoef N p) = p.
Proof.
move=> sp; apply/polyP => i; rewrite coef_poly; case: ltnP => il.
  by rewrite -[i]/(nat_of_ord (Ordinal il)) nth_lcv mxE.
by rewrite nth_default // (leq_trans sp).
Qed.

Lemma vmx_pvals nodes N p : (size p <= N)%N ->
  vmx nodes N *m pcoef N p = cvl (size nodes) (pvals p nodes).
Proof.
move=> sp; apply/matrixP => i j; rewrite !mxE (nth_map 0) //.
rewrite (horner_coef_wide _ sp); apply: eq_bigr => k _.
by rewrite !mxE ent_vander // mulrC.
Qed.
Lemma vmx_cpoly nodes N (c : 'cV[F]_N) : vmx nodes N *m c = cvl (size nodes) (pvals (cpoly c) nodes).
Proof. by rewrite -(vmx_pvals nodes (size_cpoly c)) cpolyK. Qed.

(* squared euclidean norm *)
Definition sq n (u : 'cV[F]_n) : F := \sum_i u i 0 ^+ 2.
Lemma sqE n (u : 'cV[F]_n) : (u^T *m u) 0 0 = sq u.
Proof. by rewrite !mxE; apply: eq_bigr => i _; rewrite !mxE expr2. Qed.
Lemma sq_ge0 n (u : 'cV[F]_n) : 0 <= sq u.
Proof. by apply: sumr_ge0 => i _; apply: sqr_ge0. Qed.
Lemma sq_eq0 n (u : 'cV[F]_n) : (sq u == 0) = (u == 0).
Proof.
apply/idP/eqP => [|->]; last by rewrite /sq big1 // => i _; rewrite mxE expr0n.
rewrite psumr_eq0 => [/allP h|i _]; last exact: sqr_ge0.
apply/matrixP => i j; rewrite ord1 mxE; apply/eqP; rewrite -sqrf_eq0.
exact: (h i (mem_index_enum _)).
Qed.
Lemma sqD n (u v : 'cV[F]_n) : u^T *m v = 0 -> sq (u + v) = sq u + sq v.
Proof.
move=> uv; have vu : v^T *m u = 0 by rewrite -[LHS]trmxK trmx_mul trmxK uv trmx0.
rewrite -!sqE [(u + v)^T]linearD /= mulmxDl !mulmxDr uv vu addr0 add0r.
by rewrite mxE.
Qed.
Lemma sqN n (u : 'cV[F]_n) : sq (- u) = sq u.
Proof. by apply: eq_bigr => i _; rewrite mxE sqrrN. Qed.

(* no common zero at more distinct nodes than the degree *)
Lemma pvals0 nodes p : (size p <= ndist nodes)%N -> cvl (size nodes) (pvals p nodes) = 0 -> p = 0.
Proof.
move=> sp h; apply/eqP; apply: contraT => nz.
have := @max_poly_roots _ p (undup nodes) nz.
have -> : all (root p) (undup nodes).
  apply/allP => x; rewrite mem_undup => /(nthP 0) [i il <-].
  have /matrixP/(_ (Ordinal il) 0) := h; rewrite !mxE (nth_map 0) //= => e.
  by apply/eqP.
by rewrite undup_uniq => /(_ isT isT); rewrite ltnNge sp.
Qed.

Section Normal.
Variables (nodes : seq F) (N : nat).
Let X := vmx nodes N.

Lemma normal_unit : (X^T *m X \in unitmx) = (N <= ndist nodes)%N.
Proof.
apply/idP/idP => [un|le].
  rewrite leqNgt; apply/negP => lt.
  pose p := \prod_(x <- undup nodes) ('X - x%:P).
  have sp : size p = (ndist nodes).+1 by rewrite size_prod_XsubC.
  have zp : cvl (size nodes) (pvals p nodes) = 0.
    apply/matrixP => i j; rewrite !mxE (nth_map 0) //.
    apply/eqP; rewrite -/(root p _) root_prod_XsubC mem_undup.
    exact: mem_nth.
  have : (X^T *m X) *m pcoef N p = 0.
    by rewrite -mulmxA vmx_pvals ?sp // zp mulmx0.
  move/(congr1 (mulmx (invmx (X^T *m X)))); rewrite mulKmx // mulmx0 => e.
  have : p = 0.
    rewrite -(@pcoefK N p) ?sp // e; apply/polyP => i; rewrite coef_poly coef0.
    by case: ltnP => // il; rewrite -[i]/(nat_of_ord (Ordinal il)) nth_lcv mxE.
  by move=> p0; move: sp; rewrite p0 size_poly0.
apply: unitmx_inj => v hv.
have : sq (X *m v) == 0 by rewrite -sqE trmx_mul -mulmxA (mulmxA X^T) hv mulmx0 mxE.
rewrite sq_eq0 vmx_cpoly => /eqP /(pvals0 (leq_trans (size_cpoly v) le)) e.
by rewrite -(cpolyK v) e; apply/matrixP => i j; rewrite !mxE coef0.
Qed.

Hypothesis le : (N <= ndist nodes)%N.
Let un : X^T *m X \in unitmx. Proof. by rewrite normal_unit. Qed.

(* coefficients of the regression polynomial *)
Definition fitc (v : 'cV[F]_(size nodes)) : 'cV[F]_N := invmx (X^T *m X) *m (X^T *m v).

Lemma fit_orth (v : 'cV[F]_(size nodes)) : X^T *m (v - X *m fitc v) = 0.
Proof. by rewrite mulmxBr /fitc (mulmxA X^T) mulKVmx // subrr. Qed.

Lemma fit_pyth (v : 'cV[F]_(size nodes)) c : sq (v - X *m c) = sq (v - X *m fitc v) + sq (X *m (fitc v - c)).
Proof.
rewrite -sqD; last first.
  by rewrite mulmxA -[_^T *m X]trmxK trmx_mul trmxK fit_orth trmx0 mul0mx.
by rewrite mulmxBr addrA subrK.
Qed.

Lemma fit_exact p : (size p <= N)%N -> fitc (cvl (size nodes) (pvals p nodes)) = pcoef N p.
Proof. by move=> sp; rewrite /fitc -(vmx_pvals nodes sp) mulmxA mulKmx. Qed.

Lemma X_inj (c c' : 'cV[F]_N) : X *m c = X *m c' -> c = c'.
Proof.
move=> e; have := congr1 (fun u => invmx (X^T *m X) *m (X^T *m u)) e.
by rewrite !(mulmxA X^T) !mulKmx.
Qed.
End Normal.

(* the model *)
Lemma solveME n m (A B : seq (seq F)) : is_shape A n n -> is_shape B n m ->
  if mxl n n A \in unitmx
  then exists2 C, solveM n m A B = Some C & is_shape C n m /\ mxl n m C = invmx (mxl n n A) *m mxl n m B
  else solveM n m A B = None.
Proof.
move=> hA hB; rewrite /solveM (solveE hA) ?size_nseq //; case un : (mxl n n A \in unitmx) => //=.
have sB : is_shape (transp m B) m n by apply: transp_shape.
have [s1 s2] := is_shapeP _ _ _ sB.
have pE : pmap (solve A) (transp m B) =
    [seq lcv (invmx (mxl n n A) *m cvl n c) | c <- transp m B].
  have : all (fun c => size c == n) (transp m B) by case/andP: sB.
  elim: (transp m B) => //= c s ih /andP [/eqP sc /ih e].
  by rewrite (solveE hA) // un /= e.
have sh : is_shape (pmap (solve A) (transp m B)) m n.
  rewrite pE; apply/is_shapeP; rewrite size_map s1; split=> // i il.
  by rewrite (nth_map [::]) ?s1 // size_lcv.
eexists; first reflexivity; split; first exact: transp_shape.
rewrite (mxl_transp sh); apply/matrixP => i j; rewrite mxE mxE /ent pE.
rewrite (nth_map [::]) ?s1 // nth_lcv !mxE; apply: eq_bigr => k _; congr (_ * _).
by rewrite !mxE -(ent_transp hB).
Qed.

Lemma extrap_model nodes times N :
  let X := vmx nodes N in
  if (N <= ndist nodes)%N
  then exists2 P, getExtrapolationMatrix nodes times (Some (N%:Z - 1)) = Ok P &
    is_shape P (size times) (size nodes) /\
    mxl (size times) (size nodes) P = vmx times N *m (invmx (X^T *m X) *m X^T)
  else getExtrapolationMatrix nodes times (Some (N%:Z - 1)) = Raise LinAlgError.
Proof.
rewrite /= -normal_unit /getExtrapolationMatrix subrK.
have shX := vander_shape nodes N; have shT := transp_shape shX.
have shN : is_shape (mm N (transp N (vander nodes N)) (vander nodes N)) N N by apply: mm_shape shT.
have e1 : mxl N N (mm N (transp N (vander nodes N)) (vander nodes N)) = (vmx nodes N)^T *m vmx nodes N.
  by rewrite (mxl_mm shT shX) (mxl_transp shX).
have := solveME shN shT; rewrite e1; case: ifP => _; last by move=> ->.
case=> C -> [shC eC]; eexists; first reflexivity; split.
  exact: mm_shape (vander_shape times N).
by rewrite (mxl_mm (vander_shape times N) shC) eC (mxl_transp shX).
Qed.

Lemma extrap_mv nodes times N P v : (N <= ndist nodes)%N -> size v = size nodes ->
  getExtrapolationMatrix nodes times (Some (N%:Z - 1)) = Ok P ->
  mv P v = pvals (cpoly (fitc N (cvl (size nodes) v))) times.
Proof.
move=> le sv e; have := extrap_model nodes times N; rewrite le => -[P'].
rewrite e => -[<-] [sh eP].
have [sP _] := is_shapeP _ _ _ sh.
apply: (@cvl_inj _ (size times)); rewrite ?size_mv ?size_map //.
rewrite (cvl_mv sh) // eP -vmx_cpoly /fitc -!mulmxA.
by [].
Qed.
End Extrap.
