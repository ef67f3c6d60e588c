(* Three-term recurrences: degrees, values outside [-1,1], eigenvalues of the Jacobi matrix. *)
From Verif.Base Require Import Str.
From mathcomp Require Import all_ssreflect all_algebra ring.
From Verif.Base Require Import Outcome Arr.
From Verif.Model Require Import Nodes.
From Verif.Spec Require Import NodesSpec.
Set Implicit Arguments.
Unset Strict Implicit.
Unset Printing Implicit Defensive.
Import GRing.Theory Num.Theory Order.TTheory.
Local Open Scope ring_scope.

Section Rec.
Variable F : fieldType.
Implicit Types (a b : nat -> F).

Lemma opS a b k : op a b k.+2 = ('X - (a k.+1)%:P) * op a b k.+1 - (b k.+1)%:P * op a b k.
Proof. by rewrite /op /=; case: (opp a b k) => p q. Qed.
Lemma op1 a b : op a b 1 = 'X - (a 0%N)%:P.
Proof. by rewrite /op /= mulr1 mulr0 subr0. Qed.
Lemma op0 a b : op a b 0 = 1. Proof. by []. Qed.
Lemma opp1 a b k : (opp a b k.+1).1 = op a b k.
Proof. by rewrite /op /=; case: (opp a b k). Qed.

Lemma op_ext a b a' b' k : (forall j, (j < k)%N -> a j = a' j) -> (forall j, (j < k)%N -> b j = b' j) ->
  opp a b k = opp a' b' k.
Proof.
elim: k => //= k ih ha hb; rewrite ih; [|by move=> j h; apply: ha; apply: ltnW..|by move=> j h; apply: hb; apply: ltnW].
by rewrite ha // hb.
Qed.

Lemma size_op a b k : size (op a b k) = k.+1 /\ op a b k \is monic.
Proof.
elim/ltn_ind: k => -[|[|k]] ih; first by rewrite op0 size_poly1 monic1.
  by rewrite op1 size_XsubC monicXsubC.
have [s1 m1] := ih _ (leqnn _); have [s2 m2] := ih _ (ltnW (leqnn _)).
have sA : size (('X - (a k.+1)%:P) * op a b k.+1) = k.+3.
  by rewrite size_monicM ?monicXsubC ?monic_neq0 // s1 size_XsubC.
have sB : (size (- ((b k.+1)%:P * op a b k)) < size (('X - (a k.+1)%:P) * op a b k.+1)%R)%N.
  rewrite sA size_opp mul_polyC; apply: (leq_ltn_trans (size_scale_leq _ _)).
  by rewrite s2 ltnS.
rewrite opS size_addl // sA; split=> //.
by rewrite monicE lead_coefDl // -monicE monicMl ?monicXsubC.
Qed.

Lemma hornerS a b k x : (op a b k.+2).[x] = (x - a k.+1) * (op a b k.+1).[x] - b k.+1 * (op a b k).[x].
Proof. by rewrite opS !hornerE. Qed.

Lemma horner_step a b k x :
  (op a b k.+1).[x] = (x - a k) * (op a b k).[x] - b k * (opp a b k).1.[x].
Proof. by rewrite /op /=; case: (opp a b k) => p q /=; rewrite !hornerE. Qed.

(* reflection *)
Lemma op_refl a b k x :
  (op (fun j => - a j) b k).[x] = (-1) ^+ k * (op a b k).[- x].
Proof.
elim/ltn_ind: k => -[|[|k]] ih; first by rewrite !op0 !hornerE.
  by rewrite !op1 !hornerE expr1; ring.
rewrite !hornerS !ih // !exprS.
by move: (_ ^+ k) (_.[_]) (_.[_]) => u v w; ring.
Qed.

(* eigenvalues *)
Section Eigen.
Variables (n : nat) (a b : nat -> F) (s : nat -> F) (w : seq F).
Hypothesis s_sq : forall k, (k.+1 < n)%N -> s k * s k = b k.+1.
Hypothesis s_neq0 : forall k, (k.+1 < n)%N -> s k != 0.

Let d := mkseq a n.
Let e := mkseq s n.-1.
Fixpoint sprod (k : nat) : F := if k is k'.+1 then sprod k' * s k' else 1.

Let dist3 (x y z t u : F) : (x * y - z * t) * u = x * (y * u) - z * (t * u).
Proof. by ring. Qed.
Lemma sprodS k : sprod k.+1 = sprod k * s k. Proof. by []. Qed.
Lemma sprod_neq0 k : (k < n)%N -> sprod k != 0.
Proof.
elim: k => [|k ih] h /=; first exact: oner_neq0.
by rewrite mulf_neq0 ?s_neq0 // ih // ltnW.
Qed.

Lemma nth_e k : (k.+1 < n)%N -> nth 0 e k = s k.
Proof. by move=> h; rewrite nth_mkseq //; case: n h. Qed.

(* rows of the eigenvalue equation, on functions *)
Definition eigvec (lam : F) (v : nat -> F) : Prop := forall i, (i < n)%N ->
  (if i is i'.+1 then s i' * v i' else 0) + a i * v i + (if (i.+1 < n)%N then s i * v i.+1 else 0) = lam * v i.

Lemma eig_rec lam v k : eigvec lam v -> (k < n)%N ->
  sprod k * v k = (op a b k).[lam] * v 0%N.
Proof.
move=> hv; elim/ltn_ind: k => -[|[|k]] ih kn.
- by rewrite op0 hornerC.
- have := hv 0%N (ltnW kn); rewrite kn add0r => e0.
  rewrite /= mul1r op1 !hornerE mulrBl -e0; by move: (s 0%N * _) => q; ring.
have := hv k.+1 (ltnW kn); rewrite kn => e0.
have i1 := ih k.+1 (leqnn _) (ltnW kn); have i0 := ih k (ltnW (leqnn _)) (ltnW (ltnW kn)).
rewrite hornerS dist3 -i1 -i0 !sprodS -(s_sq (ltnW kn)).
have -> : sprod k * s k * s k.+1 * v k.+2 = sprod k * s k * (s k.+1 * v k.+2) by ring.
have -> : s k.+1 * v k.+2 = lam * v k.+1 - a k.+1 * v k.+1 - s k * v k.
  by rewrite -e0; move: (s k.+1 * _) => q; ring.
by move: (s k) (sprod k) (v k.+1) (v k) (a k.+1) => x1 x2 x3 x4 x5; ring.
Qed.

Lemma eig_root lam v : eigvec lam v -> (0 < n)%N -> (op a b n).[lam] * v 0%N = 0.
Proof.
move=> hv; case en: n => [//|m] _.
have h : (m < n)%N by rewrite en.
have := hv m h; rewrite en ltnn addr0.
have := eig_rec hv h.
case: m en h => [|m] en h.
  by rewrite op1 !hornerE mulrBl => _ ->; rewrite subrr.
have i0 := eig_rec hv (ltnW h).
move=> i1 e0; rewrite hornerS dist3 -i1 -i0 !sprodS -(s_sq h).
have -> : s m * s m * (sprod m * v m) = sprod m * s m * (s m * v m) by ring.
have -> : s m * v m = lam * v m.+1 - a m.+1 * v m.+1.
  by rewrite -e0; move: (s m * _) => q; ring.
by move: (s m) (sprod m) (v m.+1) (a m.+1) => x1 x2 x3 x4; ring.
Qed.

Lemma eig_v0 lam v : eigvec lam v -> (exists2 k, (k < n)%N & v k != 0) -> v 0%N != 0.
Proof.
move=> hv [k kn vk]; apply/eqP => v0; have := eig_rec hv kn; rewrite v0 mulr0 => /eqP.
by rewrite mulf_eq0 (negbTE vk) orbF (negbTE (sprod_neq0 kn)).
Qed.

Lemma eig_prop lam v u k : eigvec lam v -> eigvec lam u -> (k < n)%N ->
  v k * u 0%N = v 0%N * u k.
Proof.
move=> hv hu kn; apply: (mulfI (sprod_neq0 kn)).
rewrite mulrA (eig_rec hv kn) [RHS]mulrCA (eig_rec hu kn); ring.
Qed.

Definition vcol (V : 'M[F]_n) (j : 'I_n) (i : nat) : F := if insub i is Some i' then V i' j else 0.
Lemma vcolE V j (k : 'I_n) : vcol V j (val k) = V k j.
Proof. by rewrite /vcol insubT //= => p; congr (V _ j); apply: val_inj. Qed.
Lemma tri_sum (vv : nat -> F) i (il : (i < n)%N) :
  \sum_k tri_mx n d e (Ordinal il) k * vv (val k) =
  (if i is i'.+1 then s i' * vv i' else 0) + a i * vv i + (if (i.+1 < n)%N then s i * vv i.+1 else 0).
Proof.
rewrite (eq_bigr (fun k : 'I_n => (if i == k then a i else if (k : nat) == i.+1 then s i else
   if i == k.+1 then s k else 0) * vv k)); last first.
  move=> k _; rewrite mxE /=; case: eqP => [_|_]; first by rewrite nth_mkseq.
  case: eqP => [e1|_]; first by rewrite nth_e // -e1.
  by case: eqP => [e1|_] //; rewrite nth_e // -e1.
rewrite -(big_mkord xpredT (fun k => (if i == k then a i else if k == i.+1 then s i else
   if i == k.+1 then s k else 0) * vv k)).
have eq0 p q f : (forall k, (p <= k < q)%N -> f k = 0) -> \sum_(p <= k < q) f k = 0 :> F.
  by move=> h; rewrite big_nat_cond big1 // => k /andP [/h].
have up : \sum_(i.+1 <= k < n) (if i == k then a i else if k == i.+1 then s i else
   if i == k.+1 then s k else 0) * vv k = if (i.+1 < n)%N then s i * vv i.+1 else 0.
  case: ltnP => h; last by rewrite big_geq.
  rewrite big_ltn // ltn_eqF // eqxx eq0 ?addr0 // => k /andP [k1 k2].
  by rewrite ltn_eqF ?(ltn_trans _ k1) // gtn_eqF // ltn_eqF ?mul0r // ltnS (leq_trans _ k1) // -addn2 leq_addr.
rewrite (big_cat_nat _ _ _ (leq0n i) (ltnW il)) /= (big_ltn il) eqxx up addrA.
congr (_ + _ + _).
case: i il {up} => [|i] il; first by rewrite big_geq.
rewrite big_nat_recr //= eqxx gtn_eqF // ltn_eqF // eq0 ?add0r // => k /andP [_ k2].
by rewrite gtn_eqF ?(ltn_trans k2) // ltn_eqF ?(ltn_trans k2) // eqSS gtn_eqF ?mul0r.
Qed.

Lemma tri_eigvec (V : 'M[F]_n) (j : 'I_n) (w' : seq F) :
  tri_mx n d e *m V = V *m diag_mx (rvl n w') ->
  eigvec (nth 0 w' j) (vcol V j).
Proof.
move=> /matrixP hV i il; have := hV (Ordinal il) j.
rewrite mul_mx_diag !mxE -(vcolE V j (Ordinal il)) [vcol _ _ _ * _]mulrC => <-.
by rewrite -tri_sum; apply: eq_bigr => k _; rewrite vcolE.
Qed.

Lemma eigP : eig_ok d e w -> (0 < n)%N ->
  size w = n /\ uniq w /\ (forall x, x \in w -> root (op a b n) x).
Proof.
rewrite /eig_ok; have sd : size d = n by rewrite size_mkseq.
rewrite sd => -[sw [V [un eq]]] n0; pose v := vcol V.
have hv (j : 'I_n) : eigvec (nth 0 w j) (v j) by exact: tri_eigvec.
have vE j (k : 'I_n) : v j (val k) = V k j by exact: vcolE.
have inj (u : 'cV[F]_n) : V *m u = 0 -> u = 0.
  by move=> h; rewrite -(mulKmx un u) h mulmx0.
have nz j : v j 0%N != 0.
  apply: (eig_v0 (hv j)).
  case: (pickP (fun k : 'I_n => v j k != 0)) => [k vk|no]; first by exists k.
  have : (delta_mx j 0 : 'cV[F]_n) = 0.
    apply: inj; apply/matrixP => k l; rewrite -colE !mxE.
    by have /negbT := no k; rewrite negbK vE => /eqP ->.
  by move/matrixP/(_ j 0)/eqP; rewrite !mxE !eqxx oner_eq0.
split=> //; split.
  apply/(uniqP 0) => i j; rewrite !inE sw => il jl eij.
  have hi := hv (Ordinal il); have hj := hv (Ordinal jl); rewrite /= eij in hi.
  have pr (k : 'I_n) : V k (Ordinal il) * v (Ordinal jl) 0%N = v (Ordinal il) 0%N * V k (Ordinal jl).
    by rewrite -(vE (Ordinal il) k) -(vE (Ordinal jl) k); exact: (eig_prop hi hj (ltn_ord k)).
  case: (altP (Ordinal il =P Ordinal jl)) => [[] //|ne].
  have : v (Ordinal jl) 0%N *: delta_mx (Ordinal il) 0 - v (Ordinal il) 0%N *: delta_mx (Ordinal jl) 0
       = 0 :> 'cV[F]_n.
    apply: inj; rewrite mulmxBr -!scalemxAr -!colE; apply/matrixP => k l; rewrite !mxE.
    by rewrite mulrC pr subrr.
  move/matrixP/(_ (Ordinal il) 0)/eqP; rewrite !mxE !eqxx (negbTE ne) mulr1 mulr0 subr0.
  by rewrite (negbTE (nz _)).
move=> x /(nthP 0) [j]; rewrite sw => jl <-.
have /eqP := eig_root (hv (Ordinal jl)) n0.
by rewrite mulf_eq0 (negbTE (nz _)) orbF.
Qed.

(* conversely every root is an eigenvalue *)
Lemma root_vec lam : root (op a b n) lam -> eigvec lam (fun k => (op a b k).[lam] / sprod k).
Proof.
move=> rt i il.
have pS k : (k.+1 < n)%N -> sprod k != 0 /\ s k != 0.
  by move=> kn; rewrite sprod_neq0 ?s_neq0 // ltnW.
have hS k : (k.+1 < n)%N -> s k * ((op a b k.+1).[lam] / sprod k.+1) = (op a b k.+1).[lam] / sprod k.
  by move=> kn; have [h1 h2] := pS k kn; rewrite sprodS; field; rewrite h1 h2.
have rS : (if (i.+1 < n)%N then s i * ((op a b i.+1).[lam] / sprod i.+1) else 0) = (op a b i.+1).[lam] / sprod i.
  case: ltnP => h; first exact: hS.
  have -> : i.+1 = n by apply/eqP; rewrite eqn_leq h il.
  by rewrite (rootP rt) mul0r.
rewrite rS; case: i il {rS} => [|i] il.
  by rewrite op0 op1 hornerXsubC hornerC /= invr1 !mulr1; ring.
have [h1 h2] := pS i il; rewrite hornerS -(s_sq il) sprodS.
by move: (op a b i.+1).[lam] (op a b i).[lam] (s i) (sprod i) (a i.+1) h1 h2 => x y z t u h1 h2; field; rewrite h1 h2.
Qed.

Lemma root_eig lam : (0 < n)%N -> root (op a b n) lam -> eigenvalue (tri_mx n d e) lam.
Proof.
move=> n0 rt; pose v k := (op a b k).[lam] / sprod k; have hv : eigvec lam v := root_vec rt.
apply/eigenvalueP; exists (\row_k v (val k)).
  apply/rowP => j; rewrite !mxE.
  have := hv j (ltn_ord j); rewrite -tri_sum => <-; apply: eq_bigr => k _; rewrite !mxE mulrC; congr (_ * _).
  have -> : Ordinal (ltn_ord j) = j by apply: val_inj.
  rewrite /= eq_sym; case: eqP => [-> //|ne].
  case: (eqVneq (j : nat) k.+1) => [ejk|_].
    by rewrite ltn_eqF // ejk ltnS leqnSn.
  by [].
apply/eqP => /rowP /(_ (Ordinal n0)); rewrite !mxE /v /= op0 hornerC invr1 mulr1 => /eqP.
by rewrite oner_eq0.
Qed.

Lemma op_free m (c : nat -> F) : \sum_(i < m) c i *: op a b i = 0 -> forall i, (i < m)%N -> c i = 0.
Proof.
elim: m => [//|m ih]; rewrite big_ord_recr /= => h.
have cm : c m = 0.
  have := congr1 (fun p : {poly F} => p`_m) h; rewrite coefD coefZ coef0.
  have [sm mm] := size_op a b m; move: mm; rewrite monicE lead_coefE sm /= => /eqP ->; rewrite mulr1.
  rewrite nth_default ?add0r //; apply: (leq_trans (size_sum _ _ _)); apply/bigmax_leqP => i _.
  by apply: leq_trans (size_scale_leq _ _) _; have [-> _] := size_op a b i.
move=> i; rewrite ltnS leq_eqVlt => /orP [/eqP -> //|]; apply: ih.
by move: h; rewrite cm scale0r addr0.
Qed.

Lemma roots_eig_ok : size w = n -> uniq w -> all (root (op a b n)) w -> eig_ok d e w.
Proof.
move=> sw uw rw; rewrite /eig_ok size_mkseq; split=> //.
pose V : 'M[F]_n := \matrix_(i, j) ((op a b i).[nth 0 w j] / sprod i).
exists V; split.
  rewrite -row_free_unit -kermx_eq0; apply/rowV0P => u /sub_kermxP /rowP h.
  pose c i := oapp (u 0) 0 (insub i) / sprod i.
  have cE (i : 'I_n) : c i = u 0 i / sprod i by rewrite /c valK.
  have sz : (size (\sum_(i < n) c i *: op a b i)%R <= n)%N.
    apply: leq_trans (size_sum _ _ _) _; apply/bigmax_leqP => i _.
    by apply: leq_trans (size_scale_leq _ _) _; have [-> _] := size_op a b i.
  have z : \sum_(i < n) c i *: op a b i = 0.
    apply: (@roots_geq_poly_eq0 _ _ w) => //; last by rewrite sw.
    apply/(all_nthP 0) => j; rewrite sw => jn; apply/rootP; rewrite horner_sum.
    have := h (Ordinal jn); rewrite !mxE => e0; rewrite -[RHS]e0; apply: eq_bigr => i _.
    by rewrite hornerZ cE mxE mulrAC mulrA.
  apply/rowP => i; rewrite mxE; have := op_free z (ltn_ord i).
  by rewrite cE => /eqP; rewrite mulf_eq0 invr_eq0 (negPf (sprod_neq0 (ltn_ord i))) orbF => /eqP.
apply/matrixP => i j; rewrite mxE mul_mx_diag mxE.
have rj : root (op a b n) (nth 0 w j) by apply: (allP rw); rewrite mem_nth ?sw.
have := root_vec rj (ltn_ord i); rewrite -tri_sum.
have -> : Ordinal (ltn_ord i) = i by apply: val_inj.
rewrite !mxE mulrC => e0; rewrite -[RHS]e0; apply: eq_bigr => k _; by rewrite [V k j]mxE.
Qed.
End Eigen.
End Rec.

Section Order.
Variable F : realFieldType.
Implicit Types (a b : nat -> F).

(* ratio of consecutive values increases beyond 1 *)
Lemma ratio_mono a b n x : (forall k, (0 < k < n)%N -> 0 < b k) ->
  (forall k, (k < n)%N -> 0 < (op a b k).[1]) -> 1 <= x ->
  forall k, (k < n)%N -> 0 < (op a b k).[x] /\
    (op a b k.+1).[1] / (op a b k).[1] + (x - 1) <= (op a b k.+1).[x] / (op a b k).[x].
Proof.
move=> hb h1 hx; elim=> [|k ih] kn.
  rewrite !op0 op1 !hornerXsubC !hornerC; split; first exact: ltr01.
  have -> : (1 - a 0%N) / 1 + (x - 1) = (x - a 0%N) / 1 by field.
  exact: lexx.
have [p0 le0] := ih (ltnW kn); have q0 := h1 k (ltnW kn); have q1 := h1 k.+1 kn.
have p1 : 0 < (op a b k.+1).[x].
  have : 0 < (op a b k.+1).[x] / (op a b k).[x].
    by apply: lt_le_trans le0; apply: ltr_paddr; rewrite ?subr_ge0 // divr_gt0.
  by rewrite pmulr_lgt0 // invr_gt0.
split=> //; rewrite !hornerS.
have bp : 0 < b k.+1 by apply: hb.
move: (b k.+1) (a k.+1) (op a b k.+1).[x] (op a b k).[x] (op a b k).[1] (op a b k.+1).[1] le0 p0 q0 q1 p1 bp.
move=> B A P1 P0 Q0 Q1 le0 p0 q0 q1 p1 bp.
have -> : ((1 - A) * Q1 - B * Q0) / Q1 = 1 - A - B * (Q1 / Q0)^-1.
  by field; rewrite ?gt_eqF.
have -> : ((x - A) * P1 - B * P0) / P1 = x - A - B * (P1 / P0)^-1.
  by field; rewrite ?gt_eqF.
have : B * (P1 / P0)^-1 <= B * (Q1 / Q0)^-1.
  rewrite ler_pmul2l // lef_pinv ?posrE ?divr_gt0 //; apply: le_trans le0.
  by rewrite ler_addl subr_ge0.
rewrite -subr_ge0 => h; rewrite -subr_ge0; apply: le_trans h _.
have -> : x - A - B * (P1 / P0)^-1 - (1 - A - B * (Q1 / Q0)^-1 + (x - 1)) = B * (Q1 / Q0)^-1 - B * (P1 / P0)^-1 by ring.
exact: lexx.
Qed.
End Order.
