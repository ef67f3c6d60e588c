(* Padding of Butcher tables leaves the stability function unchanged. *)
From Verif.Base Require Import Str.
From mathcomp Require Import all_ssreflect all_algebra ring.
From Verif.Base Require Import Outcome Arr Ext LinSolve.
From Verif.Model Require Import QGen.
From Verif.Spec Require Import QCoeffSpec.
From Verif.Proofs Require Import StabP.
Set Implicit Arguments.
Unset Strict Implicit.
Unset Printing Implicit Defensive.
Import GRing.Theory Num.Theory Order.TTheory.
Local Open Scope ring_scope.

Section Pad.
Variable K : fieldType.
Implicit Types (r : rk K).

Definition rk_wf n r : Prop := [/\ size (rc r) = n, size (rb r) = n & is_shape (rA r) n n].

Lemma pad_left_wf n r : rk_wf n r -> rk_wf n.+1 (pad_left r).
Proof. by case=> sc sb sA; split; rewrite /= ?sc ?sb //; apply: mkmat_shape. Qed.

Lemma pad_right_wf n r : rk_wf n r -> rk_wf n.+1 (pad_right r).
Proof.
case=> sc sb sA; split; rewrite /= ?size_rcons ?sc ?sb //; exact: mkmat_shape.
Qed.

Lemma const_col n m : const_mx 1 = col_mx (const_mx 1) (const_mx 1) :> 'cV[K]_(n + m).
Proof. by rewrite col_mx_const. Qed.

Lemma det1 (x : K) : \det (x%:M : 'M_1) = x.
Proof. by rewrite det_scalar1. Qed.

(* left *)
Lemma mxl_left n r : rk_wf n r ->
  mxl (1 + n) (1 + n) (rA (pad_left r)) = block_mx 0 0 0 (mxl n n (rA r)).
Proof.
case=> sc sb sA; apply/matrixP => i j; rewrite mxE ent_mkmat /= ?sc;
  [|exact: (ltn_ord i)|exact: (ltn_ord j)].
case: (splitP i) => i' ei; case: (splitP j) => j' ej.
- have -> : i = lshift n i' by apply: val_inj.
  have -> : j = lshift n j' by apply: val_inj.
  by rewrite block_mxEul mxE /= ord1.
- have -> : i = lshift n i' by apply: val_inj.
  have -> : j = rshift 1 j' by apply: val_inj.
  by rewrite block_mxEur mxE /= ord1.
- have -> : i = rshift 1 i' by apply: val_inj.
  have -> : j = lshift n j' by apply: val_inj.
  by rewrite block_mxEdl mxE /= (ord1 j').
- have -> : i = rshift 1 i' by apply: val_inj.
  have -> : j = rshift 1 j' by apply: val_inj.
  by rewrite block_mxEdr mxE.
Qed.

Lemma rvl_left n r : rk_wf n r -> rvl (1 + n) (rb (pad_left r)) = row_mx 0 (rvl n (rb r)).
Proof.
case=> sc sb sA; apply/rowP => j; rewrite mxE.
case: (splitP j) => j' ej.
  have -> : j = lshift n j' by apply: val_inj.
  by rewrite row_mxEl mxE /= ord1.
have -> : j = rshift 1 j' by apply: val_inj.
by rewrite row_mxEr mxE.
Qed.

Lemma stage_left n r z : rk_wf n r ->
  stagemx (1 + n) (rA (pad_left r)) z = block_mx 1%:M 0 0 (stagemx n (rA r) z).
Proof.
move=> w; rewrite /stagemx (mxl_left w) scale_block_mx !scaler0.
by rewrite (scalar_mx_block _ _ 1) opp_block_mx add_block_mx !oppr0 !addr0.
Qed.

Lemma unit_left n r z : rk_wf n r ->
  (stagemx n.+1 (rA (pad_left r)) z \in unitmx) = (stagemx n (rA r) z \in unitmx).
Proof.
move=> w; rewrite !unitmxE -[n.+1]/(1 + n)%N (stage_left z w).
by rewrite det_lblock det1 mul1r.
Qed.

Lemma stabf_left n r z : rk_wf n r -> stagemx n (rA r) z \in unitmx ->
  stabf n.+1 (rA (pad_left r)) (rb (pad_left r)) z = stabf n (rA r) (rb r) z.
Proof.
move=> w un; have [x e] := stages_ex un.
have un' : stagemx (1 + n) (rA (pad_left r)) z \in unitmx by rewrite unit_left.
have e' : stagemx (1 + n) (rA (pad_left r)) z *m col_mx 1%:M x = const_mx 1.
  rewrite (stage_left z w) mul_block_col !mul0mx addr0 add0r mulmx1 e const_col.
  by congr col_mx; apply/matrixP => i j; rewrite !ord1 !mxE.
rewrite (stabf_stages _ un e) (stabf_stages _ un' e') (rvl_left w).
by rewrite mul_row_col mul0mx add0r.
Qed.

(* right *)
Lemma mxl_right n r : rk_wf n r ->
  mxl (n + 1) (n + 1) (rA (pad_right r)) = block_mx (mxl n n (rA r)) 0 (rvl n (rb r)) 0.
Proof.
case=> sc sb sA; apply/matrixP => i j; rewrite mxE ent_mkmat ?size_rcons ?sc -?[n.+1]addn1 ?ltn_ord //.
have -> : (n + 1).-1 = n by rewrite addn1.
case: (splitP i) => i' ei; case: (splitP j) => j' ej.
- have -> : i = lshift 1 i' by apply: val_inj.
  have -> : j = lshift 1 j' by apply: val_inj.
  by rewrite block_mxEul mxE /= !(ltn_eqF (ltn_ord _)).
- have -> : i = lshift 1 i' by apply: val_inj.
  have -> : j = rshift n j' by apply: val_inj.
  by rewrite block_mxEur mxE /= (ltn_eqF (ltn_ord _)) (ord1 j') addn0 eqxx.
- have -> : i = rshift n i' by apply: val_inj.
  have -> : j = lshift 1 j' by apply: val_inj.
  by rewrite block_mxEdl mxE /= (ord1 i') addn0 eqxx nth_rcons sb ltn_ord.
- have -> : i = rshift n i' by apply: val_inj.
  have -> : j = rshift n j' by apply: val_inj.
  by rewrite block_mxEdr mxE /= (ord1 i') (ord1 j') addn0 eqxx nth_rcons sb ltnn eqxx.
Qed.

Lemma rvl_right n r : rk_wf n r -> rvl (n + 1) (rb (pad_right r)) = row_mx (rvl n (rb r)) 0.
Proof.
case=> sc sb sA; apply/rowP => j; rewrite mxE /=.
case: (splitP j) => j' ej.
  have -> : j = lshift 1 j' by apply: val_inj.
  by rewrite row_mxEl mxE /= nth_rcons sb ltn_ord.
have -> : j = rshift n j' by apply: val_inj.
by rewrite row_mxEr mxE /= (ord1 j') addn0 nth_rcons sb ltnn eqxx.
Qed.

Lemma stage_right n r z : rk_wf n r ->
  stagemx (n + 1) (rA (pad_right r)) z =
  block_mx (stagemx n (rA r) z) 0 (- z *: rvl n (rb r)) 1%:M.
Proof.
move=> w; rewrite /stagemx (mxl_right w) scale_block_mx !scaler0.
by rewrite (scalar_mx_block _ _ 1) opp_block_mx add_block_mx !oppr0 !addr0 add0r scaleNr.
Qed.

Lemma unit_right n r z : rk_wf n r ->
  (stagemx n.+1 (rA (pad_right r)) z \in unitmx) = (stagemx n (rA r) z \in unitmx).
Proof.
move=> w; rewrite -[n.+1]addn1 !unitmxE (stage_right z w) det_lblock det1 mulr1 //.
Qed.

Lemma stabf_right n r z : rk_wf n r -> stagemx n (rA r) z \in unitmx ->
  stabf n.+1 (rA (pad_right r)) (rb (pad_right r)) z = stabf n (rA r) (rb r) z.
Proof.
move=> w un; have [x e] := stages_ex un; rewrite -[n.+1]addn1.
have un' : stagemx (n + 1) (rA (pad_right r)) z \in unitmx by rewrite addn1 unit_right.
have e' : stagemx (n + 1) (rA (pad_right r)) z *m
    col_mx x (const_mx 1 + z *: (rvl n (rb r) *m x)) = const_mx 1.
  rewrite (stage_right z w) mul_block_col mul0mx addr0 mul1mx e const_col.
  by rewrite -scalemxAl scaleNr addrCA addNr addr0.
rewrite (stabf_stages _ un e) (stabf_stages _ un' e') (rvl_right w).
by rewrite mul_row_col mul0mx addr0.
Qed.

(* all paddings *)
Definition same_method n r m r' : Prop := rk_wf n r -> rk_wf m r' /\ forall z,
  (stagemx m (rA r') z \in unitmx) = (stagemx n (rA r) z \in unitmx) /\
  (stagemx n (rA r) z \in unitmx -> stabf m (rA r') (rb r') z = stabf n (rA r) (rb r) z).

Lemma same_left n r : same_method n r n.+1 (pad_left r).
Proof.
move=> w; split; first exact: pad_left_wf.
by move=> z; split; [exact: unit_left|exact: stabf_left].
Qed.
Lemma same_right n r : same_method n r n.+1 (pad_right r).
Proof.
move=> w; split; first exact: pad_right_wf.
by move=> z; split; [exact: unit_right|exact: stabf_right].
Qed.
Lemma same_trans n r m r' k r'' :
  same_method n r m r' -> same_method m r' k r'' -> same_method n r k r''.
Proof.
move=> h1 h2 w; have [w1 e1] := h1 w; have [w2 e2] := h2 w1; split=> // z.
have [a b] := e1 z; have [c d] := e2 z; split; first by rewrite c a.
by move=> un; rewrite d ?a // b.
Qed.

Lemma rk_dahlquist_same n r m r' lam u0 tEnd N : rk_wf n r -> same_method n r m r' ->
  rk_dahlquist r' lam u0 tEnd N false = rk_dahlquist r lam u0 tEnd N false.
Proof.
move=> w h; have [w' e] := h w; case: w w' => sc sb sA [sc' sb' sA'].
rewrite /rk_dahlquist; case: N => [[|N]|[|N]] //.
rewrite (dahlquistE _ _ _ _ _ sA sc sb) (dahlquistE _ _ _ _ _ sA' sc' sb').
have [-> hs] := e (lam * (tEnd / N.+1%:R)).
by case: ifP => // un; rewrite hs.
Qed.

Lemma table_check_wf (t : table K) : table_check t -> rk_wf (size (tc t)) (rk_of t).
Proof. by case/andP => /eqP sb sA; split. Qed.


Lemma pad_leftA n r : rk_wf n r ->
  rA (pad_left r) = nseq n.+1 0 :: [seq 0 :: row | row <- rA r].
Proof.
move=> w; have [_ _ sh] := pad_left_wf w; case: w => sc sb sA; have [zA hA] := is_shapeP _ _ _ sA.
apply: (mat_ext sh).
  apply/is_shapeP; rewrite /= size_map zA; split=> // -[|i] il /=; first by rewrite size_nseq.
  by rewrite (nth_map [::]) ?zA //= hA.
move=> i j il jl; rewrite /= sc ent_mkmat //.
case: i il => [|i] il /=; first by case: j jl => [|j] jl; rewrite /ent //= nth_nseq if_same.
by rewrite /ent /= (nth_map [::]) ?zA //; case: j jl.
Qed.

Lemma pad_rightA n r : rk_wf n r ->
  rA (pad_right r) = rcons [seq rcons row 0 | row <- rA r] (rcons (rb r) 0).
Proof.
move=> w; have [_ _ sh] := pad_right_wf w; case: w => sc sb sA; have [zA hA] := is_shapeP _ _ _ sA.
apply: (mat_ext sh).
  apply/is_shapeP; rewrite size_rcons size_map zA; split=> // i il.
  rewrite nth_rcons size_map zA; case: (ltngtP i n) => [ln|gn|_].
  - by rewrite (nth_map [::]) ?zA // size_rcons hA.
  - by move: il; rewrite ltnS leqNgt gn.
  - by rewrite size_rcons sb.
move=> i j il jl; rewrite /= size_rcons sc ent_mkmat //= /ent [in RHS]nth_rcons size_map zA.
case: (ltngtP i n) => [ln|gn|e].
- rewrite (nth_map [::]) ?zA // nth_rcons hA //.
  case: (ltngtP j n) => [//|gj|//]; by move: jl; rewrite ltnS leqNgt gj.
- by move: il; rewrite ltnS leqNgt gn.
- by [].
Qed.

End Pad.
