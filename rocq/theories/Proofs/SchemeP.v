(* Facts about the registered schemes, from the computations of ButcherP. *)
From Coq Require Import ZArith QArith Qcanon List.
From Verif.Base Require Import Str.
From mathcomp Require Import all_ssreflect all_algebra ring.
From Verif.Base Require Import QcField QcEmb Arr.
From Verif.Model Require Import QGen Butcher.
From Verif.Spec Require Import QCoeffSpec ButcherSpec.
From Verif.Proofs Require Import OrderP ButcherP.
Set Implicit Arguments.
Unset Strict Implicit.
Unset Printing Implicit Defensive.
Import GRing.Theory Num.Theory Order.TTheory.
Local Open Scope ring_scope.


Section Schemes.
Variables (F : numFieldType) (s : F) (sc : scheme).
Hypothesis insc : List.In sc schemes.
Hypothesis s0 : 0 <= s.
Hypothesis sq : s * s = (s_root sc)%:R.
Let t : table F := scheme_table s sc.
Let e := tolz (s_name sc).

Lemma tol_ok : Z.leb 0 e.1.
Proof. by rewrite /e /tolz; case: ifP => // _; case: ifP. Qed.
Lemma tolE : tol F (s_name sc) = epsv F e. Proof. by []. Qed.

Lemma get_check (chk : scheme -> bool) : List.forallb chk schemes = true -> chk sc.
Proof. by move=> /List.forallb_forall h; apply: h. Qed.

Lemma shape_in : table_check t /\ (forall b2, tb2 t = Some b2 -> size b2 = size (tb t)).
Proof.
have /and5P [/andP [/eqP h1 h2] h3 _ _ _] := get_check all_consistent; split.
  rewrite /table_check /t /= !size_map h1 eqxx /=.
  move/is_shapeP: h2 => [sA hA]; apply/is_shapeP; rewrite size_map sA; split=> // i il.
  by rewrite (nth_map [::]) ?sA // size_map hA.
rewrite /t /=; move: h3; case: (tb2 (s_tab sc)) => //= b2 /eqP e2 b [<-].
by rewrite !size_map.
Qed.

Lemma sum_b : `|vsum (tb t) - 1| <= tol F (s_name sc).
Proof.
have /and5P [_ _ h _ _] := get_check all_consistent.
have := chk_zeroP sq s0 tol_ok h; have /= -> := rmorphB (q2v_rmorphism sq) (vsum (tb (s_tab sc))) 1.
by have /= -> := rmorph1 (q2v_rmorphism sq); have /= <- := map_vsum (q2v_rmorphism sq) (tb (s_tab sc)).
Qed.
Lemma sum_b2 b2 : tb2 t = Some b2 -> `|vsum b2 - 1| <= tol F (s_name sc).
Proof.
have /and5P [_ _ _ h _] := get_check all_consistent.
rewrite /t /=; case: (tb2 (s_tab sc)) h => //= b h [<-].
have := chk_zeroP sq s0 tol_ok h; have /= -> := rmorphB (q2v_rmorphism sq) (vsum b) 1.
by have /= -> := rmorph1 (q2v_rmorphism sq); have /= <- := map_vsum (q2v_rmorphism sq) b.
Qed.
Lemma row_sums i : s_name sc <> "RK53"%string -> (i < size (tc t))%N ->
  `|vsum (nth [::] (tA t) i) - nth 0 (tc t) i| <= tol F (s_name sc).
Proof.
have /and5P [sh _ _ _ /orP [/eqP //|/allP h] _] := get_check all_consistent.
rewrite /t /= size_map => il; have /h : i \in iota 0 (size (tc (s_tab sc))) by rewrite mem_iota.
move=> /(chk_zeroP sq s0 tol_ok).
have /= -> := rmorphB (q2v_rmorphism sq) (vsum (nth [::] (tA (s_tab sc)) i)) (nth 0 (tc (s_tab sc)) i).
have /= <- := map_vsum (q2v_rmorphism sq) (nth [::] (tA (s_tab sc)) i).
have [sA _] := is_shapeP _ _ _ (andP sh).2.
by rewrite (nth_map [::]) ?sA // (nth_map 0).
Qed.

Lemma orders_b : order_cond (tA t) (tb t) (real_order sc) (tol F (s_name sc)).
Proof. have /and3P [h _ _] := get_check all_orders; exact: (chk_orderP sq s0 tol_ok h). Qed.
Lemma orders_b2 b2 : tb2 t = Some b2 ->
  order_cond (tA t) b2 (real_orderE sc) (tol F (s_name sc)).
Proof.
have /and3P [_ _ h] := get_check all_orders; rewrite /t /=; case: (tb2 _) h => //= b h [<-].
exact: (chk_orderP sq s0 tol_ok h).
Qed.
Lemma moments_b k : (k < torder t)%N ->
  `|moment (size (tb t)) (tA t) (tb t) k - (k.+1`!)%:R^-1| <= tol F (s_name sc).
Proof.
move=> kp; have /and3P [_ h _] := get_check all_orders.
have := chk_tallP sq s0 tol_ok h kp; rewrite tdens_tall (@elemw_tall _ (size (tb t))) //.
by case/andP: shape_in.1 => /eqP ->.
Qed.
Lemma sharp_gen (A : seq (seq (q2 (s_root sc)))) b p : chk_sharp A b p ->
  ~ order_cond (map (map (q2v s)) A) (map (q2v s) b) p.+1 (qcr F (qc Z.one 100000)).
Proof.
move=> h ho; have no u : chk_far A b u eps5 -> tsize u = p.+1 -> False.
  move=> hu su; have := ho u; rewrite su leqnn => /(_ isT).
  by move=> /(lt_le_trans (chk_farP sq s0 hu)); rewrite ltxx.
move: h; rewrite /chk_sharp; case: ifP => [/no h _|_ /no h]; apply: h.
  exact: tsize_tall.
exact: tsize_bushy.
Qed.
Lemma sharp_b : ~ order_cond (tA t) (tb t) (real_order sc).+1 (qcr F (qc Z.one 100000)).
Proof. have /andP [h _] := get_check all_sharps; exact: sharp_gen. Qed.
Lemma sharp_b2 b2 : tb2 t = Some b2 ->
  ~ order_cond (tA t) b2 (real_orderE sc).+1 (qcr F (qc Z.one 100000)).
Proof.
have /andP [_ h] := get_check all_sharps; rewrite /t /=; case: (tb2 _) h => //= b h [<-].
exact: sharp_gen.
Qed.
End Schemes.
