(* Lagrange interpolation over a field: cardinal polynomials, barycentric form
   and derivatives at the points.  No qmat content. *)
From mathcomp Require Import all_ssreflect all_algebra ring.
Set Implicit Arguments.
Unset Strict Implicit.
Unset Printing Implicit Defensive.
Import GRing.Theory.
Local Open Scope ring_scope.

Section Interp.
Variable F : fieldType.
Variable n : nat.
Variable x : 'I_n -> F.
Hypothesis xinj : injective x.

(* barycentric weight, node polynomial, cardinal polynomials *)
Definition bw (j : 'I_n) : F := (\prod_(k < n | k != j) (x j - x k))^-1.
Definition nodp : {poly F} := \prod_(k < n) ('X - (x k)%:P).
Definition lag (j : 'I_n) : {poly F} :=
  bw j *: \prod_(k < n | k != j) ('X - (x k)%:P).

Lemma bw_neq0 j : bw j != 0.
Proof.
rewrite /bw invr_neq0 //; apply/prodf_neq0 => k kj.
by rewrite subr_eq0; apply: contra kj => /eqP /xinj ->.
Qed.

Lemma size_lag j : (size (lag j) <= n)%N.
Proof.
rewrite /lag (leq_trans (size_scale_leq _ _)) //.
rewrite -big_filter size_prod_XsubC size_filter -sum1_count sum1_card cardC1 card_ord.
by case: (n) j => [[]|].
Qed.

Lemma lag_node i j : (lag j).[x i] = (i == j)%:R.
Proof.
rewrite hornerZ horner_prod; case: eqP => [->|/eqP ij].
  rewrite /bw -[X in _ * X](_ : \prod_(k < n | k != j) (x j - x k) = _).
    by rewrite mulVf // -invr_eq0; apply: bw_neq0.
  by apply: eq_bigr => k _; rewrite hornerXsubC.
by rewrite (bigD1 i) //= hornerXsubC subrr mul0r mulr0.
Qed.

(* uniqueness of the interpolant *)
Lemma poly_eq_nodes (p q : {poly F}) : (size p <= n)%N -> (size q <= n)%N ->
  (forall i, p.[x i] = q.[x i]) -> p = q.
Proof.
move=> sp sq pq; apply/eqP; rewrite -subr_eq0.
apply: contraT => nz.
have := @max_poly_roots _ (p - q) [seq x i | i <- enum 'I_n] nz.
rewrite size_map size_enum_ord map_inj_uniq ?enum_uniq // => /(_ _ isT).
have -> : all (root (p - q)) [seq x i | i <- enum 'I_n].
  apply/allP => y /mapP [i _ ->]; rewrite /root hornerD hornerN pq subrr //.
move/(_ isT); rewrite ltnNge => /negP []; apply: leq_trans (size_add _ _) _.
by rewrite size_opp geq_max sp sq.
Qed.

Lemma interpE (p : {poly F}) : (size p <= n)%N -> p = \sum_j p.[x j] *: lag j.
Proof.
move=> sp; apply: poly_eq_nodes => //.
  apply: leq_trans (size_sum _ _ _) _; apply/bigmax_leqP => j _.
  by apply: leq_trans (size_scale_leq _ _) (size_lag j).
move=> i; rewrite horner_sum (bigD1 i) //= hornerZ lag_node eqxx mulr1.
rewrite big1 ?addr0 // => j ji; rewrite hornerZ lag_node.
by rewrite eq_sym (negPf ji) mulr0.
Qed.

Lemma nodp_lag j : bw j *: nodp = ('X - (x j)%:P) * lag j.
Proof. by rewrite /nodp (bigD1 j) //= /lag -scalerAr. Qed.

Lemma nodpE t : nodp.[t] = \prod_(k < n) (t - x k).
Proof. by rewrite horner_prod; apply: eq_bigr => k _; rewrite hornerXsubC. Qed.

Lemma lag_off j t : t - x j != 0 -> (lag j).[t] = bw j / (t - x j) * nodp.[t].
Proof.
move=> tx; have := congr1 (fun q : {poly F} => q.[t]) (nodp_lag j).
rewrite hornerZ hornerM hornerXsubC => e.
by apply: (mulfI tx); rewrite -e; field.
Qed.

Lemma bary (p : {poly F}) t : (size p <= n)%N -> (forall k, t != x k) ->
  \sum_j bw j / (t - x j) * p.[x j] = p.[t] / nodp.[t].
Proof.
move=> sp tx; have nz k : t - x k != 0 by rewrite subr_eq0.
have Lnz : nodp.[t] != 0 by rewrite nodpE; apply/prodf_neq0.
apply: (mulIf Lnz); rewrite divfK // mulr_suml.
rewrite [in RHS](interpE sp) horner_sum; apply: eq_bigr => j _.
by rewrite hornerZ lag_off //; ring.
Qed.

Lemma lag_sum1 : (0 < n)%N -> \sum_j lag j = 1.
Proof.
move=> n0; rewrite [RHS](@interpE 1); last by rewrite size_poly1.
by apply: eq_bigr => j _; rewrite -[X in X.[_]]polyC1 hornerC scale1r.
Qed.

(* derivative entries *)
Definition dB (i j : 'I_n) : F :=
  if i == j then 0 else bw j / bw i / (x i - x j).

Lemma dnodp i : bw i * nodp^`().[x i] = 1.
Proof.
have := congr1 (fun q : {poly F} => q^`().[x i]) (nodp_lag i).
rewrite derivZ hornerZ derivM derivXsubC mul1r hornerD hornerM hornerXsubC.
by rewrite subrr mul0r addr0 lag_node eqxx.
Qed.

Lemma xsub_neq0 i j : i != j -> x i - x j != 0.
Proof. by move=> ij; rewrite subr_eq0; apply: contra ij => /eqP /xinj ->. Qed.

Lemma dlag_off i j : i != j -> (lag j)^`().[x i] = bw j / bw i / (x i - x j).
Proof.
move=> ij; have := congr1 (fun q : {poly F} => q^`().[x i]) (nodp_lag j).
rewrite derivZ hornerZ derivM derivXsubC mul1r hornerD hornerM hornerXsubC.
rewrite lag_node (negPf ij) add0r => e.
have h := xsub_neq0 ij; have b := bw_neq0 i.
have L1 : nodp^`().[x i] = (bw i)^-1 by apply: (mulfI b); rewrite dnodp mulfV.
by apply: (mulfI h); rewrite -e L1; field; rewrite h b.
Qed.

Lemma sum_dlag i : \sum_j (lag j)^`().[x i] = 0.
Proof.
have n0 : (0 < n)%N by case: (n) i => [[]|].
rewrite -horner_sum -raddf_sum /= lag_sum1 //.
by rewrite -polyC1 derivC hornerC.
Qed.

Lemma dlag_diag i : (lag i)^`().[x i] = - \sum_j dB i j.
Proof.
have := sum_dlag i; rewrite (bigD1 i) //= => /eqP; rewrite addr_eq0 => /eqP ->.
congr (- _); rewrite [RHS](bigD1 i) //= /dB eqxx add0r.
by apply: eq_bigr => j ji; rewrite eq_sym (negPf ji) dlag_off // eq_sym.
Qed.

Lemma d2lag_off i j : i != j ->
  (lag j)^`()^`().[x i] = - 2%:R * dB i j * ((x i - x j)^-1 + \sum_k dB i k).
Proof.
move=> ij.
have d2 k : bw k * nodp^`()^`().[x i] =
    2%:R * (lag k)^`().[x i] + (x i - x k) * (lag k)^`()^`().[x i].
  have := congr1 (fun q : {poly F} => q^`()^`().[x i]) (nodp_lag k).
  rewrite (derivZ _ nodp) (derivZ _ nodp^`()) (hornerZ _ nodp^`()^`()) => ->.
  rewrite derivM derivXsubC mul1r derivD derivM derivXsubC mul1r !hornerD hornerM hornerXsubC.
  move: (lag k)^`().[x i] (lag k)^`()^`().[x i] => a b; ring.
have := d2 i; rewrite subrr mul0r addr0 dlag_diag => ei.
have := d2 j; rewrite dlag_off // => ej.
have b := bw_neq0 i; have h := xsub_neq0 ij.
have L2 : nodp^`()^`().[x i] = - 2%:R * (\sum_k dB i k) / bw i.
  by apply: (mulfI b); rewrite ei; field.
rewrite {1}/dB (negPf ij).
apply: (mulfI h).
have -> : (x i - x j) * (lag j)^`()^`().[x i] =
   bw j * nodp^`()^`().[x i] - 2%:R * (bw j / bw i / (x i - x j)).
  by rewrite ej; ring.
by rewrite L2; field; rewrite h b.
Qed.

Lemma sum_d2lag i : \sum_j (lag j)^`()^`().[x i] = 0.
Proof.
have n0 : (0 < n)%N by case: (n) i => [[]|].
rewrite -horner_sum -!raddf_sum /= lag_sum1 //.
by rewrite -polyC1 derivC -polyC0 derivC hornerC.
Qed.

Lemma deriv_interp (p : {poly F}) t : (size p <= n)%N ->
  p^`().[t] = \sum_j (lag j)^`().[t] * p.[x j].
Proof.
move=> sp; rewrite [in LHS](interpE sp) raddf_sum horner_sum.
by apply: eq_bigr => j _; rewrite /= derivZ hornerZ mulrC.
Qed.

Lemma deriv2_interp (p : {poly F}) t : (size p <= n)%N ->
  p^`()^`().[t] = \sum_j (lag j)^`()^`().[t] * p.[x j].
Proof.
move=> sp; rewrite [in LHS](interpE sp) !raddf_sum horner_sum.
by apply: eq_bigr => j _; rewrite /= !derivZ hornerZ mulrC.
Qed.

End Interp.
