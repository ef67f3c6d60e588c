(* Nilpotency of the diagonal sweeps. *)
From Verif.Base Require Import Str.
From mathcomp Require Import all_ssreflect all_algebra ring zify.
From Verif.Base Require Import Outcome Arr Ext PolyInterp PolyInt.
From Verif.Spec Require Import LagrangeSpec SweepSpec.
Set Implicit Arguments.
Unset Strict Implicit.
Unset Printing Implicit Defensive.
Import GRing.Theory Num.Theory Order.TTheory.
Local Open Scope ring_scope.

Section Pow.
Variable R : ringType.
Lemma mpowSr n (N : 'M[R]_n) k : mpow N k.+1 = mpow N k *m N.
Proof.
elim: k => [|k ih]; first by rewrite /mpow /= mulmx1 mul1mx.
by rewrite -[LHS]/(N *m mpow N k.+1) {1}ih mulmxA.
Qed.
End Pow.

Section Core.
Variable F : realFieldType.
Variables (n : nat) (x : 'I_n -> F).
Hypothesis xinj : injective x.
Definition pv (p : {poly F}) : 'cV[F]_n := \col_i p.[x i].

Lemma pvD p q : pv (p + q) = pv p + pv q.
Proof. by apply/colP => i; rewrite !mxE hornerD. Qed.
Lemma pvZ a p : pv (a *: p) = a *: pv p.
Proof. by apply/colP => i; rewrite !mxE hornerZ. Qed.
Lemma pv_sum m (f : 'I_m -> {poly F}) : pv (\sum_i f i) = \sum_i pv (f i).
Proof. by apply/colP => i; rewrite mxE horner_sum summxE; apply: eq_bigr => j _; rewrite mxE. Qed.

(* a matrix vanishing on the values of X^e, ..., X^(e+n-1) vanishes *)
Lemma mx_ext e (A : 'M[F]_n) : (e = 0%N \/ forall i, x i != 0) ->
  (forall k, (k < n)%N -> A *m pv 'X^(k + e) = 0) -> A = 0.
Proof.
move=> he h; have gen (p : {poly F}) : (size p <= n)%N -> A *m pv (p * 'X^e) = 0.
  move=> sp; rewrite -{1}[p]coefK poly_def.
  rewrite mulr_suml pv_sum mulmx_sumr big1 // => i _.
  rewrite -scalerAl -exprD pvZ -scalemxAr h ?scaler0 //; exact: leq_trans (ltn_ord i) sp.
apply/matrixP => i j; have := gen ((x j ^+ e)^-1 *: lag x j); rewrite mxE.
have -> : pv ((x j ^+ e)^-1 *: lag x j * 'X^e) = delta_mx j 0.
  apply/colP => k; rewrite !mxE hornerM hornerZ (lag_node xinj) hornerXn andbT.
  case: eqP => [->|_]; last by rewrite mulr0 mul0r.
  rewrite mulr1 mulVf //; case: he => [->|hx]; first by rewrite oner_eq0.
  by rewrite expf_neq0.
rewrite -colE (leq_trans (size_scale_leq _ _)) ?size_lag // => /(_ isT) /colP /(_ i).
by rewrite !mxE.
Qed.

(* C40: N raises the degree by one and annihilates the last power *)
Lemma raise_nil (N : 'M[F]_n) (c : nat -> F) : c n = 0 ->
  (forall k, (k < n)%N -> N *m pv 'X^k = c k.+1 *: pv 'X^k.+1) -> mpow N n = 0.
Proof.
move=> cn h; have gen m k : (k < n)%N -> (n <= k + m)%N -> mpow N m *m pv 'X^k = 0.
  elim: m k => [|m ih] k kn nk; first by rewrite addn0 leqNgt kn in nk.
  rewrite mpowSr -mulmxA h // -scalemxAr; case: (ltngtP k.+1 n) => [k1|k1|k1].
  - by rewrite ih ?scaler0 // addSnnS.
  - by rewrite ltnNge kn in k1.
  by rewrite k1 cn scale0r.
apply: (@mx_ext 0%N) => [|k kn]; first by left.
by rewrite addn0 gen // leq_addl.
Qed.

(* C41: common eigenvectors *)
Lemma flex_nil e (Q : 'M[F]_n) (D : nat -> 'M[F]_n) (s : seq nat) : (forall i, x i != 0) ->
  (forall k, (k < n)%N -> Q *m pv 'X^(k + e) = (k + e).+1%:R^-1 *: pv 'X^(k + e).+1) ->
  (forall k, k \in s -> D k \in unitmx /\ forall j, D k *m pv 'X^j = k%:R^-1 *: pv 'X^j.+1) ->
  0%N \notin s -> (forall k, (k < n)%N -> (k + e).+1 \in s) ->
  foldr (fun k A => (1%:M - invmx (D k) *m Q) *m A) 1%:M s = 0.
Proof.
move=> hx hQ hD s0 hs; apply: (@mx_ext e) => [|k kn]; first by right.
have eig j : j \in s -> (1%:M - invmx (D j) *m Q) *m pv 'X^(k + e) = (1 - j%:R / (k + e).+1%:R) *: pv 'X^(k + e).
  move=> js; have [uD DE] := hD j js; have j0 : j%:R != 0 :> F.
    by rewrite pnatr_eq0; apply: contraNneq s0 => <-.
  rewrite mulmxBl mul1mx -mulmxA hQ // -scalemxAr scalerBl scale1r; congr (_ - _).
  have -> : pv 'X^(k + e).+1 = D j *m (j%:R *: pv 'X^(k + e)).
    by rewrite -scalemxAr DE scalerA mulfV // scale1r.
  by rewrite mulKmx // scalerA mulrC.
have : (k + e).+1 \in s by exact: hs.
elim: s {hD s0 hs} eig => // j s ih eig; rewrite inE /= => hm.
have fin A : exists c, A = foldr (fun k A => (1%:M - invmx (D k) *m Q) *m A) 1%:M s ->
    A *m pv 'X^(k + e) = c *: pv 'X^(k + e).
  exists (\prod_(i <- s) (1 - i%:R / (k + e).+1%:R)) => -> {A}.
  elim: s {ih hm} eig => [|i s ih] eig /=; first by rewrite mul1mx big_nil scale1r.
  rewrite -mulmxA ih ?big_cons; last first.
    by move=> l; rewrite inE => /orP [/eqP ->|ls]; apply: eig; rewrite !inE ?eqxx // ls !orbT.
  by rewrite -scalemxAr eig ?inE ?eqxx ?orbT // scalerA mulrC.
rewrite -mulmxA; case/orP: hm => [/eqP ej|hm].
  have [c cE] := fin (foldr (fun k A => (1%:M - invmx (D k) *m Q) *m A) 1%:M s).
  rewrite cE // -scalemxAr (eig j) ?inE ?eqxx // -ej divff ?pnatr_eq0 //.
  by rewrite subrr scale0r scaler0.
by rewrite ih ?mulmx0 // => l ls; apply: eig; rewrite inE ls orbT.
Qed.
End Core.

(* a matrix whose resolvent determinant is 1 at n points is nilpotent *)
Section Det.
Variable F : realFieldType.
Lemma det_nil n (N : 'M[F]_n) (z : 'I_n -> F) : injective z -> (forall i, z i != 0) ->
  (forall i, \det (1%:M + z i *: N) = 1) -> mpow N n = 0.
Proof.
case: n N z => [|n] N z zinj z0 h; first by apply/matrixP => - [].
have cE y : (char_poly N).[y] = \det (y%:M - N).
  transitivity (\det (map_mx (horner_eval y) (char_poly_mx N))); first by rewrite det_map_mx.
  congr (\det _); apply/matrixP => i j; rewrite !mxE /horner_eval.
  by rewrite hornerD hornerN hornerMn hornerX hornerC.
have cr i : (char_poly N).[- (z i)^-1] = (- (z i)^-1) ^+ n.+1.
  rewrite cE; have -> : (- (z i)^-1)%:M - N = (- (z i)^-1) *: (1%:M + z i *: N).
    by rewrite scalerDr scalerA mulNr mulVf // scaleN1r scalemx1.
  by rewrite detZ h mulr1.
have ch : char_poly N = 'X^n.+1.
  apply/eqP; rewrite -subr_eq0; apply/negPn/negP => d0.
  pose rs := [seq - (z i)^-1 | i <- enum 'I_n.+1].
  have rr : all (root (char_poly N - 'X^n.+1)) rs.
    apply/allP => y /mapP [i _ ->]; apply/rootP.
    by rewrite hornerD hornerN hornerXn cr subrr.
  have ur : uniq rs.
    by rewrite map_inj_uniq ?enum_uniq // => i j /oppr_inj /invr_inj /zinj.
  have := max_poly_roots d0 rr ur; rewrite size_map size_enum_ord.
  suff : (size (char_poly N - 'X^n.+1)%R <= n.+1)%N by move=> h1 h2; move: (leq_trans h2 h1); rewrite ltnn.
  have mN := char_poly_monic N; have sN := size_char_poly N.
  apply/leq_sizeP => j; rewrite leq_eqVlt => /orP [/eqP <-|jn]; rewrite coefB coefXn.
    by have := mN; rewrite monicE lead_coefE sN /= => /eqP ->; rewrite eqxx subrr.
  by rewrite gtn_eqF // nth_default ?sN // subrr.
have e k : mpow N k = N ^+ k.
  by elim: k => [|k ih]; [rewrite expr0|rewrite exprS -ih].
rewrite e; have := Cayley_Hamilton N; rewrite ch rmorphX /= horner_mx_X.
exact.
Qed.
End Det.

(* collocation matrices given as lists *)
Section Coll.
Variable F : realFieldType.
Variables (M : nat) (tau : seq F) (Q : seq (seq F)).
Hypothesis zt : size tau = M.
Hypothesis st : sorted <%O tau.
Hypothesis shQ : is_shape Q M M.
Hypothesis ex : forall P : {poly F}, (size P <= M.+1)%N ->
  mv Q (pvals P^`() tau) = [seq P.[t] - P.[0] | t <- tau].
Definition nd (s : seq F) n (i : 'I_n) : F := nth 0 s i.

Lemma nd_inj (s : seq F) n : size s = n -> sorted <%O s -> injective (@nd s n).
Proof.
move=> zs ss i j /eqP; rewrite /nd nth_uniq ?zs //; first by move/eqP/val_inj.
exact: lt_sorted_uniq.
Qed.

Lemma Q_pow k : (k < M)%N -> mxl M M Q *m pv (@nd tau M) 'X^k = k.+1%:R^-1 *: pv (@nd tau M) 'X^k.+1.
Proof.
move=> kM; have := ex (P := k.+1%:R^-1 *: 'X^k.+1).
rewrite (leq_trans (size_scale_leq _ _)) ?size_polyXn // => /(_ isT).
have -> : (k.+1%:R^-1 *: 'X^k.+1)^`() = 'X^k :> {poly F}.
  by rewrite derivZ derivXn -scaler_nat scalerA mulVf ?pnatr_eq0 // scale1r.
move=> e; apply/colP => i; have := congr1 (fun s => nth 0 s i) e.
rewrite (nth_mv shQ) ?size_map // (nth_map 0) ?zt // !mxE.
rewrite !hornerZ !hornerXn expr0n /= mulr0 subr0 => <-.
by apply: eq_bigr => j _; rewrite !mxE (nth_map 0) ?zt.
Qed.
End Coll.

(* the rows and columns after the first *)
Section Sub.
Variable F : realFieldType.
Definition sub1 (A : seq (seq F)) : seq (seq F) := [seq behead r | r <- behead A].
Lemma sub1_shape A n : is_shape A n.+1 n.+1 -> is_shape (sub1 A) n n.
Proof.
move/is_shapeP => [z h]; apply/is_shapeP; rewrite size_map size_behead z; split=> // i il.
by rewrite (nth_map [::]) ?size_behead ?z // nth_behead h.
Qed.
Lemma ent_sub1 A n i j : is_shape A n.+1 n.+1 -> (i < n)%N -> ent (sub1 A) i j = ent A i.+1 j.+1.
Proof.
move/is_shapeP => [z h] il.
by rewrite /ent /sub1 (nth_map [::]) ?size_behead ?z // nth_behead [in LHS]nth_behead.
Qed.

Variables (n : nat) (tau : seq F) (Q : seq (seq F)).
Hypothesis zt : size tau = n.+1.
Hypothesis t0 : nth 0 tau 0 = 0.
Hypothesis shQ : is_shape Q n.+1 n.+1.
Hypothesis ex : forall P : {poly F}, (size P <= n.+2)%N ->
  mv Q (pvals P^`() tau) = [seq P.[t] - P.[0] | t <- tau].
Lemma Q_pow1 k : (k < n)%N -> mxl n n (sub1 Q) *m pv (@nd _ (behead tau) n) 'X^(k + 1) =
  (k + 1).+1%:R^-1 *: pv (@nd _ (behead tau) n) 'X^(k + 1).+1.
Proof.
rewrite addn1 => kn; have kn1 : (k.+1 < n.+1)%N by [].
have /colP e := Q_pow zt shQ ex kn1.
apply/colP => i; have := e (lift ord0 i); rewrite !mxE big_ord_recl !mxE /nd t0.
rewrite [in X in X * _ + _]/= hornerXn expr0n /= mulr0 add0r => e'.
rewrite nth_behead -[RHS]e'; apply: eq_bigr => j _.
by rewrite !mxE (ent_sub1 _ shQ) // nth_behead.
Qed.
End Sub.

Section Diag.
Variable F : realFieldType.
Lemma is_diag_mx (A : seq (seq F)) v : is_diag A v -> mxl (size v) (size v) A = diag_mx (rvl (size v) v).
Proof. by move=> [_ h]; apply/matrixP => i j; rewrite !mxE h // -val_eqE /=; case: eqP. Qed.
Lemma is_diag_unit (A : seq (seq F)) v : is_diag A v -> 0 \notin v -> mxl (size v) (size v) A \in unitmx.
Proof.
move=> /is_diag_mx -> v0; rewrite unitmxE det_diag unitfE; apply/prodf_neq0 => i _.
by rewrite mxE; apply: contraNneq v0 => <-; rewrite mem_nth.
Qed.
Lemma is_diag_pv (A : seq (seq F)) v x p : is_diag A v ->
  mxl (size v) (size v) A *m pv x p = \col_i (nth 0 v i * p.[x i]).
Proof.
move=> /is_diag_mx ->; apply/colP => i; rewrite mul_diag_mx !mxE.
by [].
Qed.
Lemma diagm_is_diag (v : seq F) : is_diag (diagm v) v.
Proof. by split; [exact: diagm_shape|exact: ent_diagm]. Qed.
Lemma is_diag_inj (A B : seq (seq F)) v : is_diag A v -> is_diag B v -> A = B.
Proof. by move=> [sA hA] [sB hB]; apply: (mat_ext sA sB) => i j il jl; rewrite hA // hB. Qed.
Lemma is_diag_sub1 (A : seq (seq F)) x v : is_diag A (x :: v) -> is_diag (sub1 A) v.
Proof.
move=> [sA h]; split; first exact: sub1_shape.
by move=> i j il jl; rewrite (ent_sub1 _ sA) // h.
Qed.
End Diag.
