(* Enclosures of polynomials and matrices by intervals; a bound for the eigenvalues of an enclosed
   matrix. *)
From Coq Require Import ZArith Lia.
From mathcomp Require Import all_ssreflect all_algebra ring.
From Verif.Base Require Import QcEmb IntvZ.
Set Implicit Arguments.
Unset Strict Implicit.
Unset Printing Implicit Defensive.
Import GRing.Theory Num.Theory Order.TTheory.
Local Open Scope ring_scope.
Delimit Scope Z_scope with cz.

(* polynomials: coefficients from low to high; multiplication by X - x *)
Fixpoint ipmulX (c : intv) (p : seq intv) (x : intv) : seq intv :=
  if p is a :: p' then isub c (imul a x) :: ipmulX a p' x else [:: c].
Definition ihorner (p : seq intv) (x : intv) : intv := foldr (fun a r => iadd a (imul r x)) izero p.
(* prod_(k < m, k != j) (X - T_k) and prod_(k < m, k != j) (T_j - T_k) *)
Fixpoint ilagp (T : seq intv) (j m : nat) : seq intv * intv :=
  if m is k.+1 then
    let r := ilagp T j k in
    if k == j then r
    else (ipmulX izero r.1 (nth izero T k), imul r.2 (isub (nth izero T j) (nth izero T k)))
  else ([:: ione], ione).
(* coefficients of w p, the coefficient of index i divided by i+1 *)
Fixpoint iintg (w : intv) (i : positive) (p : seq intv) : seq intv :=
  if p is a :: p then imul (imul w a) (irat 1 i) :: iintg w (Pos.succ i) p else [::].
(* column j of the quadrature matrix of the nodes T on an interval starting at 0 *)
Definition iqcol (T : seq intv) (j : nat) : seq intv :=
  let r := ilagp T j (size T) in
  let R := iintg (iinv r.2) 1 r.1 in
  [seq imul (ihorner R t) t | t <- T].

(* matrices: lists of columns *)
Definition aent (A : seq (seq intv)) (i j : nat) : intv := nth izero (nth [::] A j) i.
Definition isum (s : seq intv) : intv := foldr iadd izero s.
Definition isq (m : nat) (A : seq (seq intv)) : seq (seq intv) :=
  mkseq (fun j => mkseq (fun i => isum (mkseq (fun k => imul (aent A i k) (aent A k j)) m)) m) m.
Definition zsq (e : nat) (x : Z) : Z := iter e (fun y => (y * y)%cz) x.
Definition zsum (s : seq Z) : Z := foldr Z.add Z0 s.
Definition colsum (c : seq intv) : Z := zsum [seq iabs x | x <- c].

Section Encl.
Variable F : realFieldType.
Implicit Types (x y : F) (p q : {poly F}).
Notation z := (@zr F).
Notation inI := (@inI F).

Lemma in_zeroE x : inI x izero -> x = 0.
Proof.
move=> [h1 h2]; have : x * sc F == 0 by rewrite eq_le h1 h2.
by rewrite mulf_eq0 (negbTE (sc_neq0 F)) orbF => /eqP.
Qed.

Definition inP p (P : seq intv) : Prop := forall i, inI p`_i (nth izero P i).

Lemma mulX_gen (q : nat -> F) (c x : F) (P : seq intv) C X : inI x X -> inI c C ->
  (forall i, inI (q i) (nth izero P i)) ->
  forall i, inI ((if i is k.+1 then q k else c) - q i * x) (nth izero (ipmulX C P X) i).
Proof.
move=> hx; elim: P q c C => [|a P ih] q c C hc h i.
  have q0 k : q k = 0 by apply: in_zeroE; have := h k; rewrite nth_nil.
  rewrite q0 mul0r subr0 /=; case: i => [|k] //=; rewrite q0 nth_nil; exact: in_zero.
case: i => [|i] /=; first by apply: in_sub => //; apply: in_mul => //; exact: (h 0%N).
have h' k : inI (q k.+1) (nth izero P k) by exact: (h k.+1).
by have := ih (fun k => q k.+1) (q 0%N) a (h 0%N) h' i; case: i.
Qed.
Lemma inP_mulX p x P X : inP p P -> inI x X -> inP (p * ('X - x%:P)) (ipmulX izero P X).
Proof.
move=> hp hx i; have := mulX_gen hx (in_zero F) hp i.
by rewrite mulrBr coefB coefMX coefMC; case: i.
Qed.
Lemma inP_one : inP 1 [:: ione].
Proof. by case=> [|i]; rewrite coef1 /=; [exact: in_one|rewrite nth_nil; exact: in_zero]. Qed.

Lemma in_horner p x P X : inP p P -> inI x X -> inI p.[x] (ihorner P X).
Proof.
move=> hp hx; elim: P p hp => [|a P ih] p hp.
  have -> : p = 0 by apply/polyP => i; rewrite coef0; apply: in_zeroE; have := hp i; rewrite nth_nil.
  by rewrite horner0; exact: in_zero.
pose q := \poly_(i < size p) p`_i.+1.
have qE i : q`_i = p`_i.+1.
  by rewrite coef_poly; case: ltnP => // h; rewrite nth_default // (leq_trans h).
have -> : p = q * 'X + (p`_0)%:P.
  by apply/polyP => -[|i]; rewrite coefD coefMX coefC ?add0r ?addr0 //= qE.
rewrite hornerD hornerM hornerX hornerC addrC; apply: in_add; first exact: (hp 0%N).
apply: in_mul => //; apply: ih => i; rewrite qE; exact: (hp i.+1).
Qed.

Lemma in_lagp (tau : seq F) T j : (forall i, inI (nth 0 tau i) (nth izero T i)) -> forall m,
  inP (\prod_(k < m | k != j :> nat) ('X - (nth 0 tau k)%:P)) (ilagp T j m).1 /\
  inI (\prod_(k < m | k != j :> nat) (nth 0 tau j - nth 0 tau k)) (ilagp T j m).2.
Proof.
move=> h; elim=> [|m [ih1 ih2]]; first by rewrite !big_ord0; split; [exact: inP_one|exact: in_one].
rewrite big_mkcond big_ord_recr -big_mkcond /= [\prod_(k < m.+1 | _) (_ - _)]big_mkcond big_ord_recr -big_mkcond /=.
case: (m =P j) => mj; rewrite ?eqxx ?mulr1 /=; first by [].
split; first exact: inP_mulX.
by apply: in_mul => //; apply: in_sub.
Qed.

Lemma posr_succ i : posr F (Pos.of_succ_nat i) = i.+1%:R.
Proof. by rewrite /posr SuccNat2Pos.id_succ. Qed.
Lemma in_intg w W p P k : inI w W -> inP p P ->
  inP (\poly_(i < size p) (w * p`_i / (i + k.+1)%:R)) (iintg W (Pos.of_succ_nat k) P).
Proof.
move=> hw; elim: P p k => [|a P ih] p k hp i; rewrite coef_poly.
  have -> : p`_i = 0 by apply: in_zeroE; have := hp i; rewrite nth_nil.
  by rewrite mulr0 mul0r if_same nth_nil; exact: in_zero.
have -> : (if (i < size p)%N then w * p`_i / (i + k.+1)%:R else 0) = w * p`_i / (i + k.+1)%:R.
  by case: ltnP => // h; rewrite nth_default // mulr0 mul0r.
case: i => [|i] /=.
  apply: in_mul; first by apply: in_mul => //; exact: (hp 0%N).
  have := in_rat F 1 (Pos.of_succ_nat k); rewrite posr_succ add0n.
  by rewrite (_ : z 1 = 1) ?mul1r // /= /posr.
pose q := \poly_(i < size p) p`_i.+1.
have qE t : q`_t = p`_t.+1.
  by rewrite coef_poly; case: ltnP => // h; rewrite nth_default // (leq_trans h).
have hq : inP q P by move=> t; rewrite qE; exact: (hp t.+1).
have := ih q k.+1 hq i; rewrite coef_poly qE addSnnS.
case: ltnP => // h; suff -> : p`_i.+1 = 0 by rewrite mulr0 mul0r.
by rewrite -qE nth_default.
Qed.

(* matrices *)
Section Mx.
Variable m : nat.
Definition inM (A : 'M[F]_m) (IA : seq (seq intv)) : Prop := forall i j : 'I_m, inI (A i j) (aent IA i j).

Lemma in_sum (f : nat -> F) (g : nat -> intv) k : (forall i, (i < k)%N -> inI (f i) (g i)) ->
  inI (\sum_(i < k) f i) (isum (mkseq g k)).
Proof.
move=> h; rewrite -(big_mkord xpredT f) /index_iota subn0 /mkseq.
have : forall i, i \in iota 0 k -> inI (f i) (g i) by move=> i; rewrite mem_iota => /h.
elim: (iota 0 k) => [|a s ih] h'; rewrite /= ?big_nil ?big_cons; first exact: in_zero.
apply: in_add; first by apply: h'; rewrite inE eqxx.
by apply: ih => i hi; apply: h'; rewrite inE hi orbT.
Qed.
Lemma aent_mk (f : nat -> nat -> intv) (i j : nat) : (i < m)%N -> (j < m)%N ->
  aent (mkseq (fun j => mkseq (fun i => f i j) m) m) i j = f i j.
Proof. by move=> hi hj; rewrite /aent (nth_mkseq _ _ hj) (nth_mkseq _ _ hi). Qed.
Lemma in_sq A IA : inM A IA -> inM (A *m A) (isq m IA).
Proof.
move=> h i j; rewrite /isq (aent_mk (fun i j => isum _)) // !mxE.
pose f k := if insub k is Some k' then A i k' * A k' j else 0.
rewrite (eq_bigr (fun k : 'I_m => f k)) => [|k _]; last by rewrite /f valK.
by apply: in_sum => k hk; rewrite /f insubT; apply: in_mul; exact: h.
Qed.
Lemma in_iter A IA e : inM A IA -> inM (iter e (fun B => B *m B) A) (iter e (isq m) IA).
Proof. by move=> h; elim: e => //= e ih; exact: in_sq. Qed.

Lemma in_zsum (f : nat -> F) (c : seq intv) : (forall i, (i < size c)%N -> inI (f i) (nth izero c i)) ->
  (\sum_(i < size c) `|f i|) * sc F <= z (colsum c).
Proof.
rewrite /colsum; elim: c f => [|a c ih] f h; first by rewrite big_ord0 mul0r.
rewrite /= big_ord_recl mulrDl zrD; apply: ler_add; first by apply: in_abs; exact: (h 0%N).
by apply: (ih (fun i => f i.+1)) => i hi; exact: (h i.+1).
Qed.
Lemma in_colsum A IA (j : 'I_m) : inM A IA -> size (nth [::] IA j) = m ->
  (\sum_i `|A i j|) * sc F <= z (colsum (nth [::] IA j)).
Proof.
move=> h sz; pose f k := if insub k is Some k' then A k' j else 0.
have -> : \sum_i `|A i j| = \sum_(i < m) `|f i| by apply: eq_bigr => k _; rewrite /f valK.
rewrite -(big_mkord xpredT (fun i => `|f i|)) -[X in index_iota 0 X]sz big_mkord.
apply: in_zsum => i; rewrite sz => hi; rewrite /f insubT; exact: h.
Qed.
End Mx.

(* an eigenvalue of a matrix with enclosed power, for instance a complex one *)
Section Eig.
Variables (L : numFieldType) (f : {rmorphism F -> L}).
Hypothesis fm : {homo f : x y / x <= y}.

Lemma f_norm x : `|f x| = f `|x|.
Proof.
case: (leP 0 x) => h; first by rewrite !ger0_norm // -(rmorph0 f) fm.
by rewrite !ltr0_norm ?rmorphN // lt_neqAle fmorph_eq0 lt_eqF //= -(rmorph0 f) fm // ltW.
Qed.
Lemma f_lt x y : x < y -> f x < f y.
Proof. by move=> h; rewrite lt_neqAle fm ?ltW // andbT (inj_eq (fmorph_inj f)) lt_eqF. Qed.

Lemma sq_eig m (A : 'M[F]_m) (v : 'cV[L]_m) lam e : map_mx f A *m v = lam *: v ->
  map_mx f (iter e (fun B => B *m B) A) *m v = lam ^+ (2 ^ e) *: v.
Proof.
move=> h; elim: e => [|e ih]; first by rewrite expr1.
rewrite iterS map_mxM -mulmxA ih -scalemxAr ih scalerA -exprD.
by rewrite addnn -mul2n -expnS.
Qed.

Lemma norm_eig m (A : 'M[F]_m) (v : 'cV[L]_m) lam (r : F) : v != 0 -> map_mx f A *m v = lam *: v ->
  (forall j, \sum_i `|A i j| < r) -> `|lam| < f r.
Proof.
move=> v0 h hr.
have [k vk] : exists k, v k 0 != 0.
  apply/existsP; rewrite -negb_forall; apply: contra v0 => /forallP a.
  by apply/eqP/colP => i; rewrite mxE; apply/eqP; exact: a.
pose S := \sum_i `|v i 0|.
have S0 : 0 < S.
  rewrite /S (bigD1 k) //=; apply: ltr_paddr; first by apply: sumr_ge0.
  by rewrite normr_gt0.
rewrite -(ltr_pmul2r S0).
have -> : `|lam| * S = \sum_i `|\sum_j f (A i j) * v j 0|.
  rewrite /S mulr_sumr; apply: eq_bigr => i _; rewrite -normrM; congr `|_|.
  by have := congr1 (fun M : 'cV_m => M i 0) h; rewrite !mxE => <-; apply: eq_bigr => j _; rewrite mxE.
apply: le_lt_trans (_ : \sum_j f (\sum_i `|A i j|) * `|v j 0| < _).
  apply: le_trans (_ : \sum_i \sum_j `|f (A i j)| * `|v j 0| <= _).
    apply: ler_sum => i _; apply: le_trans (ler_norm_sum _ _ _) _.
    by apply: ler_sum => j _; rewrite normrM.
  rewrite exchange_big /=; apply: ler_sum => j _; rewrite -mulr_suml rmorph_sum.
  by rewrite (eq_bigr (fun i => f `|A i j|)) // => i _; rewrite f_norm.
rewrite /S mulr_sumr (bigD1 k) //= [X in _ < X](bigD1 k) //=; apply: ltr_le_add.
  by rewrite ltr_pmul2r ?normr_gt0 // f_lt.
by apply: ler_sum => j _; rewrite ler_wpmul2r // fm // ltW.
Qed.

(* power 2^e of the bound is compared with the column sums of the power 2^e of the matrix *)
Lemma zsqE e (x : Z) : z (zsq e x) = z x ^+ (2 ^ e).
Proof. by elim: e => [|e ih]; rewrite ?expr1 // /zsq iterS zrM -/(zsq e x) ih -exprD addnn -mul2n -expnS. Qed.
Definition eig_check (m : nat) (IA : seq (seq intv)) (e : nat) (rn rd : positive) : bool :=
  let B := iter e (isq m) IA in
  [&& size B == m, all (fun c => size c == m) B &
      all (fun c => Z.ltb (colsum c * zsq e (Zpos rd)) (zsq e (Zpos rn) * SC)) B].
Lemma eig_bound m (A : 'M[F]_m) IA (v : 'cV[L]_m) lam e (rn rd : positive) :
  v != 0 -> map_mx f A *m v = lam *: v -> inM A IA -> eig_check m IA e rn rd ->
  `|lam| < f (posr F rn / posr F rd).
Proof.
move=> v0 h hA /and3P [/eqP s1 /(all_nthP [::]) s2 /(all_nthP [::]) s3].
have hB := in_iter e hA; have hv := sq_eig e h.
have e0 : (0 < 2 ^ e)%N by rewrite expn_gt0.
rewrite -(ltr_pexpn2r e0) ?nnegrE //; last first.
  by rewrite -(rmorph0 f) fm // divr_ge0 // ltW // posr_gt0.
rewrite -normrX -rmorphX; apply: norm_eig hv _ => // j.
set B := iter e _ IA in s1 s2 s3 hB; have mB : (j < size B)%N by rewrite s1.
rewrite expr_div_n ltr_pdivl_mulr ?exprn_gt0 ?posr_gt0 // -(ltr_pmul2r (sc_gt0 F)) mulrAC.
apply: le_lt_trans (_ : z (colsum (nth [::] B j)) * posr F rd ^+ (2 ^ e) < _).
  rewrite ler_pmul2r ?exprn_gt0 ?posr_gt0 //; apply: in_colsum hB _.
  by apply/eqP; exact: s2.
rewrite -[posr F rd]/(z (Zpos rd)) -[posr F rn]/(z (Zpos rn)) -!zsqE (scE F) -!zrM.
by apply: zr_lt; apply/Z.ltb_lt; exact: s3.
Qed.
End Eig.
End Encl.
