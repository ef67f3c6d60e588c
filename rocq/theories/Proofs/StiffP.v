(* Bounds for the eigenvalues of I - QDelta^-1 Q with diagonal QDelta, from enclosures of the nodes. *)
From Coq Require Import ZArith QArith Lia.
From Verif.Base Require Import Str.
From mathcomp Require Import all_ssreflect all_algebra ring.
From Verif.Base Require Import QcEmb PolyInt IntvZ IntvMx Outcome Arr.
From Verif.Spec Require Import NodesSpec CollSpec.
From Verif.Model Require Import Nodes.
From Verif.Proofs Require Import LagrangeP QuadP NodesThms LegEncl.
Set Implicit Arguments.
Unset Strict Implicit.
Unset Printing Implicit Defensive.
Import GRing.Theory Num.Theory Order.TTheory.
Local Open Scope ring_scope.
Delimit Scope Z_scope with cz.
Opaque SC shr IntvZ.sc.

Definition q0 : Q := Qmake 0 1.
(* equidistant nodes i/n, i = 1, ..., n *)
Definition equid_encl (n : nat) : seq intv :=
  rcons (mkseq (fun i => irat (Z.of_nat i.+1) (Pos.of_nat n)) n.-1) ione.

(* the matrix I - diag(c)^-1 Q without its first s rows and columns *)
Definition icoef (c : Q) : intv := irat (Qnum c) (Qden c).
Definition ikmat (T : seq intv) (c : seq Q) (s m : nat) : seq (seq intv) :=
  let ci := [seq iinv (icoef x) | x <- c] in
  mkseq (fun j =>
    let q := iqcol T (s + j) in
    mkseq (fun i => isub (if i == j then ione else izero)
                         (imul (nth izero ci (s + i)) (nth izero q (s + i)))) m) m.
Definition stiff_check (T : seq intv) (c : seq Q) (s m e : nat) (rn rd : positive) : bool :=
  [&& all (fun j => inz (ilagp T (s + j) (size T)).2) (iota 0 m),
      all (fun i => inz (icoef (nth q0 c (s + i)))) (iota 0 m) &
      eig_check m (ikmat T c s m) e rn rd].

(* nodes that are end points of [0,1] or further than 1/1000 away *)
Definition sep_check (T : seq intv) : bool :=
  all (fun I : intv => ((Z.eqb I.1 0 && Z.eqb I.2 0) || Z.leb SC (1000 * I.1)) &&
                       ((Z.eqb I.1 SC && Z.eqb I.2 SC) || Z.leb (1000 * I.2) (999 * SC)))%cz T.

Section Stiff.
Variable F : realFieldType.
Notation z := (@zr F).
Notation sc := (IntvZ.sc F).
Notation inI := (@IntvZ.inI F).

Lemma int_horner (w : F) (p : {poly F}) (t : F) :
  pint (w *: p) 0 t = (\poly_(i < size p) (w * p`_i / (i + 1)%:R)).[t] * t.
Proof.
rewrite /pint aint0 subr0; set r := \poly_(_ < _) _.
suff -> : aint (w *: p) = r * 'X by rewrite hornerM hornerX.
apply/polyP => -[|i]; rewrite coef_aint coefMX //= coefZ /r coef_poly addn1 mulr1n.
by case: ltnP => // h; rewrite nth_default // mulr0 mul0r.
Qed.

Lemma in_qcol (tau : seq F) T j i : size tau = size T -> (forall i, (i < size T)%N -> inI (nth 0 tau i) (nth izero T i)) ->
  inz (ilagp T j (size T)).2 -> (i < size T)%N -> inI (pint (ell tau j) 0 (nth 0 tau i)) (nth izero (iqcol T j) i).
Proof.
move=> st h0 nz hi.
have h k : inI (nth 0 tau k) (nth izero T k).
  by case: (ltnP k (size T)) => [/h0 //|hk]; rewrite !nth_default ?st //; exact: in_zero.
have [h1 h2] := in_lagp j h (size T).
rewrite /ell /bwn int_horner st /iqcol (nth_map izero) //; apply: in_mul => //.
apply: in_horner => //; have := @in_intg F _ _ _ _ 0 (in_inv nz h2) h1.
by apply.
Qed.

Lemma in_coef (c : Q) : inI (qr F c) (icoef c).
Proof. exact: in_rat. Qed.

Section Bound.
Variables (L : numFieldType) (f : {rmorphism F -> L}).
Hypothesis fm : {homo f : x y / x <= y}.
Variables (s m : nat) (tau : seq F) (T : seq intv) (c : seq Q) (e : nat) (rn rd : positive).
Hypotheses (st : size tau = (s + m)%N) (sT : size T = (s + m)%N) (scc : size c = (s + m)%N).
Hypothesis hT : forall i, (i < s + m)%N -> inI (nth 0 tau i) (nth izero T i).
Hypothesis ck : stiff_check T c s m e rn rd.
Notation A := (mxl (s + m) (s + m) (diagm [seq qr F x | x <- c])).
Notation QM := (mxl (s + m) (s + m) (Qm tau 0)).

Definition kmat : 'M[F]_m := \matrix_(i, j) ((i == j)%:R - (qr F (nth q0 c (s + i)))^-1 * QM (rshift s i) (rshift s j)).

Lemma in_kmat : inM kmat (ikmat T c s m).
Proof.
move: ck => /and3P [/allP n1 /allP n2 _] i j.
have hi : (i < m)%N by []. have hj : (j < m)%N by [].
have ni : (s + i < s + m)%N by rewrite ltn_add2l.
have nj : (s + j < s + m)%N by rewrite ltn_add2l.
rewrite /ikmat (aent_mk (fun i j => isub (if i == j then ione else izero) _)) // mxE.
apply: in_sub.
  by rewrite val_eqE; case: (i == j); [exact: in_one|exact: in_zero].
apply: in_mul.
  rewrite (nth_map q0) ?scc //; apply: in_inv; last exact: in_coef.
  by apply: n2; rewrite mem_iota.
rewrite mxE /ent /Qm (nth_map 0) ?st // nth_mkseq ?st //.
apply: in_qcol; rewrite ?st ?sT //.
by have := n1 j; rewrite mem_iota sT; apply.
Qed.

Lemma stiff_bound (v : 'cV[L]_(s + m)) lam : v != 0 -> (forall i : 'I_(s + m), (i < s)%N -> v i 0 = 0) ->
  map_mx f (A - QM) *m v = lam *: (map_mx f A *m v) -> `|lam| < f (posr F rn / posr F rd).
Proof.
move=> v0 vz h.
pose w : 'cV[L]_m := \col_i v (rshift s i) 0.
have w0 : w != 0.
  apply: contra v0 => /eqP w0; apply/eqP/colP => i; rewrite mxE; case: (split_ordP i) => k ->.
    by apply: vz => /=.
  by have := congr1 (fun M : 'cV_m => M k 0) w0; rewrite !mxE.
have AE (i j : 'I_(s + m)) : A i j = if i == j then qr F (nth q0 c i) else 0.
  have si : size [seq qr F x | x <- c] = (s + m)%N by rewrite size_map.
  by rewrite mxE ent_diagm ?si // -val_eqE (nth_map q0) ?scc.
move: (ck) => /and3P [_ /allP n2 hc].
apply: (eig_bound fm w0 _ in_kmat hc).
apply/colP => i; rewrite !mxE.
have ci : qr F (nth q0 c (s + i)) != 0.
  by apply: (@inz_neq0 F _ (icoef (nth q0 c (s + i)))); [apply: n2; rewrite mem_iota /=|exact: in_coef].
have fc : f (qr F (nth q0 c (s + i))) != 0 by rewrite fmorph_eq0.
have := congr1 (fun M : 'cV_(s + m) => M (rshift s i) 0) h; rewrite !mxE.
have dA (u : 'cV[L]_(s + m)) : \sum_j (map_mx f A) (rshift s i) j * u j 0 = f (qr F (nth q0 c (s + i))) * u (rshift s i) 0.
  rewrite (bigD1 (rshift s i)) //= big1 ?addr0 => [|j /negbTE ji].
    by rewrite mxE AE eqxx.
  by rewrite mxE AE eq_sym ji rmorph0 mul0r.
rewrite dA => h2.
apply: (mulfI fc); rewrite mulrCA -h2 mulr_sumr.
have -> : \sum_j (map_mx f (A - QM)) (rshift s i) j * v j 0 =
  \sum_(j < m) (map_mx f (A - QM)) (rshift s i) (rshift s j) * v (rshift s j) 0.
  rewrite big_split_ord /= big1 ?add0r // => j _.
  by rewrite (vz (lshift m j)) ?mulr0 //=.
apply: eq_bigr => j _; rewrite mulrA; congr (_ * _); last by rewrite mxE.
have -> : map_mx f (A - QM) (rshift s i) (rshift s j) = f (A (rshift s i) (rshift s j) - QM (rshift s i) (rshift s j)).
  by rewrite [LHS]mxE [X in f X]mxE [X in _ + X]mxE.
have -> : map_mx f kmat i j = f ((i == j)%:R - (qr F (nth q0 c (s + i)))^-1 * QM (rshift s i) (rshift s j)).
  by rewrite [LHS]mxE [X in f X]mxE.
rewrite AE (inj_eq (@rshift_inj s m)) -rmorphM mulrBr mulVKf //; congr (f (_ - _)).
by case: (i == j); rewrite ?mulr1 ?mulr0.
Qed.
End Bound.

(* the nodes *)
Lemma equid_enclP (n i : nat) : (0 < n)%N -> (i < n)%N ->
  inI (node_in 0 1 (equid F "RADAU-RIGHT" n i)) (nth izero (equid_encl n) i).
Proof.
move=> n0 hi; have nn : n%:R != 0 :> F by rewrite pnatr_eq0 -lt0n.
have -> : node_in 0 1 (equid F "RADAU-RIGHT" n i) = i.+1%:R / n%:R.
  by rewrite /node_in /equid /=; move: i.+1%:R n%:R nn => a b b0; field.
rewrite /equid_encl nth_rcons size_mkseq; case: ltnP => hi'.
  rewrite nth_mkseq //; have := in_rat F (Z.of_nat i.+1) (Pos.of_nat n).
  by rewrite zr_nat /posr Nat2Pos.id //; case: (n) n0.
have -> : i = n.-1 by apply/eqP; rewrite eqn_leq hi' andbT -ltnS prednK.
by rewrite eqxx prednK // divff //; exact: in_one.
Qed.

Lemma sep_one (t : F) : inI t ione -> t = 1.
Proof.
rewrite /IntvZ.inI /ione [(_, _).1]/fst [(_, _).2]/snd -(scE F); move: (sc_neq0 F).
move: (IntvZ.sc F) => S s0 [h1 h2]; apply: (mulIf s0); rewrite mul1r.
by apply/eqP; rewrite eq_le h1 h2.
Qed.
Lemma sep_lo (t : F) (a : Z) : (SC <= 1000 * a)%cz -> z a <= t * sc -> 1000%:R^-1 <= t.
Proof.
move=> h ha; have s0 := sc_gt0 F; have h1 : sc <= 1000%:R * z a.
  by have := zr_le F h; rewrite -(scE F) zrM.
move: (IntvZ.sc F) ha s0 h1 => S ha s0 h1; rewrite -(ler_pmul2r s0) mulrC ler_pdivr_mulr ?ltr0n //.
by apply: (le_trans h1); rewrite mulrC ler_pmul2r ?ltr0n.
Qed.
Lemma sep_hi (t : F) (a : Z) : (1000 * a <= 999 * SC)%cz -> t * sc <= z a -> t <= 1 - 1000%:R^-1.
Proof.
move=> h ha; have s0 := sc_gt0 F; have h1 : 1000%:R * z a <= 999%:R * sc.
  have := zr_le F h; rewrite zrM (_ : z 1000 = 1000%:R) // => h1; apply: (le_trans h1).
  by rewrite scE zrM (_ : z 999 = 999%:R).
have -> : 1 - 1000%:R^-1 = 999%:R / 1000%:R :> F by field.
rewrite ler_pdivl_mulr ?ltr0n // -(ler_pmul2r s0) mulrAC; apply: le_trans h1.
by rewrite mulrC ler_pmul2l ?ltr0n.
Qed.
Lemma tol_small : 10%:R ^- 8 + 10%:R ^- 5 * 1 < 1000%:R^-1 :> F.
Proof.
have e3 : 1000%:R = 10%:R ^+ 3 :> F by rewrite -natrX.
rewrite mulr1 e3 -!exprVn; set u := 10%:R^-1; have u0 : 0 < u by rewrite invr_gt0 ltr0n.
have u1 : 10%:R * u = 1 by rewrite divff // pnatr_eq0.
have -> : u ^+ 8 + u ^+ 5 = u ^+ 3 * (u ^+ 2 * (u ^+ 3 + 1)) by ring.
rewrite -[X in _ < X]mulr1 ltr_pmul2l ?exprn_gt0 //.
have us : u < 1 by rewrite invf_lt1 ?ltr0n // ltr1n.
have u3 : u ^+ 3 < 1 by rewrite exprn_ilt1 // ltW.
apply: (lt_trans (y := u ^+ 2 * 2%:R)).
  by rewrite ltr_pmul2l ?exprn_gt0 // -[2%:R]/(1 + 1) ltr_add2r.
rewrite expr2 -mulrA; apply: (lt_trans (y := u * 1)); last by rewrite mulr1.
by rewrite ltr_pmul2l // mulrC -[X in _ < X]u1 ltr_pmul2r // ltr_nat.
Qed.
Lemma tol_le (t : F) : t <= 1 -> 10%:R ^- 8 + 10%:R ^- 5 * t < 1000%:R^-1.
Proof.
move=> t1; apply: le_lt_trans tol_small.
by rewrite ler_add2l ler_pmul2l // invr_gt0 exprn_gt0 // ltr0n.
Qed.
Lemma sep_far0 (t : F) : 0 <= t -> t <= 1 -> 1000%:R^-1 <= t -> far t 0.
Proof. by move=> tp t1 t0; rewrite /far subr0 ger0_norm //; apply: lt_le_trans t0; exact: tol_le. Qed.
Lemma sep_far1 (t : F) : 0 <= t -> t <= 1 - 1000%:R^-1 -> far t 1.
Proof.
move=> tp t1; have i0 : 0 < 1000%:R^-1 :> F by rewrite invr_gt0 ltr0n.
have t2 : t <= 1 by apply: (le_trans t1); rewrite ler_subl_addr ler_addl ltW.
rewrite /far ger0_norm // distrC ger0_norm ?subr_ge0 //; apply: lt_le_trans (tol_le t2) _.
by rewrite ler_subr_addl -ler_subr_addr.
Qed.

Lemma sepP (s : seq F) T : size s = size T -> all (fun x => -1 <= x <= 1) s ->
  (forall i, (i < size T)%N -> inI (node_in 0 1 (nth 0 s i)) (nth izero T i)) -> sep_check T ->
  separated 0 1 s.
Proof.
move=> st /allP al h /(all_nthP izero) ck x /[dup] xs /(nthP 0) [i hi e]; subst x.
have /andP [x1 x2] := al _ xs; rewrite st in hi.
move: (h i hi) (ck i hi) x1 x2; move: (nth izero T i) (nth 0 s i) => [a b] x hI /andP [c1 c2] x1 x2.
have tE : node_in 0 1 x = (x + 1) / 2%:R by rewrite /node_in add0r subr0 mul1r.
have t0 : 0 <= node_in 0 1 x by rewrite tE divr_ge0 ?ler0n // -ler_subl_addr sub0r.
have t1 : node_in 0 1 x <= 1 by rewrite tE ler_pdivr_mulr ?ltr0n // mul1r -[2%:R]/(1 + 1) ler_add2r.
split=> nx.
  case/orP: c1 => [/andP [/= /Z.eqb_eq ea /Z.eqb_eq eb]|/Z.leb_le c1].
    case: nx; rewrite ea eb in hI; have := in_zeroE hI; rewrite tE => /eqP.
    by rewrite mulf_eq0 invr_eq0 pnatr_eq0 orbF addr_eq0 => /eqP.
  by apply: sep_far0 => //; case: hI => hI _; exact: sep_lo c1 hI.
case/orP: c2 => [/andP [/= /Z.eqb_eq ea /Z.eqb_eq eb]|/Z.leb_le c2].
  case: nx; rewrite ea eb in hI; have := sep_one hI; rewrite tE => /(congr1 ( *%R^~ 2%:R)).
  by rewrite divfK ?pnatr_eq0 // mul1r -[2%:R]/(1 + 1) => /addIr.
by apply: sep_far1 => //; case: hI => _ hI; exact: sep_hi c2 hI.
Qed.
End Stiff.
