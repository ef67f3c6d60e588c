(* Nodes returned by NodesGenerator.getNodes. *)
From Verif.Base Require Import Str.
From mathcomp Require Import all_ssreflect all_algebra ring.
From Verif.Base Require Import Outcome Arr LinSolve.
From Verif.Model Require Import Nodes.
From Verif.Spec Require Import NodesSpec.
From Verif.Proofs Require Import OrthoP NodesP.
Set Implicit Arguments.
Unset Strict Implicit.
Unset Printing Implicit Defensive.
Import GRing.Theory Num.Theory Order.TTheory.
Local Open Scope ring_scope.

Section Thms.
Variable F : realFieldType.
Variables (fpi : F) (eigh : seq F -> seq F -> seq F) (fsqrt : F -> F).
Implicit Types (a b f : nat -> F) (nt qt : string).

Definition sorted_roots (p : {poly F}) (s : seq F) : Prop :=
  [/\ sorted <%O s, (size s).+1 = size p & all (root p) s].

Lemma sorted_roots_prod (p : {poly F}) s : p \is monic -> sorted_roots p s -> p = \prod_(x <- s) ('X - x%:P).
Proof.
move=> mp [ss sz rs].
have us : uniq s by move: ss; rewrite lt_sorted_uniq_le => /andP [].
have ur : uniq_roots s by rewrite uniq_rootsE.
have := all_roots_prod_XsubC (esym sz) rs ur.
by rewrite (monicP mp) scale1r.
Qed.

Lemma sorted_roots_uniq (p : {poly F}) s t : p \is monic -> sorted_roots p s -> sorted_roots p t -> s = t.
Proof.
move=> mp hs ht; have ps := sorted_roots_prod mp hs; have pt := sorted_roots_prod mp ht.
case: hs ht => ss _ _ [st _ _].
apply: (irr_sorted_eq lt_trans (@ltxx _ _)) => // x.
by rewrite -!root_prod_XsubC -ps -pt.
Qed.

Lemma behead_mkseq f n : behead (mkseq f n) = mkseq (fun k => f k.+1) n.-1.
Proof. by case: n => [//|n]; rewrite /mkseq /= (iotaDl 1 0) -map_comp. Qed.

(* bounds on the roots of an admissible recurrence *)
Lemma rec_bounds nt qt n a b x : rec_ok fpi nt qt n a b -> (0 < n)%N -> root (op a b n) x ->
  [/\ -1 <= x <= 1, x = 1 -> has_right qt & x = -1 -> has_left qt].
Proof.
case: n => [//|m] [hb hr hl hR hL _ _ _] _ rx.
have rx' : (op (neg a) b m.+1).[- x] = 0.
  by rewrite op_refl opprK (rootP rx) mulr0.
have no c (d : nat -> F) y : (forall k, (k < m.+1)%N -> 0 < (op d b k).[1]) ->
   0 <= c -> (op d b m.+1).[1] = c -> (op d b m.+1).[y] = 0 -> y <= 1.
  move=> hd c0 ed ey; rewrite leNgt; apply/negP => y1.
  have [p0] := ratio_mono hb hd (ltW y1) (leqnn _).
  rewrite ey mul0r => le0.
  have : 0 < (op d b m.+1).[1] / (op d b m).[1] + (y - 1).
    by rewrite ltr_paddl ?subr_gt0 // ed divr_ge0 // ltW // hd.
  by move=> /lt_le_trans /(_ le0); rewrite ltxx.
have x1 : x <= 1.
  by case: (has_right qt) hR => hR; [exact: (no 0 a x hr (lexx _) hR (rootP rx))|exact: (no _ a x hr (ltW hR) erefl (rootP rx))].
have x2 : - x <= 1.
  by case: (has_left qt) hL => hL; [exact: (no 0 (neg a) _ hl (lexx _) hL rx')|exact: (no _ (neg a) _ hl (ltW hL) erefl rx')].
split; first by rewrite x1 ler_oppl x2.
  by move=> e; move: hR; case: ifP => // _; rewrite -e (rootP rx) ltxx.
by move=> e; move: hL; case: ifP => // _; rewrite -[1]opprK -e rx' ltxx.
Qed.

Notation eig_contract := (eig_contract fpi eigh fsqrt).

Lemma sqrt_facts nt qt n a b : rec_ok fpi nt qt n a b -> (0 < n)%N ->
  (forall x, x \in behead (mkseq b n) -> fsqrt x ^+ 2 = x) ->
  (forall k, (k.+1 < n)%N -> fsqrt (b k.+1) * fsqrt (b k.+1) = b k.+1) /\
  (forall k, (k.+1 < n)%N -> fsqrt (b k.+1) != 0).
Proof.
move=> ok n0 sq.
have sk k : (k.+1 < n)%N -> fsqrt (b k.+1) * fsqrt (b k.+1) = b k.+1.
  move=> kn; rewrite -expr2 sq // behead_mkseq; apply: (map_f (fun k => b k.+1)).
  by rewrite mem_iota /=; case: n kn {ok n0 sq}.
split=> // k kn; apply/eqP => e; have := sk k kn; rewrite e mul0r => /eqP.
by rewrite eq_sym gt_eqF // (rok_b ok).
Qed.

(* the eigenvalue solver of a given recurrence *)
Lemma eig_sorted nt qt n a b : rec_ok fpi nt qt n a b -> (0 < n)%N ->
  (forall x, x \in behead (mkseq b n) -> fsqrt x ^+ 2 = x) ->
  forall w, eig_ok (mkseq a n) (map fsqrt (behead (mkseq b n))) w ->
  sorted_roots (op a b n) (sort <=%O w).
Proof.
move=> ok n0 sq w; have [sk sn] := sqrt_facts ok n0 sq.
rewrite behead_mkseq -[map fsqrt _]map_comp => hw.
have [sw [uw rw]] := eigP sk sn hw n0.
have [szp mp] := size_op a b n.
split.
- by rewrite lt_sorted_uniq_le sort_uniq uw sort_le_sorted.
- by rewrite size_sort sw szp.
by apply/allP => x; rewrite mem_sort => /rw.
Qed.

Lemma last_sorted (s : seq F) x : sorted <%O s -> x \in s -> (forall y, y \in s -> y <= x) ->
  nth 0 s (size s).-1 = x.
Proof.
move=> ss xs hx; have s0 : (0 < size s)%N by case: s xs {ss hx}.
have ls : ((size s).-1 < size s)%N by rewrite prednK.
apply: le_anti; rewrite hx ?mem_nth //=.
have := xs; rewrite -index_mem => il; rewrite -{1}(nth_index 0 xs).
have : (index x s <= (size s).-1)%N by rewrite -ltnS prednK.
rewrite leq_eqVlt => /orP [/eqP -> //|lt]; apply: ltW.
by apply: (sorted_ltn_nth lt_trans) => //.
Qed.

Lemma head_sorted (s : seq F) x : sorted <%O s -> x \in s -> (forall y, y \in s -> x <= y) ->
  nth 0 s 0 = x.
Proof.
move=> ss xs hx; have s0 : (0 < size s)%N by case: s xs {ss hx}.
apply: le_anti; rewrite [x <= _]hx ?mem_nth //= andbT.
have := xs; rewrite -index_mem => il; rewrite -[X in _ <= X](nth_index 0 xs).
case: (posnP (index x s)) => [-> //|lt]; apply: ltW.
by apply: (sorted_ltn_nth lt_trans) => //.
Qed.

Lemma set_nth_id (s : seq F) k : (k < size s)%N -> set_nth 0 s k (nth 0 s k) = s.
Proof.
move=> ks; apply: (@eq_from_nth _ 0); rewrite size_set_nth (maxn_idPr _) // => i il.
by rewrite nth_set_nth /=; case: eqP => [->|].
Qed.

(* sorting the eigenvalues gives the nodes: forcing the end nodes is without effect *)
Lemma getNodesE nt qt (n : nat) : nt \in ORTHO -> qt \in QUAD_TYPES -> (0 < n)%N ->
  (has_left qt -> (1 < n)%N) -> eig_contract (NodesGen nt qt) n ->
  exists a b s, [/\ getTridiagCoefficients fpi (NodesGen nt qt) n = Ok (mkseq a n, mkseq b n),
    rec_ok fpi nt qt n a b, s = sort <=%O (eigh (mkseq a n) (map fsqrt (behead (mkseq b n)))),
    sorted_roots (op a b n) s & getNodes fpi eigh fsqrt (NodesGen nt qt) n%:Z = Ok s].
Proof.
move=> hnt hqt n0 hn ct; have [a [b [e ok]]] := tridiagE fpi hnt hqt n0 hn.
have [sq eg] := ct _ _ e.
exists a, b; eexists; split; [exact: e|exact: ok|reflexivity|exact: (eig_sorted ok n0 sq eg)|].
have sr := eig_sorted ok n0 sq eg; have [ss sz rs] := sr.
have [szp mp] := size_op a b n.
rewrite /getNodes [quadType _]/= -/(has_left qt) -/(has_right qt).
have -> : has_left qt && (n%:Z < 2) = false.
  by case: (has_left qt) hn => // /(_ isT) n1; apply/negbTE; rewrite -leNgt lez_nat.
have -> : (n%:Z < 1) = false by apply/negbTE; rewrite -leNgt lez_nat.
have -> : (nodeType (NodesGen nt qt) == "EQUID"%string) = false.
  by move: hnt; rewrite !inE => /or4P [|||/orP []] /eqP ->.
rewrite absz_nat e [X in X = _]/=; move: ss sz rs sr; set s := sort _ _ => ss sz rs sr.
have ps := sorted_roots_prod mp sr.
have szs : size s = n by apply: succn_inj; rewrite sz szp.
have bd x : x \in s -> -1 <= x <= 1.
  by move=> xs; have [] := rec_bounds ok n0 (allP rs x xs).
have E1 : (if has_right qt then set_last s 1 else s) = s.
  case: ifP => // hr; have := rok_R ok; rewrite hr => /rootP; rewrite ps root_prod_XsubC => r1.
  rewrite /set_last -[X in set_nth _ _ _ X](@last_sorted s 1) //; last by move=> y /bd /andP [].
  by rewrite set_nth_id // szs prednK.
rewrite E1; case: ifP => // hl; have := rok_L ok; rewrite hl.
have -> : (op (neg a) b n).[1] = (-1) ^+ n * (op a b n).[-1] by rewrite op_refl.
move/eqP; rewrite mulf_eq0 signr_eq0 /= => r1.
have {}r1 : -1 \in s by rewrite -root_prod_XsubC -ps.
rewrite -[X in set_nth _ _ _ X](@head_sorted s (-1)) //; last by move=> y /bd /andP [].
by rewrite set_nth_id // szs.
Qed.

(* the end points are nodes exactly when announced *)
Lemma ends_mem nt qt n a b s : rec_ok fpi nt qt n a b -> (0 < n)%N -> sorted_roots (op a b n) s ->
  ((-1 \in s) = has_left qt) * ((1 \in s) = has_right qt).
Proof.
move=> ok n0 sr; have [szp mp] := size_op a b n; have ps := sorted_roots_prod mp sr.
have mem x : (x \in s) = root (op a b n) x by rewrite ps root_prod_XsubC.
split; rewrite mem.
  apply/idP/idP => [r|h]; first by have [_ _] := rec_bounds ok n0 r; apply.
  by have := rok_L ok; rewrite h op_refl => /eqP; rewrite mulf_eq0 signr_eq0.
apply/idP/idP => [r|h]; first by have [_ + _] := rec_bounds ok n0 r; apply.
by have := rok_R ok; rewrite h => /rootP.
Qed.

(* the monic polynomials are the classical ones *)
Lemma clasS nt k : clas F nt k.+2 = if nt == "LEGENDRE"%string then
   (k.+2%:R)^-1 *: ((2 * k.+1 + 1)%:R *: ('X * clas F nt k.+1) - k.+1%:R *: clas F nt k)
   else 2%:R *: ('X * clas F nt k.+1) - clas F nt k.
Proof. by rewrite /clas /=; case: (clasp F nt k) => p q. Qed.

Fixpoint gam nt (k : nat) : F :=
  if k is k'.+1 then gam nt k' * (if nt == "LEGENDRE"%string then k%:R / (2 * k' + 1)%:R
     else if (nt == "CHEBY-1"%string) && (k' == 0%N) then 1 else 1 / 2%:R) else 1.

Lemma gamS nt k : gam nt k.+1 = gam nt k * (if nt == "LEGENDRE"%string then k.+1%:R / (2 * k + 1)%:R
     else if (nt == "CHEBY-1"%string) && (k == 0%N) then 1 else 1 / 2%:R).
Proof. by []. Qed.
Lemma gam_neq0 nt k : gam nt k != 0.
Proof.
elim: k => [|k ih] /=; first exact: oner_neq0.
rewrite mulf_neq0 //; case: ifP => _; first by rewrite mulf_neq0 ?invr_eq0 ?pnatr_eq0 ?addn1.
by case: ifP => _; rewrite ?oner_neq0 // mulf_neq0 ?oner_neq0 // invr_eq0 pnatr_eq0.
Qed.

Lemma op_clas nt k : nt \in ORTHO -> op (afun F nt) (bfun fpi nt) k = gam nt k *: clas F nt k.
Proof.
move=> hnt; elim/ltn_ind: k => -[|[|k]] ih.
- by rewrite op0 scale1r.
- rewrite op1 /clas /= /afun /clas1 /=; move: hnt {ih}.
  rewrite !inE => /or4P [|||/orP []] /eqP -> /=; rewrite ?polyC0 ?mul1r ?subr0 ?divr1 ?scale1r //.
  + by rewrite [(2 * 0 + 1)%:R]/(1%:R) invr1 scale1r.
  + by rewrite scalerA mulVf ?scale1r // pnatr_eq0.
  + by rewrite scalerBr scalerA mulVf ?scale1r ?pnatr_eq0 // -alg_polyC.
  by rewrite scalerDr scalerA mulVf ?scale1r ?pnatr_eq0 // polyCN opprK -alg_polyC.
rewrite opS (ih k.+1) // (ih k) ?(ltnW (leqnn _)) // {ih} clasS.
have -> : afun F nt k.+1 = 0 by [].
rewrite subr0 -scalerAr mul_polyC scalerA.
have lg (x y u v : F) p q : x = u -> y = v -> x *: p - y *: q = u *: p - v *: q :> {poly F} by move=> -> ->.
case: ifP => hl.
  rewrite scalerA scalerBr !scalerA; have g := gam_neq0 nt k.
  apply: lg; rewrite !gamS ?hl.
    have n1 : k.+2%:R != 0 :> F by rewrite pnatr_eq0.
    have n2 : (2 * k.+1 + 1)%:R != 0 :> F by rewrite pnatr_eq0 addn1.
    by move: (k.+2%:R) ((2 * k.+1 + 1)%:R) (_ * (_ / _)) n1 n2 => x y z n1 n2; field; rewrite n1 n2.
  rewrite /bfun hl -[k.+1 == 0%N]/false.
  have e1 : (2 * k.+1 + 1)%:R = 2%:R * k%:R + 3%:R :> F by rewrite mulnS addnAC natrD natrM addrC [(2 + 1)%N]/= addrC.
  have e2 : (2 * k + 1)%:R = 2%:R * k%:R + 1 :> F by rewrite natrD natrM.
  have e3 : k.+1%:R = k%:R + 1 :> F by rewrite -natr1.
  have e4 : k.+2%:R = k%:R + 1 + 1 :> F by rewrite -!natr1.
  rewrite e4 e1 e2 e3.
  have n1 : k%:R + 1 + 1 != 0 :> F by rewrite -e4 pnatr_eq0.
  have n2 : 2%:R * k%:R + 3%:R != 0 :> F by rewrite -e1 pnatr_eq0 addn1.
  have n3 : 2%:R * k%:R + 1 != 0 :> F by rewrite -e2 pnatr_eq0 addn1.
  have -> : 4%:R * (k%:R + 1) ^+ 2 - 1 = (2%:R * k%:R + 3%:R) * (2%:R * k%:R + 1) :> F by ring.
  by move: (k%:R) (gam nt k) n1 n2 n3 => x z n1 n2 n3; field; rewrite n1 n2 n3.
rewrite scalerBr scalerA; apply: lg; rewrite !gamS hl -[k.+1 == 0%N]/false andbF.
  by field.
rewrite /bfun hl -[k.+1 == 0%N]/false eqSS; by case: ifP => h; field.
Qed.

(* nodal polynomial in terms of the unmodified recurrence *)
Lemma op_mod nt qt n a b : rec_ok fpi nt qt n a b -> (0 < n)%N ->
  let A := afun F nt in let B := bfun fpi nt in
  exists c d, [/\ op a b n = op A B n + c *: op A B n.-1 + d *: (opp A B n.-1).1,
    qt = "GAUSS"%string -> c = 0 /\ d = 0 & is_radau qt -> d = 0].
Proof.
case: n => [//|m] ok _ A B; exists (A m - a m), (B m - b m).
have e : opp a b m = opp A B m.
  by apply: op_ext => j jm; have [] := rok_ab ok jm.
split.
- rewrite /op /= e; case: (opp A B m) => p q /=; rewrite -!mul_polyC !polyCB; ring.
- by move=> h; have [/= -> ->] := rok_G ok h; rewrite !subrr.
by move=> h; have /= -> := rok_RD ok h; rewrite subrr.
Qed.

(* the admissible recurrence is unique *)
Lemma rec_uniq nt qt n a b a' b' : rec_ok fpi nt qt n a b -> rec_ok fpi nt qt n a' b' ->
  qt \in QUAD_TYPES -> (0 < n)%N -> (has_left qt -> (1 < n)%N) -> op a b n = op a' b' n.
Proof.
case: n => [//|m] ok ok' hqt _ hn.
have e : opp a b m = opp a' b' m.
  by apply: op_ext => j jm; have [ea eb] := rok_ab ok jm; have [ea' eb'] := rok_ab ok' jm; rewrite ?ea ?eb ?ea' ?eb'.
have e' : opp (neg a) b m = opp (neg a') b' m.
  by apply: op_ext => j jm; rewrite /neg; have [ea eb] := rok_ab ok jm; have [ea' eb'] := rok_ab ok' jm; rewrite ?ea ?eb ?ea' ?eb'.
suff [ea eb] : a m = a' m /\ b m = b' m by rewrite /op /= e ea eb.
have Q := rok_r ok (leqnn _); have q := rok_l ok (leqnn _).
have R := rok_R ok; have L := rok_L ok; have R' := rok_R ok'; have L' := rok_L ok'.
rewrite !horner_step in R L R' L'; rewrite [op a' b' m]/op [op (neg a') b' m]/op -!e -!e' -/(op a b m) -/(op (neg a) b m) in R' L'.
rewrite [neg a m]/neg [neg a' m]/neg !opprK in L L'.
have cancel (x y z : F) : 0 < z -> x * z = y * z -> x = y by move=> z0; apply: mulIf; rewrite gt_eqF.
move: hqt; rewrite !inE => /or4P [] /eqP eqt; subst qt.
- by have [-> ->] := rok_G ok erefl; have [-> ->] := rok_G ok' erefl.
- have eb : b m = b' m by rewrite (rok_RD ok) // (rok_RD ok').
  split=> //; rewrite eb in L; apply: (addrI 1); apply: (cancel _ _ _ q).
  by apply/eqP; rewrite -subr_eq0; apply/eqP; rewrite -[RHS](subrr 0) -{1}L -L'; ring.
- have eb : b m = b' m by rewrite (rok_RD ok) // (rok_RD ok').
  split=> //; rewrite eb in R; apply: oppr_inj; apply: (addrI 1); apply: (cancel _ _ _ Q).
  by apply/eqP; rewrite -subr_eq0; apply/eqP; rewrite -[RHS](subrr 0) -{1}R -R'; ring.
have m0 : (0 < m)%N by apply: hn.
have P : 0 < (opp a b m).1.[1].
  by case: m m0 ok {e e' ok' Q q R L R' L' hn} => [//|k] _ ok; rewrite opp1; apply: (rok_r ok).
have p : 0 < (opp (neg a) b m).1.[1].
  by case: m m0 ok {e e' ok' Q q R L R' L' hn P} => [//|k] _ ok; rewrite opp1; apply: (rok_l ok).
move: (opp a b m).1.[1] (opp (neg a) b m).1.[1] (op a b m).[1] (op (neg a) b m).[1] P p Q q R L R' L'.
move=> P p Q q P0 p0 Q0 q0 /= R L R' L'.
have cp : 0 < P * q + p * Q by rewrite addr_gt0 // mulr_gt0.
have eb : b m = b' m.
  apply: (cancel _ _ _ cp); apply/eqP; rewrite -subr_eq0; apply/eqP.
  have -> : b m * (P * q + p * Q) - b' m * (P * q + p * Q) =
     q * (((1 - a' m) * Q - b' m * P) - ((1 - a m) * Q - b m * P)) +
     Q * (((1 + a' m) * q - b' m * p) - ((1 + a m) * q - b m * p)) by ring.
  by rewrite R L R' L' subrr !mulr0 addr0.
split=> //; rewrite eb in R; apply: oppr_inj; apply: (addrI 1); apply: (cancel _ _ _ Q0).
by apply/eqP; rewrite -subr_eq0; apply/eqP; rewrite -[RHS](subrr 0) -{1}R -R'; ring.
Qed.

(* mirror image *)
Lemma rec_mirror nt qt n a b : nt \in ORTHO -> qt \in QUAD_TYPES -> rec_ok fpi nt qt n a b ->
  rec_ok fpi (mirror_nt nt) (mirror_qt qt) n (neg a) b.
Proof.
move=> hnt hqt [hb hr hl hR hL hab hG hRD].
have nn k : opp (neg (neg a)) b k = opp a b k by apply: op_ext => // j _; rewrite /neg opprK.
have hRm : has_right (mirror_qt qt) = has_left qt.
  by move: hqt; rewrite !inE => /or4P [] /eqP ->.
have hLm : has_left (mirror_qt qt) = has_right qt.
  by move: hqt; rewrite !inE => /or4P [] /eqP ->.
split=> //.
- by move=> k kn; rewrite /op nn; apply: hr.
- by rewrite hRm.
- by rewrite hLm /op nn.
- by move=> k kn; have [ea eb] := hab k kn; rewrite /mirror_nt -afun_neg // -bfun_neg // /neg ea.
- have h : mirror_qt qt = "GAUSS"%string -> qt = "GAUSS"%string.
    by move: hqt; rewrite !inE => /or4P [] /eqP ->.
  by move=> /h /hG [ea eb]; rewrite /mirror_nt -afun_neg // -bfun_neg // /neg ea.
have h : is_radau (mirror_qt qt) -> is_radau qt by move: hqt; rewrite !inE => /or4P [] /eqP ->.
by move=> /h /hRD eb; rewrite /mirror_nt -bfun_neg.
Qed.

Lemma sorted_mirror (s : seq F) : sorted <%O s -> sorted <%O (rev (map -%R s)).
Proof.
rewrite rev_sorted sorted_map; apply: sub_sorted => x y /=.
by rewrite ltr_oppl opprK.
Qed.

Lemma nodes_mirror nt qt n a b a' b' s s' : nt \in ORTHO -> qt \in QUAD_TYPES ->
  rec_ok fpi nt qt n a b -> rec_ok fpi (mirror_nt nt) (mirror_qt qt) n a' b' -> (0 < n)%N ->
  (has_left qt -> (1 < n)%N) -> (has_right qt -> (1 < n)%N) ->
  sorted_roots (op a b n) s -> sorted_roots (op a' b' n) s' -> s' = rev (map -%R s).
Proof.
move=> hnt hqt ok ok' n0 hl hr [ss sz rs] sr'.
have hqt' : mirror_qt qt \in QUAD_TYPES by move: hqt; rewrite !inE => /or4P [] /eqP ->.
have hl' : has_left (mirror_qt qt) -> (1 < n)%N.
  by move=> h; apply: hr; move: hqt h; rewrite !inE => /or4P [] /eqP ->.
have e := rec_uniq ok' (rec_mirror hnt hqt ok) hqt' n0 hl'.
have [szp mp] := size_op (neg a) b n; have [szq _] := size_op a b n.
apply: (sorted_roots_uniq mp); rewrite -?e //; split.
- exact: sorted_mirror.
- by rewrite size_rev size_map sz szq e szp.
apply/allP => x; rewrite mem_rev => /mapP [y ys ->].
by rewrite e /root op_refl opprK (rootP (allP rs y ys)) mulr0.
Qed.
End Thms.

Section Equid.
Variable F : realFieldType.
Variables (fpi : F) (eigh : seq F -> seq F -> seq F) (fsqrt : F -> F).

(* offset, denominator of the equidistant nodes *)
Definition equid (qt : string) (n : nat) (i : nat) : F :=
  if qt == "GAUSS"%string then -1 + 2%:R * i.+1%:R / n.+1%:R
  else if qt == "LOBATTO"%string then -1 + 2%:R * i%:R / n.-1%:R
  else if qt == "RADAU-RIGHT"%string then -1 + 2%:R * i.+1%:R / n%:R
  else -1 + 2%:R * i%:R / n%:R.

Lemma linspaceE (n : nat) : (1 < n)%N -> linspace (-1) 1 n = mkseq (fun i => -1 + 2%:R * i%:R / n.-1%:R) n :> seq F.
Proof.
move=> n1; rewrite /linspace gtn_eqF //; apply: eq_map => i.
have -> : 1 - -1 = 2%:R :> F by ring.
by move: (_^-1) (i%:R) => x y; ring.
Qed.

Lemma getNodes_equid qt (n : nat) : qt \in QUAD_TYPES -> (0 < n)%N -> (has_left qt -> (1 < n)%N) ->
  getNodes fpi eigh fsqrt (NodesGen "EQUID" qt) n%:Z = Ok (mkseq (equid qt n) n).
Proof.
move=> hqt n0 hn; rewrite /getNodes [quadType _]/= -/(has_left qt) [nodeType _]/= eqxx absz_nat.
have -> : has_left qt && (n%:Z < 2) = false.
  by case: (has_left qt) hn => // /(_ isT) n1; apply/negbTE; rewrite -leNgt lez_nat.
have -> : (n%:Z < 1) = false by apply/negbTE; rewrite -leNgt lez_nat.
move: hqt; rewrite !inE => /or4P [] /eqP eqt; subst qt; rewrite /equid /=.
- rewrite linspaceE ?addn2 // behead_mkseq but_last_mkseq; congr Ok; exact: eq_map.
- by rewrite linspaceE ?addn1 // but_last_mkseq.
- by rewrite linspaceE ?addn1 // behead_mkseq.
by rewrite linspaceE //; apply: hn.
Qed.

Lemma sorted_mkseq (f : nat -> F) n : (forall i, (i.+1 < n)%N -> f i < f i.+1) -> sorted <%O (mkseq f n).
Proof.
move=> h; apply/(sortedP 0) => i; rewrite size_mkseq => il.
by rewrite !nth_mkseq ?h // ltnW.
Qed.

(* common step *)
Definition equid_den qt n : nat :=
  if qt == "GAUSS"%string then n.+1 else if qt == "LOBATTO"%string then n.-1 else n.
Lemma equid_step qt n i : equid qt n i.+1 - equid qt n i = 2%:R / (equid_den qt n)%:R.
Proof.
rewrite /equid /equid_den; have e k : k.+1%:R = k%:R + 1 :> F by rewrite natr1.
case: ifP => _; last case: ifP => _; last case: ifP => _; rewrite ?(e i.+1) ?(e i).
- by move: (n.+1%:R^-1) (i%:R) => x y; ring.
- by move: (n.-1%:R^-1) (i%:R) => x y; ring.
- by move: (n%:R^-1) (i%:R) => x y; ring.
by move: (n%:R^-1) (i%:R) => x y; ring.
Qed.

Lemma equid_props qt (n : nat) : qt \in QUAD_TYPES -> (0 < n)%N -> (has_left qt -> (1 < n)%N) ->
  let s := mkseq (equid qt n) n in
  [/\ sorted <%O s, all (fun x => -1 <= x <= 1) s, (-1 \in s) = has_left qt & (1 \in s) = has_right qt].
Proof.
move=> hqt n0 hn s.
have d0 : (0 < equid_den qt n)%N.
  rewrite /equid_den; case: ifP => // _; case: ifP => // /eqP e; move: hn; rewrite e => /(_ isT).
  by case: n {n0 s} => [|[]].
have st : 0 < 2%:R / (equid_den qt n)%:R :> F by rewrite divr_gt0 // ltr0n.
have ss : sorted <%O s.
  by apply: sorted_mkseq => i _; rewrite -subr_gt0 equid_step.
pose o := (if has_left qt then 0 else 1)%N.
have eq_i i : equid qt n i = -1 + 2%:R * (i + o)%:R / (equid_den qt n)%:R.
  rewrite /o /equid /equid_den; move: hqt.
  by rewrite !inE => /or4P [] /eqP -> /=; rewrite ?addn0 ?addn1.
have last1 : (n.-1 + o <= equid_den qt n)%N /\ ((n.-1 + o == equid_den qt n)%N = has_right qt).
  rewrite /o /equid_den; move: hqt; rewrite !inE => /or4P [] /eqP e; rewrite e /=.
  - by rewrite addn1 prednK // leqnSn ltn_eqF.
  - by rewrite addn0 leq_pred ltn_eqF // prednK.
  - by rewrite addn1 prednK // leqnn eqxx.
  by rewrite addn0 leqnn eqxx.
have dn : (equid_den qt n)%:R != 0 :> F by rewrite pnatr_eq0 -lt0n.
have ge i : -1 <= equid qt n i.
  by rewrite eq_i ler_addl divr_ge0 ?mulr_ge0 ?ler0n.
have le1 k : (k <= equid_den qt n)%N = (-1 + 2%:R * k%:R / (equid_den qt n)%:R <= 1 :> F).
  rewrite -subr_ge0.
  have -> : 1 - (-1 + 2%:R * k%:R / (equid_den qt n)%:R) = 2%:R / (equid_den qt n)%:R * ((equid_den qt n)%:R - k%:R) :> F.
    by field.
  by rewrite pmulr_rge0 // subr_ge0 ler_nat.
have eq1 k : (k == equid_den qt n)%N = (-1 + 2%:R * k%:R / (equid_den qt n)%:R == 1 :> F).
  rewrite -[RHS]subr_eq0.
  have -> : -1 + 2%:R * k%:R / (equid_den qt n)%:R - 1 = 2%:R / (equid_den qt n)%:R * (k%:R - (equid_den qt n)%:R) :> F.
    by field.
  by rewrite mulf_eq0 (gt_eqF st) /= subr_eq0 eqr_nat.
split=> //.
- apply/allP => x /mapP [i]; rewrite mem_iota add0n => il ->; rewrite ge /= eq_i -le1.
  by apply: leq_trans (proj1 last1); rewrite leq_add2r -ltnS prednK.
- apply/mapP/idP => [[i _]|h].
    rewrite eq_i => /eqP; rewrite -subr_eq0 => h; apply/negPn/negP => hl; move: h.
    have -> : -1 - (-1 + 2%:R * (i + o)%:R / (equid_den qt n)%:R) = - (2%:R * (i + o)%:R / (equid_den qt n)%:R) :> F by move: (_ / _) => z; ring.
    by rewrite oppr_eq0 !mulf_eq0 invr_eq0 !pnatr_eq0 /o (negbTE hl) addn1 /= -leqn0 leqNgt d0.
  exists 0%N; first by rewrite mem_iota.
  by rewrite eq_i /o h /= mulr0 mul0r addr0.
rewrite -(proj2 last1); apply/mapP/idP => [[i]|h].
  rewrite mem_iota add0n => il; rewrite eq_i => /esym /eqP; rewrite -eq1 => /eqP e.
  rewrite eqn_leq (proj1 last1) -e leq_add2r -ltnS prednK //.
exists n.-1; first by rewrite mem_iota /= add0n prednK.
by rewrite eq_i; apply/esym/eqP; rewrite -eq1.
Qed.

Lemma equid_mirror qt n : qt \in QUAD_TYPES -> (0 < n)%N -> (has_left qt -> (1 < n)%N) ->
  mkseq (equid (mirror_qt qt) n) n = rev (map -%R (mkseq (equid qt n) n)).
Proof.
move=> hqt n0 hn; apply: (@eq_from_nth _ 0); rewrite ?size_rev ?(size_map -%R) !size_mkseq // => i il.
have jl : (n - i.+1 < n)%N by rewrite ltn_subLR // addSn ltnS leq_addl.
rewrite nth_mkseq // nth_rev (size_map -%R) size_mkseq // (nth_map 0) ?size_mkseq // nth_mkseq //.
have e k : k.+1%:R = k%:R + 1 :> F by rewrite natr1.
have nn : n%:R != 0 :> F by rewrite pnatr_eq0 -lt0n.
have n1 : n.+1%:R != 0 :> F by rewrite pnatr_eq0.
have ej : (n - i.+1)%:R = n%:R - i%:R - 1 :> F by rewrite natrB // e; ring.
rewrite /equid; move: hqt; rewrite !inE => /or4P [] /eqP eqt; subst qt; rewrite [mirror_qt _]/= /=.
- rewrite !e ej; rewrite e in n1.
  by move: (n%:R) (i%:R) n1 => x y n1; field.
- by rewrite !e ej; move: (n%:R) (i%:R) nn => x y nn; field.
- by rewrite !e ej; move: (n%:R) (i%:R) nn => x y nn; field.
have n2 := hn isT; have em : n%:R = n.-1%:R + 1 :> F by rewrite natr1 prednK.
have nm : n.-1%:R != 0 :> F by rewrite pnatr_eq0; case: n n2 {nn n1 il jl ej em hn n0} => [|[]].
by rewrite ej em; move: (n.-1%:R) (i%:R) nm => x y nm; field.
Qed.
End Equid.
