(* Properties C40-C42 and C63: diagonal sweeps. *)
From Coq Require Import ZArith QArith Qcanon.
From Verif.Base Require Import Str.
From mathcomp Require Import all_ssreflect all_algebra ring zify.
From Verif.Base Require Import QcField Outcome Arr Ext PolyInterp PolyInt.
From Verif.Model Require Import Lagrange QGen Nodes Collocation Sweeps.
From Verif.Spec Require Import LagrangeSpec NodesSpec CollSpec SweepSpec.
From Verif.Proofs Require Import LagrangeP LagrangeInit LagrangeThms OrthoP NodesP NodesThms QuadP CollP NilP.
From Verif.Properties Require Import CollProps.
Set Implicit Arguments.
Unset Strict Implicit.
Unset Printing Implicit Defensive.
Import GRing.Theory Num.Theory Order.TTheory.
Local Open Scope ring_scope.

Section Index.
Variable F : realFieldType.
Implicit Type nodes : seq F.

Lemma diag_divE nodes x : is_diag (diag_div nodes x) [seq y / x | y <- nodes].
Proof.
have sh := diagm_shape nodes; have [z h] := is_shapeP _ _ _ sh.
rewrite /is_diag size_map /diag_div; split.
  apply/is_shapeP; rewrite size_map z; split=> // i il.
  by rewrite (nth_map [::]) ?z // size_map h.
move=> i j il jl; rewrite /ent (nth_map [::]) ?z // (nth_map 0) ?h // -[nth 0 (nth _ _ _) _]/(ent _ i j).
by rewrite ent_diagm //; case: eqP => _; rewrite ?mul0r // (nth_map 0).
Qed.

(* C42: values of k below 1 *)
Theorem C42_invalid nodes (k : int) : k < 1 ->
  qd_Jumper nodes (Some k) = Raise ValueError /\ qd_FlexJumper nodes (Some k) = Raise ValueError.
Proof. by move=> k1; rewrite /qd_Jumper /qd_FlexJumper /check_k k1. Qed.

(* C42: None stands for 1 *)
Theorem C42_none nodes : qd_Jumper nodes None = qd_Jumper nodes (Some 1) /\
  qd_FlexJumper nodes None = qd_FlexJumper nodes (Some 1).
Proof. by []. Qed.

Theorem C42_jumper nodes (k : nat) : exists2 A,
  qd_Jumper nodes (Some k.+1%:Z) = Ok A & is_diag A [seq x / (2 * k.+1)%:R | x <- nodes].
Proof. by eexists; [reflexivity|rewrite natrM; exact: diag_divE]. Qed.

Theorem C42_flexjumper nodes :
  (exists2 A, qd_FlexJumper nodes (Some 1) = Ok A & is_diag A nodes) /\
  forall k : nat, qd_FlexJumper nodes (Some k.+2%:Z) = qd_Jumper nodes (Some k.+1%:Z).
Proof.
split; last first.
  move=> k; rewrite /qd_FlexJumper /qd_Jumper /check_k /= .
  by have -> : (k.+2%:Z - 1 = k.+1%:Z)%R by lia.
eexists; first by [].
by have := diag_divE nodes 1; have -> : [seq y / 1 | y <- nodes] = nodes by
  rewrite -[RHS]map_id; apply: eq_map => y; rewrite divr1.
Qed.

Theorem C42_dnodes d nodes k : exists2 A,
  qd_DNODES d nodes k = Ok A & is_diag A [seq x / d%:R | x <- nodes].
Proof. by eexists; [reflexivity|exact: diag_divE]. Qed.

Theorem C42_minsrns nodes k : exists2 A,
  qd_MIN_SR_NS nodes k = Ok A & is_diag A [seq x / (size nodes)%:R | x <- nodes].
Proof. by eexists; [reflexivity|exact: diag_divE]. Qed.
End Index.

Section Coll.
Variable F : realFieldType.
(* oracles, restricted by the premises ok, lg and rl *)
Variables (fpi : F) (eigh : seq F -> seq F -> seq F) (fsqrt : F -> F).
Variables (flog fexp : F -> F) (underflow : seq F -> bool).
Variables (leggauss roots_legendre fejer : nat -> outcome (seq F * seq F)).
Variable fsolve : (seq F -> seq F) -> seq F -> seq F.
Variable fitlaw : seq F -> seq F -> F * F.
Variable fpow : F -> F -> F.
Notation cinit := (coll_init fpi eigh fsqrt flog fexp underflow leggauss roots_legendre fejer).
Notation minsrs := (qd_MIN_SR_S fpi eigh fsqrt flog fexp underflow leggauss roots_legendre fejer fsolve fitlaw fpow).
Notation minflex := (qd_MIN_SR_FLEX fpi eigh fsqrt flog fexp underflow leggauss roots_legendre fejer fsolve fitlaw fpow).

(* C42: MIN-SR-FLEX *)
Theorem C42_flex nt qt (c : coll F) : let M := size (co_nodes c) in
  (forall k : int, k < 1 -> minflex nt qt c (Some k) = Raise ValueError) /\
  minflex nt qt c None = minflex nt qt c (Some 1) /\
  (forall k : nat, (0 < k <= M)%N -> exists2 A,
     minflex nt qt c (Some k%:Z) = Ok A & is_diag A [seq x / k%:R | x <- co_nodes c]) /\
  (forall k : nat, (M < k)%N -> minflex nt qt c (Some k%:Z) = minsrs nt qt c None) /\
  (forall k k', minsrs nt qt c k = minsrs nt qt c k').
Proof.
move=> M; split; first by move=> k k1; rewrite /qd_MIN_SR_FLEX /check_k k1.
split=> //; split; last split=> //; rewrite /qd_MIN_SR_FLEX /check_k.
  case=> // k /= kM; rewrite lez_nat kM.
  by eexists; [reflexivity|exact: diagm_is_diag].
by case=> // k kM; rewrite /= lez_nat leqNgt kM.
Qed.

Section One.
Variables (nt qt : string) (M : nat) (b : F).
Hypothesis ok : nodes_ok fpi eigh fsqrt nt qt M.
Hypothesis b0 : 0 < b.
Hypothesis lg : logs_all flog fexp underflow.
Hypothesis rl : rules_ok leggauss roots_legendre fejer M "FEJER".
Variable c : coll F.
Hypothesis ec : cinit M%:Z nt qt 0 b = Ok c.
Let tau := co_nodes c.

Let facts : exists Q, [/\ co_Q c = fmat Q, is_shape Q M M, size tau = M, sorted <%O tau &
  forall P : {poly F}, (size P <= M.+1)%N -> mv Q (pvals P^`() tau) = [seq P.[t] - P.[0] | t <- tau]].
Proof.
have [z [s _]] := C21_nodes ok b0 lg rl ec.
have [Q [w [eQ [_ [sQ [_ [h _]]]]]]] := C21_exact ok b0 lg rl ec; exists Q; split=> // P sP.
by have [] := h P sP.
Qed.

(* C40: in the non stiff limit MIN-SR-NS converges in M sweeps, for every interval [0, b] *)
Theorem C40_nilpotent k : exists Q QD, [/\ co_Q c = fmat Q, qd_MIN_SR_NS tau k = Ok QD,
  is_shape Q M M, is_shape QD M M & mpow (mxl M M Q - mxl M M QD) M = 0].
Proof.
have [Q [eQ sQ zt st ex]] := facts; have [QD eD dD] := C42_minsrns tau k.
exists Q, QD; move: (dD) => [shD _]; rewrite size_map zt in shD; split=> //.
apply: (@raise_nil F M (@nd _ tau M) (nd_inj zt st) _ (fun k => k%:R^-1 - M%:R^-1)); first by rewrite subrr.
move=> j jM; rewrite mulmxBl (Q_pow zt sQ ex jM) scalerBl; congr (_ - _).
have := is_diag_pv (@nd _ tau (size [seq x / (size tau)%:R | x <- tau])) 'X^j dD.
rewrite size_map zt => ->; apply/colP => i; rewrite !mxE (nth_map 0) ?zt // !hornerXn /nd exprS.
by rewrite mulrA; congr (_ * _); rewrite mulrC.
Qed.
End One.

Section Unit.
Variables (nt qt : string) (M : nat).
Hypothesis ok : nodes_ok fpi eigh fsqrt nt qt M.
Hypothesis lg : logs_all flog fexp underflow.
Hypothesis rl : rules_ok leggauss roots_legendre fejer M "FEJER".
Variable c : coll F.
Hypothesis ec : cinit M%:Z nt qt 0 1 = Ok c.
Let tau := co_nodes c.

Let facts : exists Q, [/\ co_Q c = fmat Q, is_shape Q M M, size tau = M, sorted <%O tau &
  forall P : {poly F}, (size P <= M.+1)%N -> mv Q (pvals P^`() tau) = [seq P.[t] - P.[0] | t <- tau]].
Proof.
have [z [s _]] := C21_nodes ok ltr01 lg rl ec.
have [Q [w [eQ [_ [sQ [_ [h _]]]]]]] := C21_exact ok ltr01 lg rl ec; exists Q; split=> // P sP.
by have [] := h P sP.
Qed.

(* C41: in the stiff limit MIN-SR-FLEX converges as soon as each index 1 .. M was used, in any order *)
Theorem C41_product (ks : seq nat) : 0 \notin tau ->
  all (fun k => 0 < k <= M)%N ks -> (forall k, (0 < k <= M)%N -> k \in ks) ->
  exists Q (QD : nat -> seq (seq F)), [/\ co_Q c = fmat Q, is_shape Q M M,
    forall k, k \in ks -> minflex nt qt c (Some k%:Z) = Ok (QD k) /\ is_shape (QD k) M M &
    foldr (fun k A => (1%:M - invmx (mxl M M (QD k)) *m mxl M M Q) *m A) 1%:M ks = 0].
Proof.
have [Q [eQ sQ zt st ex]] := facts => t0 ka kc; exists Q, (fun k => diagm [seq x / k%:R | x <- tau]).
have [_ [_ [fl _]]] := C42_flex nt qt c; split=> //.
  move=> k /(allP ka) hk; have [|A -> dA] := fl k; first by rewrite -/tau zt.
  have sh := diagm_shape [seq x / k%:R | x <- tau]; rewrite size_map zt in sh; split=> //.
  by congr (Ok _); apply: (is_diag_inj dA); exact: diagm_is_diag.
have x0 (i : 'I_M) : nd tau i != 0 by apply: contraNneq t0 => <-; rewrite /nd mem_nth ?zt.
apply: (flex_nil (e := 0) (nd_inj zt st)) => //.
- by move=> k kM; rewrite addn0 Q_pow.
- move=> k kk; have dA := diagm_is_diag [seq x / k%:R | x <- tau].
  have k0 : k%:R != 0 :> F by rewrite pnatr_eq0 -lt0n; have /andP [] := allP ka k kk.
  split.
    have := is_diag_unit dA; rewrite size_map zt; apply; apply/mapP => -[x xt /esym /eqP].
    by rewrite mulf_eq0 invr_eq0 (negPf k0) orbF => /eqP e; move: t0; rewrite -e xt.
  move=> j; have := is_diag_pv (@nd _ tau (size [seq x / k%:R | x <- tau])) 'X^j dA.
  rewrite size_map zt => ->; apply/colP => i; rewrite !mxE (nth_map 0) ?zt // !hornerXn /nd exprS.
  by rewrite mulrA; congr (_ * _); rewrite mulrC.
- by apply/negP => /(allP ka).
by move=> k kM; apply: kc; rewrite addn0.
Qed.

(* C41: with a zero first node, on the other nodes; the index 1 is then not needed *)
Theorem C41_product_left (ks : seq nat) : has_left qt ->
  all (fun k => 0 < k <= M)%N ks -> (forall k, (1 < k <= M)%N -> k \in ks) ->
  exists n Q (QD : nat -> seq (seq F)), [/\ M = n.+1, co_Q c = fmat Q, is_shape Q M M,
    forall k, k \in ks -> minflex nt qt c (Some k%:Z) = Ok (QD k) /\ is_shape (QD k) M M &
    foldr (fun k A => (1%:M - invmx (\matrix_(i < n, j < n) ent (QD k) i.+1 j.+1) *m
      \matrix_(i < n, j < n) ent Q i.+1 j.+1) *m A) 1%:M ks = 0].
Proof.
have [Q [eQ sQ zt st ex]] := facts => hl ka kc.
have t0 := C22_left_is_node ok ltr01 lg rl ec hl; rewrite -/tau in t0.
have M0 : (0 < M)%N by have [_ _ hM _] := ok; have [] := least_pos hM.
pose n := M.-1; have Mn : M = n.+1 by rewrite prednK.
exists n, Q, (fun k => diagm [seq x / k%:R | x <- tau]).
have [_ [_ [fl _]]] := C42_flex nt qt c; split=> //.
  move=> k /(allP ka) hk; have [|A -> dA] := fl k; first by rewrite -/tau zt.
  have sh := diagm_shape [seq x / k%:R | x <- tau]; rewrite size_map zt in sh; split=> //.
  by congr (Ok _); apply: (is_diag_inj dA); exact: diagm_is_diag.
rewrite Mn in zt sQ ex.
have [z' te] : exists z', tau = 0 :: z'.
  by case: (tau) zt t0 => // x s _ /= ->; exists s.
have zz : size z' = n by move: zt; rewrite te => -[].
have sz : sorted <%O z' by move: st; rewrite te => /path_sorted.
have p0 x : x \in z' -> x != 0.
  by move=> xz; move: st; rewrite te /= lt_path_sortedE => /andP [/allP /(_ x xz) /gt_eqF -> _].
have x0 (i : 'I_n) : nd z' i != 0 by apply: p0; rewrite /nd mem_nth ?zz.
have mE A : is_shape A n.+1 n.+1 -> \matrix_(i < n, j < n) ent A i.+1 j.+1 = mxl n n (sub1 A).
  by move=> sA; apply/matrixP => i j; rewrite !mxE (ent_sub1 _ sA).
have shk k : is_shape (diagm [seq x / k%:R | x <- tau]) n.+1 n.+1.
  by have := diagm_shape [seq x / k%:R | x <- tau]; rewrite size_map zt.
rewrite mE //.
have -> : foldr (fun k A => (1%:M - invmx (\matrix_(i < n, j < n) ent (diagm [seq x / k%:R | x <- tau]) i.+1 j.+1)
     *m mxl n n (sub1 Q)) *m A) 1%:M ks =
   foldr (fun k A => (1%:M - invmx (mxl n n (sub1 (diagm [seq x / k%:R | x <- tau]))) *m mxl n n (sub1 Q)) *m A) 1%:M ks.
  by elim: ks {ka kc} => //= k ks ->; rewrite mE.
apply: (flex_nil (e := 1) (nd_inj zz sz)) => //.
- move=> k kn; have := Q_pow1 zt t0 sQ ex kn; rewrite te /=; exact.
- move=> k kk.
  have dA : is_diag (sub1 (diagm [seq x / k%:R | x <- tau])) [seq x / k%:R | x <- z'].
    by apply: (@is_diag_sub1 _ _ (0 / k%:R)); rewrite te; exact: diagm_is_diag.
  have k0 : k%:R != 0 :> F by rewrite pnatr_eq0 -lt0n; have /andP [] := allP ka k kk.
  split.
    have := is_diag_unit dA; rewrite size_map zz; apply; apply/mapP => -[x xt /esym /eqP].
    by rewrite mulf_eq0 invr_eq0 (negPf k0) orbF (negPf (p0 _ xt)).
  move=> j; have := is_diag_pv (@nd _ z' (size [seq x / k%:R | x <- z'])) 'X^j dA.
  rewrite size_map zz => ->; apply/colP => i; rewrite !mxE (nth_map 0) ?zz // !hornerXn /nd exprS.
  by rewrite mulrA; congr (_ * _); rewrite mulrC.
- by apply/negP => /(allP ka).
by move=> k kn; apply: kc; rewrite addn1 Mn.
Qed.

(* the last pass of the loop of MIN-SR-S *)
Lemma loopE (cc : coll F) m f ab la r :
  minsrs_loop fpi eigh fsqrt flog fexp underflow leggauss roots_legendre fejer fsolve fitlaw fpow
    nt qt cc m f.+1 ab la = Ok r ->
  exists ab' cn, computeCoeffs fpi eigh fsqrt flog fexp underflow leggauss roots_legendre fejer fsolve fpow
    nt qt cc (m + f) ab' = Ok cn /\ r = Some cn.1.
Proof.
elim: f m ab la => [|f ih] m ab la.
  rewrite /minsrs_loop addn0; case e: (computeCoeffs _ _ _ _ _ _ _ _ _ _ _ _ _ _ _ _) => [cn|] //= [<-].
  by exists ab, cn.
pose lp := minsrs_loop fpi eigh fsqrt flog fexp underflow leggauss roots_legendre fejer fsolve fitlaw fpow nt qt cc.
rewrite -[minsrs_loop _ _ _ _ _ _ _ _ _ _ _ _ _ _ _ m _ _ _]/(lp m f.+2 ab la).
have -> : lp m f.+2 ab la = (dop cn <- computeCoeffs fpi eigh fsqrt flog fexp underflow leggauss roots_legendre fejer
    fsolve fpow nt qt cc m ab;
    lp m.+1 f.+1 (if (1 < m)%N then Some (fitlaw [seq x * m%:R | x <- cn.1] cn.2) else ab) (Some cn.1)) by [].
case: (computeCoeffs _ _ _ _ _ _ _ _ _ _ _ _ _ _ m ab) => [cn|//].
rewrite [obind _ _]/obind => e; have [ab' [cn' [h1 h2]]] := ih _ _ (Some cn.1) e.
by exists ab', cn'; rewrite -addSnnS.
Qed.

Lemma srsE k D : minsrs nt qt c k = Ok D -> exists ab cn,
  computeCoeffs fpi eigh fsqrt flog fexp underflow leggauss roots_legendre fejer fsolve fpow
    nt qt c M ab = Ok cn /\ D = diagm cn.1.
Proof.
have [Q [eQ sQ zt st ex]] := facts; have [_ _ hM _] := ok; have [M0 M1] := least_pos hM.
rewrite /qd_MIN_SR_S -/tau zt; set m0 := if _ then _ else _.
have m0M : (m0 <= M)%N by rewrite /m0; case: ifP => // hl; exact: M1.
rewrite subSn //; case e: (minsrs_loop _ _ _ _ _ _ _ _ _ _ _ _ _ _ _ _ _ _ _) => [r|] //=.
have [ab [cn [h ->]]] := loopE e => -[<-]; exists ab, cn; split=> //.
by rewrite -h subnKC.
Qed.

Lemma shiftE n (z : F) (N : 'M[F]_n) : 1%:M + - z *: (1%:M - N) = (1 - z) *: 1%:M + z *: N.
Proof. by rewrite scaleNr scalerBr scalerBl scale1r opprB addrA [LHS]addrAC. Qed.

Lemma ord1E n (j : 'I_n) : n = 1%N -> nat_of_ord j = 0%N.
Proof. by case: j => -[|m] //= lt e; rewrite e in lt. Qed.
Lemma mpow0 n k : (0 < k)%N -> mpow (0 : 'M[F]_n) k = 0.
Proof. by case: k => // k _; rewrite /mpow /= mul0mx. Qed.

(* the roots of the function given to fsolve are nilpotent sweeps *)
Lemma root_nil n (QM : seq (seq F)) zs v : is_shape QM n n -> size zs = n -> sorted <%O zs -> 0 \notin zs ->
  size v = n -> 0 \notin v -> nilpotency QM zs v = nseq n 0 ->
  mpow (1%:M - invmx (mxl n n (diagm v)) *m mxl n n QM) n = 0.
Proof.
move=> shQ zz sz z0 zv v0 h.
have dv := diagm_shape v; rewrite zv in dv.
have dw := diagm_shape [seq 1 / x | x <- v]; rewrite size_map zv in dw.
have iE : mxl n n (diagm [seq 1 / x | x <- v]) = invmx (mxl n n (diagm v)).
  have u : mxl n n (diagm v) \in unitmx by have := is_diag_unit (diagm_is_diag v) v0; rewrite zv.
  suff e : mxl n n (diagm [seq 1 / x | x <- v]) *m mxl n n (diagm v) = 1%:M.
    by rewrite -[LHS]mulmx1 -(mulmxV u) mulmxA e mul1mx.
  apply/matrixP => i j; rewrite !mxE (bigD1 i) //= big1 ?addr0 => [|k ki].
    rewrite !mxE !ent_diagm ?size_map ?zv // eqxx (nth_map 0) ?zv // -val_eqE /=.
    case: eqP => [_|_]; last by rewrite mulr0.
    rewrite div1r mulVf //; apply: contraNneq v0 => <-; rewrite mem_nth ?zv //.
  by rewrite !mxE !ent_diagm ?size_map ?zv // [(i : nat) == k]val_eqE eq_sym (negPf ki) mul0r.
apply: (@det_nil F n _ (fun i => - nd zs i)).
- by move=> i j /oppr_inj /(nd_inj zz sz).
- by move=> i; rewrite oppr_eq0; apply: contraNneq z0 => <-; rewrite mem_nth ?zz.
move=> i; have := congr1 (fun s => nth 0 s i) h.
rewrite /nilpotency (nth_map 0) ?zz // nth_nseq ltn_ord => /eqP; rewrite subr_eq0 => /eqP e1; rewrite -[RHS]e1.
set z := nth 0 zs i; rewrite -[nd zs i]/z; have se := eye_shape F n; have sm := mm_shape QM n dw.
have s1 : is_shape (mscale (1 - z) (eye F n)) n n by rewrite mscale_shape.
have s2 : is_shape (mscale z (mm n (diagm [seq 1 / x | x <- v]) QM)) n n by rewrite mscale_shape.
rewrite mxl_madd // !mxl_mscale // (mxl_mm (k := n)) // mxl_eye iE; congr (\det _).
by rewrite shiftE.
Qed.

(* C63: if fsolve returns a root with non-zero entries, MIN-SR-S is nilpotent in the stiff limit *)
Theorem C63_nilpotent k D : 0 \notin tau -> ~~ has_left qt ->
  (forall Q x0, co_Q c = fmat Q -> (1 < M)%N -> let f := nilpotency Q tau in let r := fsolve f x0 in
     [/\ size r = M, 0 \notin r & f r = nseq M 0]) ->
  minsrs nt qt c k = Ok D ->
  exists Q v, [/\ co_Q c = fmat Q, is_shape Q M M, size v = M /\ 0 \notin v, is_diag D v &
    mpow (1%:M - invmx (mxl M M D) *m mxl M M Q) M = 0].
Proof.
have [Q [eQ sQ zt st ex]] := facts => t0 nl fs /srsE [ab [cn [+ ->]]].
rewrite /computeCoeffs -/tau zt eqxx -[left_node qt]/(has_left qt) (negPf nl) [obind _ _]/= => -[<-] /=.
have fQ : fin_mat (co_Q c) = Q.
  by rewrite eQ /fin_mat /fmat -map_comp -[RHS]map_id; apply: eq_map => r /=; rewrite -map_comp map_id.
have [zQ _] := is_shapeP _ _ _ sQ.
rewrite fQ -/tau zt zQ; exists Q; case: ifP => [/eqP M1|M1]; last first.
  move: (if ab is Some (a', b') then _ else _) => x0; have [|z v0 fv] := fs Q x0 eQ.
    by have [_ _ hM _] := ok; have [] := least_pos hM; move: M1; case: (M) => [|[]].
  exists (fsolve (nilpotency Q tau) x0); split=> //; first exact: diagm_is_diag.
  exact: (root_nil sQ zt st).
have q0 : ent Q 0 0 != 0.
  have M0 : (0 < M)%N by rewrite M1.
  have /colP /(_ (Ordinal M0)) := Q_pow zt sQ ex M0.
  rewrite !mxE !hornerXn /nd /= => e; apply/eqP => q0; move/eqP: e.
  rewrite big1 => [|j _]; last first.
    by rewrite !mxE /=; rewrite (ord1E j M1) q0 mul0r.
  rewrite invr1 mul1r expr1 eq_sym; apply/negP; apply: contraNneq t0 => <-.
  by rewrite mem_nth // zt.
exists (mkseq (fun i => ent Q i i) M); rewrite size_mkseq; split=> //; [|exact: diagm_is_diag|].
  by split=> //; rewrite M1 /= inE eq_sym.
have -> : mxl M M (diagm (mkseq (fun i => ent Q i i) M)) = mxl M M Q.
  apply/matrixP => i j; rewrite !mxE ent_diagm ?size_mkseq // nth_mkseq //.
  have -> : i = j by apply/val_inj; rewrite /= (ord1E i M1) (ord1E j M1).
  by rewrite eqxx.
rewrite mulVmx ?subrr.
  by rewrite mpow0 // M1.
rewrite unitmxE unitfE.
by move: q0; rewrite M1 det_mx11 mxE.
Qed.

(* C63: with a zero first node, on the other nodes *)
Theorem C63_nilpotent_left k D : has_left qt ->
  (forall Q x0, co_Q c = fmat Q -> (2 < M)%N ->
     let f := nilpotency [seq behead r | r <- behead Q] (behead tau) in let r := fsolve f x0 in
     [/\ size r = M.-1, 0 \notin r & f r = nseq M.-1 0]) ->
  minsrs nt qt c k = Ok D ->
  exists n Q v, [/\ M = n.+1, co_Q c = fmat Q /\ is_shape Q M M, size v = n /\ 0 \notin v, is_diag D (0 :: v) &
    mpow (1%:M - invmx (\matrix_(i < n, j < n) ent D i.+1 j.+1) *m \matrix_(i < n, j < n) ent Q i.+1 j.+1) n = 0].
Proof.
have [Q [eQ sQ zt st ex]] := facts => hl fs /srsE [ab [cn [+ ->]]].
have t0 := C22_left_is_node ok ltr01 lg rl ec hl; rewrite -/tau in t0.
have M1 : (1 < M)%N by have [_ _ hM _] := ok; have [_ /(_ hl)] := least_pos hM.
pose n := M.-1; have Mn : M = n.+1 by rewrite prednK // ltnW.
have fQ : fin_mat (co_Q c) = Q.
  by rewrite eQ /fin_mat /fmat -map_comp -[RHS]map_id; apply: eq_map => r /=; rewrite -map_comp map_id.
have [z' te] : exists z', tau = 0 :: z'.
  by case: (tau) zt t0 => [|x s]; [rewrite Mn|move=> _ /= ->; exists s].
have zz : size z' = n by move: zt; rewrite te Mn => -[].
have sz : sorted <%O z' by move: st; rewrite te => /path_sorted.
have p0 : 0 \notin z'.
  by apply/negP => xz; move: st; rewrite te /= lt_path_sortedE => /andP [/allP /(_ 0 xz)]; rewrite ltxx.
rewrite Mn in sQ ex.
have mE A : is_shape A n.+1 n.+1 -> \matrix_(i < n, j < n) ent A i.+1 j.+1 = mxl n n (sub1 A).
  by move=> sA; apply/matrixP => i j; rewrite !mxE (ent_sub1 _ sA).
have s1 := sub1_shape sQ; have [z1 _] := is_shapeP _ _ _ s1.
have subD (v : seq F) : size v = n -> sub1 (diagm (0 :: v)) = diagm v /\ is_shape (diagm (0 :: v)) n.+1 n.+1.
  move=> zv; split; last by have := diagm_shape (0 :: v); rewrite /= zv.
  by apply: (is_diag_inj (v := v)); [exact: (is_diag_sub1 (diagm_is_diag _))|exact: diagm_is_diag].
rewrite /computeCoeffs -/tau zt eqxx -[left_node qt]/(has_left qt) hl [obind _ _]/= => -[<-] /=.
rewrite fQ -/tau te [behead _]/= zz -[[seq behead r | r <- behead Q]]/(sub1 Q) z1.
exists n, Q; case: ifP => [/eqP n1|n1]; last first.
  move: (if ab is Some (a', b') then _ else _) => x0; have [|z v0 fv] := fs Q x0 eQ.
    by rewrite Mn; move: n1 M1; rewrite Mn; case: (n) => [|[]].
  move: z v0 fv; rewrite te [behead (_ :: _)]/= -[[seq behead r | r <- behead Q]]/(sub1 Q) => z v0 fv.
  exists (fsolve (nilpotency (sub1 Q) z') x0); split=> //; first by rewrite Mn.
    exact: diagm_is_diag.
  by have [e1 e2] := subD _ z; rewrite !mE // e1; exact: (root_nil s1 zz sz).
have q0 : ent (sub1 Q) 0 0 != 0.
  have n0 : (0 < n)%N by rewrite n1.
  have zt1 : size tau = n.+1 by rewrite zt.
  have := Q_pow1 zt1 t0 sQ ex n0; rewrite te [behead _]/= => /colP /(_ (Ordinal n0)).
  rewrite !mxE !hornerXn /nd /= => e; apply/eqP => q0; move/eqP: e.
  rewrite big1 => [|j _]; last first.
    by rewrite !mxE /=; rewrite (ord1E j n1) q0 mul0r.
  rewrite eq_sym mulf_eq0 invr_eq0 pnatr_eq0 expf_eq0 /=; apply/negP; apply: contraNneq p0 => <-.
  by rewrite mem_nth // zz.
have zv : size (mkseq (fun i => ent (sub1 Q) i i) n) = n by rewrite size_mkseq.
have [e1 e2] := subD _ zv.
exists (mkseq (fun i => ent (sub1 Q) i i) n); split=> //; first by rewrite Mn.
- by split=> //; rewrite n1 /= inE eq_sym.
- exact: diagm_is_diag.
rewrite !mE // e1.
have -> : mxl n n (diagm (mkseq (fun i => ent (sub1 Q) i i) n)) = mxl n n (sub1 Q).
  apply/matrixP => i j; rewrite !mxE ent_diagm ?size_mkseq // nth_mkseq //.
  have -> : i = j by apply/val_inj; rewrite /= (ord1E i n1) (ord1E j n1).
  by rewrite eqxx.
rewrite mulVmx ?subrr.
  by rewrite mpow0 // n1.
rewrite unitmxE unitfE.
by move: q0; rewrite n1 det_mx11 mxE.
Qed.
End Unit.
End Coll.

Print Assumptions C40_nilpotent.
Print Assumptions C41_product.
Print Assumptions C41_product_left.
Print Assumptions C42_invalid.
Print Assumptions C42_none.
Print Assumptions C42_jumper.
Print Assumptions C42_flexjumper.
Print Assumptions C42_dnodes.
Print Assumptions C42_minsrns.
Print Assumptions C42_flex.
Print Assumptions C63_nilpotent.
Print Assumptions C63_nilpotent_left.

(* Concrete cases: two equidistant nodes 1/2, 1 and three equidistant nodes 0, 1/2, 1. *)
Example q_rules2 : rules_ok q_none q_none q_fejer 2 "FEJER".
Proof. by right; right; split=> //; exists ([:: 0], [:: 2%:R])%R => //; exact: mid_rule. Qed.

Definition rr2 : seq (seq Qf) := [:: [:: qc 3 4; qc (-1) 4]; [:: 1; 0]]%R.

Example C40_nonvacuous : let c := qcoll 2%:Z "EQUID" "RADAU-RIGHT" 0%R 1%R in
  nodes_ok (1 : Qf) q_eigh q_id "EQUID" "RADAU-RIGHT" 2 /\ rules_ok q_none q_none q_fejer 2 "FEJER" /\
  qinit 2%:Z "EQUID" "RADAU-RIGHT" 0%R 1%R = Ok c /\ co_Q c = fmat rr2 /\ co_nodes c = [:: qc 1 2; 1]%R /\
  qd_MIN_SR_NS (co_nodes c) None = Ok [:: [:: qc 1 4; 0]; [:: 0; qc 1 2]]%R.
Proof.
move=> c; split; first by split.
split; first exact: q_rules2.
split; first by apply: ok_orE; vm_compute.
by split; [|split]; [apply/eqP; vm_compute|apply/eqP; vm_compute|apply: ok_eqP; vm_compute].
Qed.

(* C40 needs tLeft = 0: on [1,2] the difference is -1 for a single node *)
Theorem C40_offset_refuted : exists c Q QD,
  [/\ qinit 1%:Z "EQUID" "GAUSS" 1%R 2%:R = Ok c, co_Q c = fmat Q,
      qd_MIN_SR_NS (co_nodes c) None = Ok QD & mpow (mxl 1 1 Q - mxl 1 1 QD)%R 1 <> 0%R].
Proof.
exists (qcoll 1%:Z "EQUID" "GAUSS" 1%R 2%:R), [:: [:: qc 1 2]], [:: [:: qc 3 2]]; split.
- by apply: ok_orE; vm_compute.
- by apply/eqP; vm_compute.
- by apply: ok_eqP; vm_compute.
rewrite /mpow /= mulmx1 => /matrixP /(_ ord0 ord0); rewrite !mxE => /eqP; by vm_compute.
Qed.
Print Assumptions C40_offset_refuted.

Definition q_fsolve (f : seq Qf -> seq Qf) (x0 : seq Qf) : seq Qf := [:: qc 3 8; qc 2 3].
Definition q_fit (s t : seq Qf) : Qf * Qf := (1, 1)%R.
Definition q_pow (x y : Qf) : Qf := x.
Notation qsrs := (qd_MIN_SR_S (1 : Qf) q_eigh q_id q_id q_id q_under q_none q_none q_fejer q_fsolve q_fit q_pow).
Notation qflex := (qd_MIN_SR_FLEX (1 : Qf) q_eigh q_id q_id q_id q_under q_none q_none q_fejer q_fsolve q_fit q_pow).

Example C41_nonvacuous : let c := qcoll 2%:Z "EQUID" "RADAU-RIGHT" 0%R 1%R in
  (0%R \notin co_nodes c) /\ all (fun k => 0 < k <= 2)%N [:: 2; 1]%N /\
  qflex "EQUID" "RADAU-RIGHT" c (Some 2%:Z) = Ok [:: [:: qc 1 4; 0]; [:: 0; qc 1 2]]%R /\
  qflex "EQUID" "RADAU-RIGHT" c (Some 3%:Z) = Ok [:: [:: qc 3 8; 0]; [:: 0; qc 2 3]]%R.
Proof.
move=> c; split; first by vm_compute.
by split; [|split]; [|apply: ok_eqP; vm_compute|apply: ok_eqP; vm_compute].
Qed.

Example C41_left_nonvacuous : let c := qcoll 3%:Z "EQUID" "LOBATTO" 0%R 1%R in
  has_left "LOBATTO" /\ qinit 3%:Z "EQUID" "LOBATTO" 0%R 1%R = Ok c /\ all (fun k => 0 < k <= 3)%N [:: 2; 3]%N /\
  qflex "EQUID" "LOBATTO" c (Some 2%:Z) = Ok [:: [:: 0; 0; 0]; [:: 0; qc 1 4; 0]; [:: 0; 0; qc 1 2]]%R.
Proof.
move=> c; split=> //; split; first by apply: ok_orE; vm_compute.
by split=> //; apply: ok_eqP; vm_compute.
Qed.

Example C42_nonvacuous :
  qd_Jumper [:: qc 1 2; 1]%R (Some 2%:Z) = Ok [:: [:: qc 1 8; 0]; [:: 0; qc 1 4]]%R /\
  qd_FlexJumper [:: qc 1 2; 1]%R (Some 3%:Z) = Ok [:: [:: qc 1 8; 0]; [:: 0; qc 1 4]]%R /\
  qd_DNODES 5 [:: qc 1 2; 1]%R None = Ok [:: [:: qc 1 10; 0]; [:: 0; qc 1 5]]%R.
Proof. by split; [|split]; apply: ok_eqP; vm_compute. Qed.

(* C63: (3/8, 2/3) is an exact root for the nodes 1/2, 1 *)
Lemma det2 (R : comRingType) (A : seq (seq R)) :
  \det (mxl 2 2 A) = (ent A 0 0 * ent A 1 1 - ent A 0 1 * ent A 1 0)%R.
Proof.
rewrite (expand_det_row _ ord0) !big_ord_recl big_ord0 addr0 /cofactor !det_mx11 !mxE /=.
by rewrite expr0 mul1r expr1 mulN1r mulrN.
Qed.
Example C63_nonvacuous : let c := qcoll 2%:Z "EQUID" "RADAU-RIGHT" 0%R 1%R in
  (0%R \notin co_nodes c) /\ ~~ has_left "RADAU-RIGHT" /\
  (forall Q x0, co_Q c = fmat Q -> (1 < 2)%N -> let f := nilpotency Q (co_nodes c) in let r := q_fsolve f x0 in
     [/\ size r = 2%N, 0%R \notin r & f r = nseq 2 0%R]) /\
  qsrs "EQUID" "RADAU-RIGHT" c None = Ok [:: [:: qc 3 8; 0]; [:: 0; qc 2 3]]%R.
Proof.
move=> c; split; first by vm_compute.
split; first by [].
split; last by apply: ok_eqP; vm_compute.
move=> Q x0 eQ _ f r; split; [by []|by vm_compute|].
rewrite /f; have -> : co_nodes c = [:: qc 1 2; 1]%R by apply/eqP; vm_compute.
have -> : Q = rr2 by apply: fmat_inj; rewrite -eQ; apply/eqP; vm_compute.
by rewrite /nilpotency /map [size _]/= !det2; apply/eqP; vm_compute.
Qed.

Example C63_left_nonvacuous : let c := qcoll 2%:Z "EQUID" "LOBATTO" 0%R 1%R in
  qinit 2%:Z "EQUID" "LOBATTO" 0%R 1%R = Ok c /\
  qsrs "EQUID" "LOBATTO" c None = Ok [:: [:: 0; 0]; [:: 0; qc 1 2]]%R.
Proof. by split; [apply: ok_orE; vm_compute|apply: ok_eqP; vm_compute]. Qed.
