(* Collocation: scaled nodes, Q and weights as integrals of cardinal polynomials. *)
From Verif.Base Require Import Str.
From mathcomp Require Import all_ssreflect all_algebra ring zify.
From Verif.Base Require Import Outcome Arr Ext PolyInterp PolyInt.
From Verif.Model Require Import Lagrange QGen Nodes Collocation.
From Verif.Spec Require Import LagrangeSpec NodesSpec CollSpec.
From Verif.Proofs Require Import LagrangeP LagrangeInit LagrangeThms OrthoP NodesP NodesThms QuadP LegendreP.
Set Implicit Arguments.
Unset Strict Implicit.
Unset Printing Implicit Defensive.
Import GRing.Theory Num.Theory Order.TTheory.
Local Open Scope ring_scope.

Section Sorted.
Variable F : realFieldType.
Variables (flog fexp : F -> F) (underflow : seq F -> bool).
Variables (leggauss roots_legendre fejer : nat -> outcome (seq F * seq F)).
Variable tau : seq F.
Hypothesis srt : sorted <%O tau.
Hypothesis t0 : (0 < size tau)%N.

Lemma xrow_sorted d g : xrow tau d true g = mkseq g (size tau).
Proof.
apply: eq_mkseq_in => j jl; have un := lt_sorted_uniq srt.
have sj : selv tau d (nth 0 tau j) = j.
  rewrite /selv un /= ?index_uniq //.
by rewrite /outc /selb sj eqxx np_unique_sorted // index_uniq.
Qed.

Hypothesis lg : logs_ok flog fexp underflow tau "AUTO".
Let lagok : lag_ok flog fexp underflow tau "AUTO" "MAX" "USE_LEFT".
Proof.
split; first by split=> //; left.
by split=> //; right; left; split; [left|right].
Qed.

Lemma sorted_init : exists2 self,
  lagrange_init flog fexp underflow tau "AUTO" false "MAX" "USE_LEFT" None = Ok self &
  good tau "USE_LEFT" self.
Proof.
by have [self e [g _]] := @lag_init _ flog fexp underflow _ _ false _ _ None lagok isT; exists self.
Qed.

Hypothesis rl : rules_ok leggauss roots_legendre fejer (size tau) "FEJER".
Let pok : points_ok tau "USE_LEFT". Proof. by case: lagok. Qed.

Lemma sorted_integ self ivs : good tau "USE_LEFT" self ->
  getIntegrationMatrix leggauss roots_legendre fejer self ivs "FEJER" true =
  Ok (fmat [seq mkseq (fun j => pint (ell tau j) ab.1 ab.2) (size tau) | ab <- ivs]).
Proof.
move=> g; rewrite (integE_M pok g _ _ rl); congr (Ok (fmat _)); apply: eq_map => ab.
by rewrite xrow_sorted np_unique_sorted.
Qed.

Lemma sorted_interp self times : good tau "USE_LEFT" self ->
  getInterpolationMatrix self times true =
  fmat [seq mkseq (fun j => (ell tau j).[t]) (size tau) | t <- times].
Proof.
move=> g; rewrite (interpE_M pok g); congr fmat; apply: eq_map => t.
by rewrite xrow_sorted np_unique_sorted.
Qed.

Lemma coll_of_nodesE nt qt a b : exists2 self, good tau "USE_LEFT" self &
  coll_of_nodes flog fexp underflow leggauss roots_legendre fejer nt qt a b tau =
  Ok (Coll nt qt a b tau self (fmat (Qm tau a)) (map (@Fin F) (wv tau a b))).
Proof.
have [self e g] := sorted_init; exists self => //.
rewrite /coll_of_nodes e /= !sorted_integ //= cats0 -map_comp.
by congr (Ok (Coll _ _ _ _ _ _ _ _)).
Qed.
End Sorted.

(* moving the end nodes to the ends of the interval *)
Section Ends.
Variable F : realFieldType.
Implicit Types (s : seq F) (a b : F).

Lemma set0_ok s a b : (0 < size s)%N -> sorted <%O s -> all (fun x => a <= x <= b) s -> a <= b ->
  let s' := set_nth 0 s 0 a in
  [/\ size s' = size s, sorted <%O s' & all (fun x => a <= x <= b) s'].
Proof.
case: s => [//|x s] _ /= ps /andP [/andP [ax xb] al] ab; split=> //; last by rewrite lexx ab.
case: s ps {al} => //= y s /andP [xy ->]; rewrite andbT; exact: le_lt_trans xy.
Qed.

Lemma set_last_ok s a b : (0 < size s)%N -> sorted <%O s -> all (fun x => a <= x <= b) s -> a <= b ->
  let s' := set_last s b in
  [/\ size s' = size s, sorted <%O s' & all (fun x => a <= x <= b) s'].
Proof.
move=> s0 ss al ab s'.
have sz : size s' = size s by rewrite /s' /set_last size_set_nth prednK // maxnn.
have nE i : nth 0 s' i = if i == (size s).-1 then b else nth 0 s i by rewrite /s' /set_last nth_set_nth.
split=> //.
  apply/(sortedP 0) => i; rewrite sz => il; rewrite !nE.
  have h := (sortedP 0 ss) i il.
  have -> : (i == (size s).-1) = false by apply/negbTE; rewrite neq_ltn; lia.
  case: eqP => // _; apply: (lt_le_trans h).
  by have := allP al _ (mem_nth 0 il) => /andP [].
apply/(all_nthP 0) => i; rewrite sz nE => il; case: eqP => _; first by rewrite lexx ab.
by have := allP al _ (mem_nth 0 il).
Qed.

Lemma snap_ok s a b : (0 < size s)%N -> sorted <%O s -> all (fun x => a <= x <= b) s -> a <= b ->
  let s' := snap_nodes a b s in
  [/\ size s' = size s, sorted <%O s' & all (fun x => a <= x <= b) s'].
Proof.
move=> s0 ss al ab; rewrite /snap_nodes.
set s1 := if _ then _ else s.
have [z1 t1 l1] : [/\ size s1 = size s, sorted <%O s1 & all (fun x => a <= x <= b) s1].
  by rewrite /s1; case: ifP => _ //; apply: set0_ok.
have s10 : (0 < size s1)%N by rewrite z1.
case: ifP => _ //; have [z2 t2 l2] := set_last_ok s10 t1 l1 ab.
by rewrite z2.
Qed.

Lemma scale_nodeE a b x : (x + 1) / 2%:R * (b - a) + a = node_in a b x.
Proof. by rewrite /node_in addrC mulrC. Qed.

Lemma scale_nodesE a b s : scale_nodes a b s = map (node_in a b) s.
Proof. by apply: eq_map => x; exact: scale_nodeE. Qed.

Lemma node_in_lt a b x y : a < b -> (node_in a b x < node_in a b y) = (x < y).
Proof.
move=> ab; rewrite /node_in ltr_add2l ltr_pmul2l ?subr_gt0 // ltr_pmul2r ?invr_gt0 ?ltr0n //.
exact: ltr_add2r.
Qed.
Lemma node_in_le a b x y : a < b -> (node_in a b x <= node_in a b y) = (x <= y).
Proof.
move=> ab; rewrite /node_in ler_add2l ler_pmul2l ?subr_gt0 // ler_pmul2r ?invr_gt0 ?ltr0n //.
exact: ler_add2r.
Qed.
Lemma node_in_m1 a b : node_in a b (-1) = a.
Proof. by rewrite /node_in addNr mul0r mulr0 addr0. Qed.
Lemma node_in_1 a b : node_in a b 1 = b.
Proof. by rewrite /node_in; field. Qed.

Lemma scale_ok s a b : a < b -> sorted <%O s -> all (fun x => -1 <= x <= 1) s ->
  let s' := scale_nodes a b s in
  [/\ size s' = size s, sorted <%O s' & all (fun x => a <= x <= b) s'].
Proof.
move=> ab ss al; rewrite scale_nodesE /= (size_map (node_in a b)); split=> //.
  by rewrite sorted_map; apply: sub_sorted ss => x y /=; rewrite node_in_lt.
rewrite all_map; apply: sub_all al => x /= /andP [x1 x2].
by apply/andP; split; [rewrite -{1}(node_in_m1 a b)|rewrite -{2}(node_in_1 a b)]; rewrite node_in_le.
Qed.

(* without nodes close to the ends, nothing moves *)
Lemma snap_id s a b : a < b -> (0 < size s)%N -> sorted <%O s -> all (fun x => -1 <= x <= 1) s ->
  separated a b s -> snap_nodes a b (scale_nodes a b s) = map (node_in a b) s.
Proof.
move=> ab s0 ss al sep; rewrite scale_nodesE; set s1 := map _ s.
have z1 : size s1 = size s by rewrite size_map.
have x0 : nth 0 s 0 \in s by rewrite mem_nth.
have xl : nth 0 s (size s).-1 \in s by rewrite mem_nth // prednK.
have n0 : nth 0 s1 0 = node_in a b (nth 0 s 0) by rewrite (nth_map 0).
have nl : nth 0 s1 (size s).-1 = node_in a b (nth 0 s (size s).-1) by rewrite (nth_map 0) ?prednK.
have far_not t e : far t e -> allclose e t = false.
  by rewrite /far /allclose distrC => h; apply/negbTE; rewrite -ltNge.
have e1 : (if allclose a (nth 0 s1 0) then set_nth 0 s1 0 a else s1) = s1.
  case: ifP => // cl; have [f _] := sep _ x0.
  case: (nth 0 s 0 =P -1) => [e|ne]; last by move: cl; rewrite n0 (far_not _ _ _ (f ne)).
  by have := @set_nth_id _ s1 0; rewrite n0 e node_in_m1 z1; exact.
rewrite /snap_nodes e1 -nth_last z1 nl /set_last z1.
case: ifP => // cl; have [_ f] := sep _ xl.
case: (nth 0 s (size s).-1 =P 1) => [e|ne]; last by move: cl; rewrite (far_not _ _ _ (f ne)).
have := @set_nth_id _ s1 (size s).-1; rewrite nl e node_in_1 z1; apply.
by rewrite prednK.
Qed.
End Ends.

(* the whole object *)
Section Coll.
Variable F : realFieldType.
Variables (fpi : F) (eigh : seq F -> seq F -> seq F) (fsqrt : F -> F).
Variables (flog fexp : F -> F) (underflow : seq F -> bool).
Variables (leggauss roots_legendre fejer : nat -> outcome (seq F * seq F)).
Notation cinit := (coll_init fpi eigh fsqrt flog fexp underflow leggauss roots_legendre fejer).
Notation nok := (nodes_ok fpi eigh fsqrt).

Lemma least_pos qt (M : nat) : (least_nodes qt <= M)%N -> (0 < M)%N /\ (has_left qt -> (1 < M)%N).
Proof. by rewrite /least_nodes; case: (has_left qt) => h; split=> //; apply: ltnW. Qed.

Lemma base_nodes nt qt (M : nat) : nok nt qt M ->
  exists2 s, getNodes fpi eigh fsqrt (NodesGen nt qt) M%:Z = Ok s &
  [/\ size s = M, sorted <%O s, all (fun x => -1 <= x <= 1) s,
      (-1 \in s) = has_left qt & (1 \in s) = has_right qt].
Proof.
case=> hnt hqt /least_pos [n0 hn] ct.
case: (nt =P "EQUID"%string) => [->|ne].
  exists (mkseq (equid F qt M) M); first exact: getNodes_equid.
  by have [h1 h2 h3 h4] := equid_props F hqt n0 hn; rewrite size_mkseq.
have hor : nt \in ORTHO by move: hnt; rewrite inE; case/orP => // /eqP.
have [a [b [s [_ ok _ sr e]]]] := getNodesE hor hqt n0 hn (ct ne).
exists s => //; have [-> ->] := ends_mem ok n0 sr; have [ss sz rs] := sr; have [szp _] := size_op a b M.
split=> //; first by apply: succn_inj; rewrite sz szp.
by apply/allP => x xs; have [] := rec_bounds ok n0 (allP rs x xs).
Qed.

Lemma logs_all_ok tau : logs_all flog fexp underflow -> logs_ok flog fexp underflow tau "AUTO".
Proof. by case=> h; right; [right|left; split]. Qed.

Lemma collE nt qt (M : nat) a b s :
  nok nt qt M -> a < b -> logs_all flog fexp underflow ->
  rules_ok leggauss roots_legendre fejer M "FEJER" ->
  getNodes fpi eigh fsqrt (NodesGen nt qt) M%:Z = Ok s ->
  let tau := snap_nodes a b (scale_nodes a b s) in
  exists self, [/\ cinit M%:Z nt qt a b = Ok (Coll nt qt a b tau self (fmat (Qm tau a)) (map (@Fin F) (wv tau a b))),
    good tau "USE_LEFT" self, size tau = M, sorted <%O tau & all (fun x => a <= x <= b) tau].
Proof.
move=> ok ab lg rl es tau; have [s' es' [zs ss al _ _]] := base_nodes ok.
move: es'; rewrite es => -[e]; subst s'; have [hnt hqt hM _] := ok.
have [M0 _] := least_pos hM.
have [z1 t1 l1] := scale_ok ab ss al.
have s10 : (0 < size (scale_nodes a b s))%N by rewrite z1 zs.
have [z2 t2 l2] := snap_ok s10 t1 l1 (ltW ab).
have zt : size tau = M by rewrite z2 z1.
have tau0 : (0 < size tau)%N by rewrite zt.
have rl' : rules_ok leggauss roots_legendre fejer (size tau) "FEJER" by rewrite zt.
have [self g e] := coll_of_nodesE t2 tau0 (logs_all_ok _ lg) rl' nt qt a b.
exists self; split=> //.
by rewrite /coll_init /nodesgen_init hnt hqt /= es /= e.
Qed.

(* nodal polynomial of the scaled nodes *)
Lemma nodal_scale (s : seq F) a b : nodal (map (node_in a b) s) \Po aff ((b - a) / 2%:R) ((b + a) / 2%:R) =
  ((b - a) / 2%:R) ^+ size s *: nodal s.
Proof.
elim: s => [|x s ih]; rewrite /nodal /= ?big_nil ?big_cons.
  by rewrite expr0 scale1r -polyC1 comp_polyC.
have key : aff ((b - a) / 2%:R) ((b + a) / 2%:R) - (node_in a b x)%:P = ((b - a) / 2%:R) *: ('X - x%:P).
  rewrite /aff scalerBr -addrA; congr (_ + _); rewrite -[in RHS]mul_polyC -polyCM -polyCB -polyCN; congr (_%:P).
  by rewrite /node_in; field.
by rewrite comp_polyM [X in _ * X]ih comp_polyB comp_polyX comp_polyC key -scalerAl -scalerAr scalerA -exprS.
Qed.

Lemma scale_ortho (s : seq F) a b r : a < b ->
  (forall q : {poly F}, (size q <= r)%N -> pint (nodal s * q) (-1) 1 = 0) ->
  forall q : {poly F}, (size q <= r)%N -> pint (q * nodal (map (node_in a b) s)) a b = 0.
Proof.
move=> ab h q sq; pose sc := (b - a) / 2%:R; pose sh := (b + a) / 2%:R.
have := pint_aff (q * nodal (map (node_in a b) s)) sc sh (-1) 1.
have -> : sc * -1 + sh = a by rewrite /sc /sh; field.
have -> : sc * 1 + sh = b by rewrite /sc /sh; field.
move=> <-; rewrite comp_polyM nodal_scale -/sc -scalerAr pintZ [(q \Po _) * _]mulrC h ?mulr0 ?mul0r //.
exact: leq_trans (size_comp_aff _ _ _) sq.
Qed.

Lemma legendre_nodal qt (M : nat) s r : nok "LEGENDRE" qt M ->
  getNodes fpi eigh fsqrt (NodesGen "LEGENDRE" qt) M%:Z = Ok s ->
  r = (if qt == "GAUSS"%string then M else if is_radau qt then M.-1 else M.-2) ->
  forall q : {poly F}, (size q <= r)%N -> pint (nodal s * q) (-1) 1 = 0.
Proof.
case=> hnt hqt hM ct es rE q sq; have [n0 hn] := least_pos hM.
have [a [b [s' [_ ok _ sr e]]]] := getNodesE (isT : "LEGENDRE"%string \in ORTHO) hqt n0 hn (ct (fun h => ltac:(discriminate h))).
move: e; rewrite es => -[e]; subst s'.
have [_ mo] := size_op a b M; rewrite /nodal -(sorted_roots_prod mo sr).
have [c [d [-> hG hR]]] := op_mod ok n0.
set A := afun F _; set B := bfun _ _.
have bE k : B k.+1 = k.+1%:R ^+ 2 / (4%:R * k.+1%:R ^+ 2 - 1) by [].
have aE k : op A B k = op (fun=> 0) B k.
  by congr (_.2); apply: op_ext => // j _; rewrite /A /afun; case: eqP.
have o1 := @leg_ortho _ B bE; rewrite !mulrDl !pintD -!scalerAl !pintZ.
rewrite aE o1 ?add0r; last first.
  apply: leq_trans sq _; rewrite rE; case: ifP => // _; case: ifP => _; lia.
have -> : c * pint (op A B M.-1 * q) (-1) 1 = 0.
  case: (qt =P "GAUSS"%string) rE => [qg _|_ rE]; first by rewrite (hG qg).1 mul0r.
  by rewrite aE o1 ?mulr0 //; apply: leq_trans sq _; rewrite rE; case: ifP => // _; lia.
rewrite add0r; case: (qt =P "GAUSS"%string) rE => [qg _|_]; first by rewrite (hG qg).2 mul0r.
case: ifP => [rd _|_ rE]; first by rewrite hR // mul0r.
case: (M) n0 rE => [//|[|m]] _ rE; first by rewrite /= mul0r pint0 mulr0.
by rewrite opp1 aE o1 ?mulr0 //; apply: leq_trans sq _; rewrite rE.
Qed.
End Coll.

(* affine images of node lists *)
Section Affine.
Variable F : realFieldType.

Lemma ell_aff (tau : seq F) a h j : 0 < h -> sorted <%O tau -> (j < size tau)%N ->
  ell [seq a + h * t | t <- tau] j \Po aff h a = ell tau j.
Proof.
move=> h0 ss jl; set tau' := map _ tau.
have z : size tau' = size tau by rewrite size_map.
have ss' : sorted <%O tau'.
  by rewrite sorted_map; apply: sub_sorted ss => x y /=; rewrite ltr_add2l ltr_pmul2l.
apply: (poly_eq_nodes (xs_inj ss)).
- by apply: leq_trans (size_comp_aff _ _ _) _; rewrite -z; apply: size_ell; rewrite z.
- exact: size_ell.
move=> i; rewrite horner_comp aff_horner /xs (ell_node ss) //.
have -> : h * nth 0 tau i + a = nth 0 tau' i by rewrite (nth_map 0) // addrC.
by rewrite (ell_node ss') ?z.
Qed.

Lemma pint_ell_aff (tau : seq F) a h j x y : 0 < h -> sorted <%O tau -> (j < size tau)%N ->
  pint (ell [seq a + h * t | t <- tau] j) (a + h * x) (a + h * y) = h * pint (ell tau j) x y.
Proof. by move=> h0 ss jl; rewrite -(ell_aff a h0 ss jl) pint_aff ![_ + a]addrC. Qed.

Lemma node_in_01 a b x : node_in a b x = a + (b - a) * node_in 0 1 x :> F.
Proof. by rewrite /node_in subr0 mul1r add0r. Qed.
End Affine.

(* moments through a field embedding *)
Section Embed.
Variables (F : realFieldType) (K : numFieldType) (f : {rmorphism F -> K}).

Lemma moment_map n (A : seq (seq F)) b k : is_shape A n n -> size b = n ->
  QCoeffSpec.moment n (map (map f) A) (map f b) k = f (QCoeffSpec.moment n A b k).
Proof.
move=> sh sb; rewrite /QCoeffSpec.moment.
have eA : mxl n n (map (map f) A) = map_mx f (mxl n n A).
  apply/matrixP => i j; rewrite !mxE; have [zA hA] := is_shapeP _ _ _ sh.
  by rewrite /ent (nth_map [::]) ?zA // (nth_map 0) ?hA.
have eb : rvl n (map f b) = map_mx f (rvl n b).
  by apply/matrixP => i j; rewrite !mxE (nth_map 0) ?sb.
have e1 : iter k (mulmx (map_mx f (mxl n n A))) (const_mx 1) =
   map_mx f (iter k (mulmx (mxl n n A)) (const_mx 1 : 'cV_n)).
  elim: k => [|k ih]; last by rewrite !iterS ih map_mxM.
  by apply/matrixP => i j; rewrite !mxE rmorph1.
by rewrite eA eb e1 -map_mxM mxE.
Qed.
End Embed.
