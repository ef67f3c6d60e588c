(* Properties C70, C71: stability of collocation methods on the Dahlquist problem. *)
From Coq Require Import Reals.
From Verif.Base Require Import Str.
From mathcomp Require Import all_ssreflect all_algebra ring zify complex.
From Verif.Base Require Import RField RRcf Outcome Arr Ext LinSolve PolyInterp PolyInt.
From Verif.Model Require Import Lagrange QGen Nodes Collocation Fejer.
From Verif.Spec Require Import LagrangeSpec QCoeffSpec NodesSpec CollSpec StabSpec.
From Verif.Proofs Require Import LagrangeP LagrangeInit LagrangeThms OrthoP NodesP NodesThms QuadP LegendreP CollP StabP.
From Verif.Proofs Require Import AStabP StabFunP LegStabP RootsP OracleP ChebNodesP StiffP.
From Verif.Properties Require Import LagrangeProps FejerProps NodesProps CollProps RealProps.
Set Implicit Arguments.
Unset Strict Implicit.
Unset Printing Implicit Defensive.
Import GRing.Theory Num.Theory Order.TTheory.
Local Open Scope ring_scope.
Bind Scope ring_scope with R.

Section Props.
Variable F : realFieldType.
(* oracles, restricted by the premises ok, lg and rl *)
Variables (fpi : F) (eigh : seq F -> seq F -> seq F) (fsqrt : F -> F).
Variables (flog fexp : F -> F) (underflow : seq F -> bool).
Variables (leggauss roots_legendre fejer : nat -> outcome (seq F * seq F)).
Notation cinit := (coll_init fpi eigh fsqrt flog fexp underflow leggauss roots_legendre fejer).
Notation base nt qt M := (getNodes fpi eigh fsqrt (NodesGen nt qt) (Posz M)).

Section One.
Variables (nt qt : string) (M : nat).
Hypothesis ok : nodes_ok fpi eigh fsqrt nt qt M.
Hypothesis lg : logs_all flog fexp underflow.
Hypothesis rl : rules_ok leggauss roots_legendre fejer M "FEJER".
Variable c : coll F.
Hypothesis ec : cinit M%:Z nt qt 0 1 = Ok c.
Notation tau := (co_nodes c).

Let h01 : 0 < 1 :> F. Proof. exact: ltr01. Qed.
Let facts : [/\ co_Q c = fmat (Qm tau 0), co_weights c = map (@Fin F) (wv tau 0 1), size tau = M,
  sorted <%O tau & (0 < M)%N].
Proof.
have [s es _] := base_nodes ok; have [self [e g z t l]] := collE ok h01 lg rl es.
move: ec; rewrite e => -[ce]; rewrite -ce /=; split=> //.
by have [_ _ hM _] := ok; have [] := least_pos hM.
Qed.

Section Ext.
Variables (K : numFieldType) (f : {rmorphism F -> K}).
Notation nodes' := (map f tau).
Notation Q' := (map (map f) (Qm tau 0)).
Notation w' := (map f (wv tau 0 1)).

Lemma factor_of z : stagemx M Q' z \in unitmx -> step_factor nodes' w' Q' z (stabf M Q' w' z).
Proof.
have [_ _ sM _ _] := facts; move=> un we lam u0 tEnd N hz.
have sh := shapeQ' tau f; rewrite sM in sh.
rewrite (dahlquistE _ _ _ _ _ sh) ?size_map ?size_iota //.
by rewrite hz un.
Qed.
Lemma fails_of z : stagemx M Q' z \notin unitmx -> step_fails nodes' w' Q' z.
Proof.
have [_ _ sM _ _] := facts; move=> un we lam u0 tEnd N hz.
have sh := shapeQ' tau f; rewrite sM in sh.
rewrite (dahlquistE _ _ _ _ _ sh) ?size_map ?size_iota //.
by rewrite hz (negbTE un).
Qed.
Lemma stab_sumE z t : stab_sum nodes' z t = (szp (map_poly f (nodal tau)) (size tau) z).[t].
Proof.
rewrite /stab_sum horner_szp size_map; apply: eq_bigr => k _; congr (_ * _^`(k).[t]).
by rewrite NE /node_poly big_map.
Qed.
End Ext.

(* C70: the steps multiply by a ratio of two polynomials in lam dt, given by the nodes alone *)
Theorem C70_stability_function : exists Q w,
  [/\ co_Q c = fmat Q, co_weights c = map (@Fin F) w &
   forall (K : numFieldType) (f : {rmorphism F -> K}) (z : K),
   let xs := map f tau in let d := stab_sum xs z 0 in
   if d == 0 then step_fails xs (map f w) (map (map f) Q) z
   else step_factor xs (map f w) (map (map f) Q) z (stab_sum xs z 1 / d)].
Proof.
have [eQ ew sM srt M0] := facts; exists (Qm tau 0), (wv tau 0 1); split=> // K f z xs d.
have un := sz_unit srt f z; rewrite /d /xs !stab_sumE; rewrite sM in un *.
case: ifP => d0; rewrite d0 /= in un.
  by apply: fails_of; rewrite un.
by have := sz_stabf srt (f := f) (z := z); rewrite sM => <-; [apply: factor_of|]; rewrite un.
Qed.

(* the end points among the nodes, and symmetry *)
Section Sep.
Variable s : seq F.
Hypothesis es : base nt qt M = Ok s.
Hypothesis sep : separated 0 1 s.

Lemma ends_of : (0 \in tau) = has_left qt /\ (1 \in tau) = has_right qt.
Proof.
have [s' es' [_ _ _ e1 e2]] := base_nodes ok; move: es'; rewrite es => -[e]; subst s'.
have inj : injective (node_in (0 : F) 1).
  by move=> x y h; apply/eqP; rewrite eq_le -(@node_in_le F 0 1 x y h01) -(@node_in_le F 0 1 y x h01) h lexx.
rewrite (C28_nodes_kept ok h01 lg rl ec es sep).
split.
  by rewrite -[X in X \in _](node_in_m1 (0 : F) 1) mem_map.
by rewrite -[X in X \in _](node_in_1 (0 : F) 1) mem_map.
Qed.
Lemma sym_of : nt \in [:: "EQUID"; "LEGENDRE"; "CHEBY-1"; "CHEBY-2"]%string ->
  qt \in [:: "GAUSS"; "LOBATTO"]%string ->
  forall j, (j < size tau)%N -> nth 0 tau (size tau - j.+1) = 1 - nth 0 tau j.
Proof.
have [_ _ z _ M0] := facts; move=> hn hq j; rewrite z => jl.
have [hnt hqt hM ct] := ok; have eT := C28_nodes_kept ok h01 lg rl ec es sep.
have [s' es' [zs _ _ _ _]] := base_nodes ok; move: es'; rewrite es => -[e]; subst s'.
have sym : s = rev (map -%R s).
  case: (nt =P "EQUID"%string) => [nE|ne].
    have emq : mirror_qt qt = qt by move: hq; rewrite !inE => /orP [] /eqP ->.
    by apply: (@C20_equidistant F fpi eigh fsqrt qt M s s); rewrite ?emq -?nE.
  apply: (@C20_symmetric F fpi eigh fsqrt nt qt M) => //; last exact: ct.
  by move: hn; rewrite !inE => /or4P [/eqP|->|->|->]; rewrite ?orbT.
have jl' : (M - j.+1 < M)%N by rewrite ltn_subrL M0.
rewrite eT !(nth_map 0) ?zs // {1}sym nth_rev ?size_map ?zs // (nth_map 0) ?zs; last by rewrite subnSK // subKn // ltnW.
have -> : (M - (M - j.+1).+1)%N = j by rewrite subnSK // subKn // ltnW.
by rewrite /node_in; field.
Qed.
Lemma ortho_of r : nt = "LEGENDRE"%string ->
  r = (if qt == "GAUSS"%string then M else if is_radau qt then M.-1 else M.-2) ->
  forall q : {poly F}, (size q <= r)%N -> pint (nodal tau * q) 0 1 = 0.
Proof.
move=> nE rE q sq; rewrite mulrC (C28_nodes_kept ok h01 lg rl ec es sep).
apply: scale_ortho sq => // q' sq'; apply: (@legendre_nodal F fpi eigh fsqrt qt M s r) => //; by rewrite -nE.
Qed.

(* C70: very stiff problems *)
Theorem C70_stiff_limit : exists Q w,
  [/\ co_Q c = fmat Q, co_weights c = map (@Fin F) w &
   forall (K : numFieldType) (f : {rmorphism F -> K}),
   let steps := step_factor (map f tau) (map f w) (map (map f) Q) in
   let far_out (B : K -> K -> K -> Prop) := exists2 C : K, 0 < C & forall z, C <= `|z| ->
     exists2 R, steps z R & B C z R in
   [/\ qt = "RADAU-RIGHT"%string -> far_out (fun C z R => `|R| * `|z| <= C),
       qt = "RADAU-LEFT"%string -> far_out (fun C z R => `|z| <= C * `|R|),
       qt = "GAUSS"%string -> nt \in [:: "EQUID"; "LEGENDRE"; "CHEBY-1"; "CHEBY-2"]%string ->
         far_out (fun C z R => `|R - (-1) ^+ M| * `|z| <= C) &
       qt = "LOBATTO"%string -> nt \in [:: "EQUID"; "LEGENDRE"; "CHEBY-1"; "CHEBY-2"]%string ->
         far_out (fun C z R => `|R - (-1) ^+ M.-1| * `|z| <= C)]].
Proof.
have [eQ ew sM srt M0] := facts; exists (Qm tau 0), (wv tau 0 1); split=> // K f steps far_out.
have [e0 e1] := ends_of; have M0' : (0 < size tau)%N by rewrite sM.
have nr := nodal_root tau.
have fin (B : K -> K -> K -> Prop) : (exists2 C : K, 0 < C & forall z, C <= `|z| ->
    stagemx (size tau) (map (map f) (Qm tau 0)) z \in unitmx /\
    B C z (stabf (size tau) (map (map f) (Qm tau 0)) (map f (wv tau 0 1)) z)) -> far_out B.
  case=> C' C0 h; exists C' => // z /h [un hb].
  by exists (stabf M (map (map f) (Qm tau 0)) (map f (wv tau 0 1)) z);
    [apply: factor_of|]; rewrite -sM.
split=> qE; rewrite qE in e0 e1.
- apply: fin; have t0 : 0 \notin tau by rewrite e0.
  have [C' C0 h] := stiff_regular srt f t0; exists C' => // z /h [un hb]; split=> //.
  have n1 : (nodal tau).[1] = 0 by apply/eqP; rewrite nr e1.
  by move: hb; rewrite n1 mul0r rmorph0 subr0.
- by apply: fin; apply: stiff_left => //; rewrite ?e0 ?e1.
- move=> hn; apply: fin; have t0 : 0 \notin tau by rewrite e0.
  have [C' C0 h] := stiff_regular srt f t0; exists C' => // z /h [un hb]; split=> //.
  move: hb; rewrite sym_ends; last by apply: sym_of; rewrite ?qE.
  by rewrite mulfK ?nr ?e0 // rmorphX rmorphN rmorph1 sM.
- move=> hn; apply: fin; have t0 : 0 \in tau by rewrite e0.
  have t1 : 1 \in tau by rewrite e1.
  have [C' C0 h] := stiff_both srt f M0' t0 t1; exists C' => // z /h [un hb]; split=> //.
  move: hb; rewrite sym_dends; last by apply: sym_of; rewrite ?qE.
  rewrite mulfK ?nodal_simple // rmorphX rmorphN rmorph1 sM.
  by case: (M) M0 => // m _; rewrite !exprS mulrA mulrNN !mul1r.
Qed.

(* C71 *)
Theorem C71_stable : nt = "LEGENDRE"%string -> qt != "RADAU-LEFT"%string -> exists Q w,
  [/\ co_Q c = fmat Q, co_weights c = map (@Fin F) w &
   forall (K : numClosedFieldType) (f : {rmorphism F -> K}), {mono f : x y / x <= y} ->
   forall z : K, 'Re z <= 0 ->
   exists2 R, step_factor (map f tau) (map f w) (map (map f) Q) z R &
   [/\ `|R| <= 1, 'Re z < 0 -> `|R| < 1 &
       'Re z = 0 -> qt != "RADAU-RIGHT"%string -> `|R| = 1]].
Proof.
have [eQ ew sM srt M0] := facts; move=> nE qE; exists (Qm tau 0), (wv tau 0 1); split=> // K f fm z rz.
have [e0 e1] := ends_of; have M0' : (0 < size tau)%N by rewrite sM.
have [hnt hqt hM _] := ok; have [_ M1] := least_pos hM.
have re2 : z + z^* = 'Re z * 2%:R by rewrite ReE divfK // pnatr_eq0.
have two : 0 < 2%:R :> K by rewrite ltr0n.
have rz' : z + z^* <= 0 by rewrite re2 pmulr_lle0.
pose N := map_poly f (nodal tau).
have [st co] : stableN N (size tau) /\ (qt != "RADAU-RIGHT"%string -> conservN N (size tau)).
  have o := ortho_of nE (erefl _).
  move: hqt qE e0 e1 o M1; rewrite !inE => /or4P [] /eqP -> //= _ e0 e1 o M1.
  - have [] // := gauss_stable fm (tau := tau); rewrite ?e0 ?sM //.
  - split=> //; apply: right_stable; rewrite ?e0 ?e1 ?sM //.
  - have [] // := lobatto_stable fm srt; rewrite ?e0 ?e1 ?sM //; exact: M1.
have [un h1 h2] := stable_tau srt st rz'; rewrite sM in un h1 h2.
exists (stabf M (map (map f) (Qm tau 0)) (map f (wv tau 0 1)) z); first exact: factor_of.
split=> // [sz|ez qn]; first by apply: h2; rewrite re2 pmulr_llt0.
have := conserv_tau (z := z) srt (co qn); rewrite sM; apply=> //.
by rewrite re2 ez mul0r.
Qed.

(* the left Radau nodes: growth everywhere on the imaginary axis *)
Theorem C71_radau_left : nt = "LEGENDRE"%string -> qt = "RADAU-LEFT"%string -> exists Q w,
  [/\ co_Q c = fmat Q, co_weights c = map (@Fin F) w &
   forall (K : numClosedFieldType) (f : {rmorphism F -> K}), {mono f : x y / x <= y} ->
   forall z : K, 'Re z = 0 ->
   exists2 R, step_factor (map f tau) (map f w) (map (map f) Q) z R & z != 0 -> 1 < `|R|].
Proof.
have [eQ ew sM srt M0] := facts; move=> nE qE; exists (Qm tau 0), (wv tau 0 1); split=> // K f fm z rz.
have [e0 e1] := ends_of; have M0' : (0 < size tau)%N by rewrite sM.
have hz : z + z^* = 0.
  have -> : z + z^* = 'Re z * 2%:R by rewrite ReE divfK // pnatr_eq0.
  by rewrite rz mul0r.
have o := ortho_of nE (erefl _); rewrite qE in e0 e1 o; rewrite /= -sM in o.
have [un h] := left_grows fm srt M0' e0 (introT negPf e1) o hz; rewrite sM in un h.
by exists (stabf M (map (map f) (Qm tau 0)) (map f (wv tau 0 1)) z); first exact: factor_of.
Qed.
End Sep.
End One.
End Props.

(* the real and complex numbers: no premise but the separation of the nodes from the end points *)
Section Real.
Variable underflow : seq RF -> bool.
Notation fejerR := (fun k : nat => computeFejerRule k).
Notation eighR := (@eigh_ref r_rcfType).
Notation gaussR := (@gauss_ref r_rcfType).
Notation collR := (coll_init (F := RF) PI eighR sqrt ln exp underflow gaussR gaussR fejerR).
Notation nodesR := (getNodes (F := RF) PI eighR sqrt).
Notation CC := (complex_numClosedFieldType r_rcfType).
Notation toC := (ComplexField.real_complex_rmorphism RF : {rmorphism RF -> CC}).

Lemma real_setup qt M : qt \in QUAD_TYPES -> (least_nodes qt <= M)%N -> exists c,
  [/\ nodes_ok (F := RF) PI eighR sqrt "LEGENDRE" qt M, logs_all (F := RF) ln exp underflow,
      rules_ok (F := RF) gaussR gaussR fejerR M "FEJER" & collR M%:Z "LEGENDRE" qt 0 1 = Ok c].
Proof.
move=> hqt hn; have ok := C66_nodes_ok (isT : "LEGENDRE"%string \in NODE_TYPES) hqt hn.
have [n0 _] := least_pos hn.
have lg : logs_all (F := RF) ln exp underflow by left; exact: r_exp_log.
have rl : rules_ok (F := RF) gaussR gaussR fejerR M "FEJER" by apply: C66_rules_ok => //; right; right.
by have [c ec _] := C66_collocation underflow (isT : "LEGENDRE"%string \in NODE_TYPES) hqt hn ltr01; exists c.
Qed.

Theorem C71_real qt M s : qt \in QUAD_TYPES -> (least_nodes qt <= M)%N ->
  nodesR (NodesGen "LEGENDRE" qt) M%:Z = Ok s -> separated 0 1 s -> exists c Q w,
  [/\ collR M%:Z "LEGENDRE" qt 0 1 = Ok c, co_Q c = fmat Q & co_weights c = map (@Fin RF) w] /\
  forall z : CC, let xs := map toC (co_nodes c) in let steps := step_factor xs (map toC w) (map (map toC) Q) z in
  (qt != "RADAU-LEFT"%string -> 'Re z <= 0 -> exists2 R, steps R &
     [/\ `|R| <= 1, 'Re z < 0 -> `|R| < 1 & 'Re z = 0 -> qt != "RADAU-RIGHT"%string -> `|R| = 1]) /\
  (qt = "RADAU-LEFT"%string -> 'Re z = 0 -> z != 0 -> exists2 R, steps R & 1 < `|R|).
Proof.
move=> hqt hn es sep; have [c [ok lg rl ec]] := real_setup hqt hn.
have mono : {mono toC : x y / x <= y} by move=> x y; rewrite lecR.
have [Q [w [eQ [ew _]]]] := C21_exact ok ltr01 lg rl ec.
exists c, Q, w; split=> // z xs steps.
have same Q2 w2 : co_Q c = fmat Q2 -> co_weights c = map (@Fin RF) w2 -> Q2 = Q /\ w2 = w.
  move=> e1 e2; split; first by apply: fmat_inj; rewrite -e1 -eQ.
  by apply: (inj_map (f := @Fin RF)); [move=> x y []|rewrite -e2 -ew].
split=> [qE rz|qE rz z0].
  have [Q2 [w2 [e1 e2 h]]] := C71_stable ok lg rl ec es sep (erefl _) qE.
  by have [eq1 eq2] := same _ _ e1 e2; subst Q2 w2; apply: h.
have [Q2 [w2 [e1 e2 h]]] := C71_radau_left ok lg rl ec es sep (erefl _) qE.
have [eq1 eq2] := same _ _ e1 e2; subst Q2 w2; have [R hR g] := h CC toC mono z rz.
by exists R => //; apply: g.
Qed.

(* two nodes *)
Lemma leg2 (x : RF) : (clas RF "LEGENDRE" 2).[x] = (3%:R * x ^+ 2 - 1) / 2%:R /\
  (clas RF "LEGENDRE" 1).[x] = x /\ (clas RF "LEGENDRE" 0).[x] = 1.
Proof.
have c1 : (clas RF "LEGENDRE" 1).[x] = x by exact: hornerX.
have c0 : (clas RF "LEGENDRE" 0).[x] = 1 by exact: hornerC.
by split; last split=> //; rewrite clasS eqxx hornerZ hornerD hornerN !hornerZ hornerM hornerX ?c1 ?c0; field.
Qed.
Definition two (qt : string) : seq RF :=
  if qt == "RADAU-RIGHT"%string then [:: - 3%:R^-1; 1]
  else if qt == "RADAU-LEFT"%string then [:: -1; 3%:R^-1] else [:: -1; 1].
Lemma two_nodes qt : qt \in [:: "RADAU-RIGHT"; "RADAU-LEFT"; "LOBATTO"]%string ->
  nodesR (NodesGen "LEGENDRE" qt) 2 = Ok (two qt) /\ separated 0 1 (two qt).
Proof.
move=> hq; have hqt : qt \in QUAD_TYPES by move: hq; rewrite !inE => /or3P [] /eqP ->.
have hn : (least_nodes qt <= 2)%N by rewrite /least_nodes; case: ifP.
have [_ _ _ ct] := C66_nodes_ok (isT : "LEGENDRE"%string \in NODE_TYPES) hqt hn.
have t3 : 0 < 3%:R^-1 :> RF by rewrite invr_gt0 ltr0n.
split.
  pose c1 : RF := if qt == "RADAU-RIGHT"%string then -1 else if qt == "RADAU-LEFT"%string then 1 else 0.
  pose c2 : RF := if qt == "LOBATTO"%string then -1 else 0.
  apply: (@nodes_criterion _ _ _ _ "LEGENDRE"%string qt 2%N _ c1 c2) => //.
  - exact: ct.
  - by move: hq; rewrite /two !inE => /or3P [] /eqP ->.
  - move: hq; rewrite /two !inE => /or3P [] /eqP -> /=; rewrite andbT.
    + by rewrite (lt_trans _ ltr01) // oppr_lt0.
    + by rewrite (lt_trans _ t3) // oppr_lt0 ltr01.
    + by rewrite (lt_trans _ ltr01) // oppr_lt0 ltr01.
  - move=> x; have [-> [-> ->]] := leg2 x; rewrite /c1 /c2.
    move: hq; rewrite /two !inE => /or3P [] /eqP -> /=; rewrite !inE => /orP [] /eqP ->; by field.
  - by rewrite /c1 /c2; move: hq; rewrite !inE => /or3P [] /eqP ->.
  - by rewrite /c2; move: hq; rewrite !inE => /or3P [] /eqP -> // [].
  - by rewrite /two; move: hq; rewrite !inE => /or3P [] /eqP -> // _; rewrite !inE eqxx.
  - by rewrite /two; move: hq; rewrite !inE => /or3P [] /eqP -> // _; rewrite !inE eqxx ?orbT.
have nE (x : RF) : node_in 0 1 x = (x + 1) / 2%:R by rewrite /node_in add0r subr0 mul1r.
have e1 : node_in 0 1 (- 3%:R^-1 : RF) = 3%:R^-1 by rewrite nE; field.
have e2 : node_in 0 1 (3%:R^-1 : RF) = 2%:R / 3%:R by rewrite nE; field.
have lt13 : 3%:R^-1 <= 1 - 1000%:R^-1 :> RF.
  rewrite ler_subr_addr -ler_subr_addl (_ : 1 - 3%:R^-1 = 2%:R / 3%:R); last by field.
  by rewrite ler_pdivl_mulr ?ltr0n // mulrC ler_pdivr_mulr ?ltr0n // -natrM ler_nat.
have a0 : 1000%:R^-1 <= 3%:R^-1 :> RF by rewrite lef_pinv ?posrE ?ltr0n // ler_nat.
have a1 : 3%:R^-1 <= 2%:R / 3%:R :> RF by rewrite -[X in X <= _]mul1r ler_pmul2r // ler1n.
have a2 : 2%:R / 3%:R <= 1 - 1000%:R^-1 :> RF.
  rewrite ler_subr_addr -ler_subr_addl (_ : 1 - 2%:R / 3%:R = 3%:R^-1) //; by field.
have a3 : 1 - 1000%:R^-1 <= 1 :> RF by rewrite ler_subl_addr ler_addl invr_ge0 ler0n.
have f0 (t : RF) : 3%:R^-1 <= t -> t <= 2%:R / 3%:R -> far t 0 /\ far t 1.
  move=> h1 h2; have t0 : 0 <= t by apply: le_trans h1; exact: ltW.
  split; first by apply: sep_far0 => //; [apply: le_trans (le_trans h2 a2) a3|apply: le_trans h1].
  by apply: sep_far1 => //; apply: le_trans h2 a2.
have b1 : far (1 : RF) 0 by apply: sep_far0; rewrite ?ler01 // invf_le1 ?ltr0n // ler1n.
have b2 : far (0 : RF) 1 by apply: sep_far1 => //; rewrite subr_ge0 invf_le1 ?ltr0n // ler1n.
have g1 : node_in 0 1 (1 : RF) = 1 by rewrite node_in_1.
have g2 : node_in 0 1 (-1 : RF) = 0 by rewrite node_in_m1.
have [h1 h2] := f0 _ (lexx _) a1; have [h3 h4] := f0 _ a1 (lexx _).
move=> x; rewrite /two; move: hq; rewrite !inE => /or3P [] /eqP -> /=; rewrite !inE => /orP [] /eqP ->;
  by rewrite ?e1 ?e2 ?g1 ?g2; split=> // [[]].
Qed.
Example C71_nonvacuous qt : qt \in [:: "RADAU-RIGHT"; "RADAU-LEFT"; "LOBATTO"]%string ->
  [/\ qt \in QUAD_TYPES, (least_nodes qt <= 2)%N,
      nodesR (NodesGen "LEGENDRE" qt) 2 = Ok (two qt) & separated 0 1 (two qt)].
Proof.
move=> hq; have [h1 h2] := two_nodes hq; split=> //; first by move: hq; rewrite !inE => /or3P [] /eqP ->.
by rewrite /least_nodes; case: ifP.
Qed.
(* not every LEGENDRE collocation method is stable in the left half plane *)
Theorem C71_all_stable_refuted : exists qt M c Q w (z R : CC),
  [/\ collR M%:Z "LEGENDRE" qt 0 1 = Ok c, co_Q c = fmat Q, co_weights c = map (@Fin RF) w,
      'Re z <= 0 & step_factor (map toC (co_nodes c)) (map toC w) (map (map toC) Q) z R /\ 1 < `|R|].
Proof.
have [hq hn es sep] := C71_nonvacuous (isT : "RADAU-LEFT"%string \in [:: "RADAU-RIGHT"; "RADAU-LEFT"; "LOBATTO"]%string).
have [c [Q [w [[ec eQ ew] h]]]] := C71_real hq hn es sep; have [_ /(_ erefl)] := h 'i%R.
rewrite Re_i => /(_ erefl (neq0Ci _)) [R hR g].
by exists "RADAU-LEFT"%string, 2%N, c, Q, w, 'i%R, R; rewrite Re_i.
Qed.
End Real.

(* three equidistant nodes: (z^2 + 6 z + 12) / (z^2 - 6 z + 12) *)
Example C70_values (K : numFieldType) (z : K) : let xs := [:: 0; 2%:R^-1; 1] in
  stab_sum xs z 0 = (z ^+ 2 - 6%:R * z + 12%:R) / 2%:R /\
  stab_sum xs z 1 = (z ^+ 2 + 6%:R * z + 12%:R) / 2%:R.
Proof.
move=> xs; have e : node_poly xs = 'X^3 - (3%:R / 2%:R) *: 'X^2 + 2%:R^-1 *: 'X.
  rewrite /node_poly !big_cons big_nil -!mul_polyC polyC0 polyC1 subr0 mulr1.
  have h : (3%:R / 2%:R)%:P = 1 + (2%:R^-1)%:P :> {poly K} by rewrite -polyC1 -polyCD; congr (_%:P); field.
  rewrite h.
  by move: ((2%:R^-1)%:P) => c; move: ('X : {poly K}) => x; ring.
have d1 : (node_poly xs)^`() = 3%:R *: 'X^2 - 3%:R *: 'X + (2%:R^-1)%:P.
  rewrite e !(derivD, derivN, derivZ, derivXn, derivX) /= -!scaler_nat !scalerA expr1 alg_polyC.
  by rewrite divfK ?pnatr_eq0.
have d2 : (node_poly xs)^`()^`() = 6%:R *: 'X - 3%:R%:P.
  rewrite d1 !(derivD, derivN, derivZ, derivXn, derivX, derivC) addr0 /= -!scaler_nat !scalerA expr1 alg_polyC.
  by rewrite -natrM.
have d3 : (node_poly xs)^`()^`()^`() = 6%:R%:P.
  by rewrite d2 !(derivB, derivZ, derivX, derivC) subr0 alg_polyC.
rewrite /stab_sum !big_ord_recr !big_ord0 /= d3 d2 d1 e !subSS !subn0 expr0 expr1.
rewrite !(hornerD, hornerN, hornerZ, hornerXn, hornerX, hornerC) /=.
by split; field.
Qed.
Example C70_nonvacuous : let c := qcoll 3%:Z "EQUID" "LOBATTO" 0 1 in
  [/\ nodes_ok (1 : Qf) q_eigh q_id "EQUID" "LOBATTO" 3, logs_all q_id q_id q_under,
      rules_ok q_none q_none q_fejer 3 "FEJER", qinit 3%:Z "EQUID" "LOBATTO" 0 1 = Ok c &
      co_nodes c = [:: 0; 2%:R^-1; 1]] /\
  (forall z, (z = -1 \/ z = 3%:R) -> stab_sum (co_nodes c) z 0 != 0).
Proof.
move=> c; have nE : co_nodes c = [:: 0; 2%:R^-1; 1] by apply/eqP; vm_compute.
split.
  split; [by split|exact: q_logs|exact: q_rules3|by apply: ok_orE; vm_compute|exact: nE].
move=> z hz; rewrite nE; have [-> _] := C70_values z; case: hz => ->; by vm_compute.
Qed.

Print Assumptions C70_stability_function.
Print Assumptions C70_stiff_limit.
Print Assumptions C71_stable.
Print Assumptions C71_radau_left.
Print Assumptions C71_real.
Print Assumptions C71_all_stable_refuted.
