(* Property C78: the declared order of a collocation method is its exact order. *)
From Coq Require Import Reals.
From Verif.Base Require Import Str.
From mathcomp Require Import all_ssreflect all_algebra ring zify complex.
From Verif.Base Require Import QcField RField RRcf Outcome Arr Ext LinSolve PolyInterp PolyInt.
From Verif.Model Require Import Lagrange QGen Nodes Collocation Fejer.
From Verif.Spec Require Import LagrangeSpec QCoeffSpec NodesSpec CollSpec ConvSpec.
From Verif.Proofs Require Import LagrangeP LagrangeInit LagrangeThms OrthoP NodesP NodesThms QuadP LegendreP CollP StabP.
From Verif.Proofs Require Import RootsP OracleP ChebP SharpP ChebSharpP EquidSharpP.
From Verif.Properties Require Import LagrangeProps FejerProps NodesProps CollProps RealProps TimeStepProps SdcOrderProps ConvProps.
Set Implicit Arguments.
Unset Strict Implicit.
Unset Printing Implicit Defensive.
Import GRing.Theory Num.Theory Order.TTheory.
Local Open Scope ring_scope.
Bind Scope ring_scope with R.
Local Open Scope seq_scope.

Section Base.
Variable F : realFieldType.
Variables (fpi : F) (eigh : seq F -> seq F -> seq F) (fsqrt : F -> F).
Notation base nt qt M := (getNodes fpi eigh fsqrt (NodesGen nt qt) (Posz M)).
Notation ort t a b r := (forall q : {poly F}, (size q <= r)%N -> pint (q * nodal t) a b = 0).

(* orthogonality on [a,b] from orthogonality on [-1,1] and conversely *)
Lemma unscale (s : seq F) a b r : a < b -> ort (map (node_in a b) s) a b r -> ort s (-1) 1 r.
Proof.
move=> ab h q sq; pose sc := (b - a) / 2%:R; pose sh := (b + a) / 2%:R.
have n2 : 2%:R != 0 :> F by rewrite pnatr_eq0.
have sc0 : sc != 0 by rewrite /sc mulf_neq0 ?invr_neq0 // subr_eq0 gt_eqF.
pose q' := q \Po aff sc^-1 (- (sh / sc)).
have eq : q' \Po aff sc sh = q.
  rewrite /q' -comp_polyA (_ : aff _ _ \Po aff _ _ = 'X) ?comp_polyXr //.
  rewrite /aff comp_polyD comp_polyC comp_polyZ comp_polyX scalerDr scalerA mulVf // scale1r -addrA.
  by rewrite -mul_polyC -polyCM -polyCD [sc^-1 * sh]mulrC subrr addr0.
have := h q' (leq_trans (size_comp_aff _ _ _) sq).
have := pint_aff (q' * nodal (map (node_in a b) s)) sc sh (-1) 1.
have -> : sc * -1 + sh = a by rewrite /sc /sh; field.
have -> : sc * 1 + sh = b by rewrite /sc /sh; field.
move=> <-; rewrite comp_polyM nodal_scale -/sc eq -scalerAr pintZ => e.
by apply: (mulfI (expf_neq0 (size s) sc0)); apply: (mulfI sc0); rewrite !mulr0.
Qed.
Lemma scale_ort (s : seq F) a b r : a < b -> ort s (-1) 1 r -> ort (map (node_in a b) s) a b r.
Proof. by move=> ab h; apply: scale_ortho => // q sq; rewrite mulrC h. Qed.

(* excess of the declared order over the number of nodes *)
Definition excess (nt qt : string) (M : nat) : nat :=
  if nt == "LEGENDRE"%string then
    (if qt == "GAUSS"%string then M else if is_radau qt then M.-1 else M.-2)
  else if (qt \in [:: "GAUSS"; "LOBATTO"]%string) && (nt \in [:: "EQUID"; "CHEBY-1"; "CHEBY-2"]%string)
  then nat_of_bool (odd M) else 0%N.

Lemma stop_of (s : seq F) a b r : pint ('X^r * nodal s) a b != 0 -> ~ ort s a b r.+1.
Proof. by move=> h o; move: h; rewrite o ?size_polyXn ?eqxx. Qed.

(* equidistant nodes *)
Lemma equid_stop qt M s : qt \in QUAD_TYPES -> (least_nodes qt <= M)%N -> base "EQUID" qt M = Ok s ->
  ~ ort s (-1) 1 (excess "EQUID" qt M).+1.
Proof.
move=> hqt hM; have [M0 hl] := least_pos hM; rewrite getNodes_equid // => -[<-].
pose n := equid_den qt M; pose lo : nat := ~~ has_left qt.
have n0 : (0 < n)%N.
  rewrite /n /equid_den; case: ifP => // _; case: ifP => // /eqP e; move: hl; rewrite e => /(_ isT).
  by case: (M) => [|[]].
have nF : n%:R != 0 :> F by rewrite pnatr_eq0 -lt0n.
have e : map (node_in 0 n%:R) (mkseq (equid F qt M) M) = mkseq (fun i => lo%:R + i%:R) M.
  rewrite /mkseq -map_comp; apply: eq_map => i /=.
  have -> : equid F qt M i = -1 + 2%:R * (lo + i)%:R / n%:R.
    by rewrite /equid /n /equid_den /lo; move: hqt; rewrite !inE => /or4P [] /eqP ->.
  rewrite /node_in natrD; move: (lo%:R) (i%:R) nF => x y nF; field.
  by rewrite nF.
have nE : nodal (mkseq (fun i => lo%:R + i%:R) M) = ff (lo%:R : F) M.
  rewrite /nodal /ff big_map; have -> : iota 0 M = index_iota 0 M by rewrite /index_iota subn0.
  by rewrite big_mkord.
move=> h; have {}h : ort (mkseq (fun i => lo%:R + i%:R) M) 0 n%:R (excess "EQUID" qt M).+1.
  by rewrite -e; apply: scale_ort => //; rewrite ltr0n.
move: h; apply: stop_of; rewrite nE /lo /excess /=.
have mo k : 'X^(nat_of_bool (~~ odd k)) = if odd k then 1 else 'X :> {poly F} by case: (odd k).
have m1 k : 'X^(nat_of_bool (odd k)) = if odd k then 'X else 1 :> {poly F} by case: (odd k).
move: hqt n0 hl; rewrite /n /equid_den !inE => /or4P [] /eqP -> /= n0 hl; rewrite ?expr0 ?mul1r.
- case od: (odd M); last by rewrite expr0 mul1r; apply: (@inner_int _ M.+1) => //=; rewrite od.
  by rewrite expr1; apply: (@inner_mom _ M.+1) => //=; rewrite negbK.
- exact: left_int.
- exact: right_int.
have eM : M = M.-1.+1 by rewrite prednK.
have oM : odd M = ~~ odd M.-1 by rewrite {1}eM.
rewrite oM {2}eM; case od: (odd M.-1); first by rewrite expr0 mul1r; apply: full_int.
by rewrite expr1; apply: full_mom => //; rewrite od.
Qed.

(* Chebyshev nodes *)
Lemma size1 k : (0 < k)%N -> exists m, k = m.+1. Proof. by case: k => // m _; exists m. Qed.
Lemma size2 k : (1 < k)%N -> exists m, k = m.+2. Proof. by case: k => [|[|m]] // _; exists m. Qed.
Lemma cheb_stop nt qt M s : nt \in ORTHO -> nt != "LEGENDRE"%string -> qt \in QUAD_TYPES -> (least_nodes qt <= M)%N ->
  eig_contract fpi eigh fsqrt (NodesGen nt qt) M -> base nt qt M = Ok s ->
  ~ ort s (-1) 1 (excess nt qt M).+1.
Proof.
move=> hnt nl hqt hM ct es; apply: stop_of.
have [s' es' [c0 [c1 [c2 [c00 pr hG hR]]]]] := C62_nodal_polynomial hnt hqt hM ct.
have [s2 es2 [_ _ _ ml mr]] := C19_nodes hnt hqt hM ct.
move: es' es2; rewrite es => -[e1] [e2]; subst s' s2.
have vR : has_right qt -> (nodal s).[1] = 0 by move=> h; apply/eqP; rewrite nodal_val mr.
have vL : has_left qt -> (nodal s).[-1] = 0 by move=> h; apply/eqP; rewrite nodal_val ml.
have [M0 hl] := least_pos hM.
have h11 : 1 * 1 = 1 :> F by rewrite mulr1. have hNN : -1 * -1 = 1 :> F by rewrite mulrNN mulr1.
have kN : - (-1) = 1 :> F by rewrite opprK.
rewrite /excess (negbTE nl); move: vR vL; rewrite /nodal pr !hornerD !hornerZ => vR vL.
move: hnt nl; rewrite !inE => /or4P [/eqP -> //| /eqP en | /eqP en |/orP [] /eqP en] _; subst nt;
  rewrite ?(clasT, clasU, clasV, clasW) in vR vL *; move: hqt; rewrite !inE => /or4P [] /eqP eq; subst qt; rewrite /= ?andbT ?andbF ?expr0 ?mul1r.
(* first kind *)
- by have [-> ->] := hG erefl; rewrite !scale0r !addr0 -scalerAr pintZ mulf_neq0 // gauss_T.
- have e2 := hR (or_introl erefl); have [m em] := size1 M0; subst M; move: (vL isT).
  by rewrite e2 scale0r mul0r !addr0 pintD !pintZ; apply: radau_T.
- have e2 := hR (or_intror erefl); have [m em] := size1 M0; subst M; move: (vR isT).
  by rewrite e2 scale0r mul0r !addr0 pintD !pintZ; apply: radau_T.
- have [m em] := size2 (hl isT); subst M; rewrite /= negbK.
  by apply: lobatto_T => //; [apply: (vR isT)|apply: (vL isT)].
(* second kind *)
- by have [-> ->] := hG erefl; rewrite !scale0r !addr0 -scalerAr pintZ mulf_neq0 // gauss_U.
- have e2 := hR (or_introl erefl); have [m em] := size1 M0; subst M; move: (vL isT).
  by rewrite e2 scale0r mul0r !addr0 pintD !pintZ; apply: radau_U.
- have e2 := hR (or_intror erefl); have [m em] := size1 M0; subst M; move: (vR isT).
  by rewrite e2 scale0r mul0r !addr0 pintD !pintZ; apply: radau_U.
- have [m em] := size2 (hl isT); subst M; rewrite /= negbK.
  by apply: lobatto_U => //; [apply: (vR isT)|apply: (vL isT)].
(* third kind *)
- by have [-> ->] := hG erefl; rewrite !scale0r !addr0 pintZ mulf_neq0 // gauss_Z.
- have e2 := hR (or_introl erefl); have [m em] := size1 M0; subst M; move: (vL isT).
  by rewrite e2 scale0r mul0r !addr0 pintD !pintZ; apply: radau_Zx.
- have e2 := hR (or_intror erefl); have [m em] := size1 M0; subst M; move: (vR isT).
  by rewrite e2 scale0r mul0r !addr0 pintD !pintZ; apply: radau_Zn.
- have [m em] := size2 (hl isT); subst M; rewrite !pintD !pintZ.
  by apply: lobatto_Z => //; rewrite ?kN; [apply: (vL isT)|apply: (vR isT)].
(* fourth kind *)
- by have [-> ->] := hG erefl; rewrite !scale0r !addr0 pintZ mulf_neq0 // gauss_Z.
- have e2 := hR (or_introl erefl); have [m em] := size1 M0; subst M; move: (vL isT).
  have := @radau_Zn F c0 c1 (-1) m c00 hNN; rewrite kN => h.
  by rewrite e2 scale0r mul0r !addr0 pintD !pintZ.
- have e2 := hR (or_intror erefl); have [m em] := size1 M0; subst M; move: (vR isT).
  by rewrite e2 scale0r mul0r !addr0 pintD !pintZ; apply: radau_Zx.
have [m em] := size2 (hl isT); subst M; rewrite !pintD !pintZ.
by apply: lobatto_Z => //; [apply: (vR isT)|apply: (vL isT)].
Qed.
End Base.

Section Props.
Variable F : realFieldType.
(* oracles, restricted by the premises ok, lg and rl *)
Variables (fpi : F) (eigh : seq F -> seq F -> seq F) (fsqrt : F -> F).
Variables (flog fexp : F -> F) (underflow : seq F -> bool).
Variables (leggauss roots_legendre fejer : nat -> outcome (seq F * seq F)).
Notation cinit := (coll_init fpi eigh fsqrt flog fexp underflow leggauss roots_legendre fejer).
Notation base nt qt M := (getNodes fpi eigh fsqrt (NodesGen nt qt) (Posz M)).
Notation ort t a b r := (forall q : {poly F}, (size q <= r)%N -> pint (q * nodal t) a b = 0).

Section One.
Variables (nt qt : string) (M : nat) (a b : F).
Hypothesis ok : nodes_ok fpi eigh fsqrt nt qt M.
Hypothesis ab : a < b.
Hypothesis lg : logs_all flog fexp underflow.
Hypothesis rl : rules_ok leggauss roots_legendre fejer M "FEJER".
Variable c : coll F.
Hypothesis ec : cinit M%:Z nt qt a b = Ok c.
Variable s : seq F.
Hypothesis es : base nt qt M = Ok s.
Hypothesis sep : separated a b s.
Variable p : nat.
Hypothesis ep : coll_order c = Some p.

Let facts : [/\ co_Q c = fmat (Qm (co_nodes c) a), co_weights c = map (@Fin F) (wv (co_nodes c) a b),
  size (co_nodes c) = M & sorted <%O (co_nodes c)].
Proof.
have [self [e g z t l]] := collE ok ab lg rl es.
by move: ec; rewrite e => -[ce]; rewrite -ce /=; split.
Qed.
Let nodesE : co_nodes c = map (node_in a b) s.
Proof. exact: (C28_nodes_kept ok ab lg rl ec es sep). Qed.

Lemma pE : p = (M + excess nt qt M)%N.
Proof.
have [_ _ z _] := facts; have [hnt hqt hM _] := ok; have [M0 hl] := least_pos hM.
have [self [e g _ t l]] := collE ok ab lg rl es.
move: ep; rewrite /coll_order z; have [-> ->] : co_nodeType c = nt /\ co_quadType c = qt.
  by move: ec; rewrite e => -[<-].
rewrite /excess; case: (nt =P "LEGENDRE"%string) => _ /=; last first.
  by case: ifP => _ [<-]; rewrite ?modn2 ?addn0.
move: hqt hl; rewrite !inE => /or4P [] /eqP -> /= hl [<-]; try lia.
by have := hl isT; lia.
Qed.

Lemma stop : ~ ort (co_nodes c) a b (excess nt qt M).+1.
Proof.
have [hnt hqt hM ct] := ok; have [M0 hl] := least_pos hM; have [_ _ z _] := facts.
have [s' es' [zs ss al ml mr]] := base_nodes ok; move: es'; rewrite es => -[e]; subst s'.
case: (nt =P "LEGENDRE"%string) => [eL|/eqP nL].
  have inj x y : node_in a b x = node_in a b y -> x = y.
    rewrite /node_in => /addrI; have h : b - a != 0 by rewrite subr_eq0 gt_eqF.
    move/(mulfI h) => e; have h2 : 2%:R^-1 != 0 :> F by rewrite invr_eq0 pnatr_eq0.
    by move: e; move/(mulIf h2)/addIr.
  have ta : (a \in co_nodes c) = has_left qt.
    rewrite nodesE -ml; have {1}-> : a = node_in a b (-1) by rewrite /node_in addNr mul0r mulr0 addr0.
    by rewrite mem_map.
  have tb : (b \in co_nodes c) = has_right qt.
    rewrite nodesE -mr; have {1}-> : b = node_in a b 1 by rewrite /node_in; field.
    by rewrite mem_map.
  rewrite /excess eL /= -z; have Z0 : (0 < size (co_nodes c))%N by rewrite z.
  move: hqt hl ta tb; rewrite !inE => /or4P [] /eqP -> /= hl ta tb.
  - exact: gauss_stop.
  - by apply: radau_stop => //; rewrite ta tb.
  - by apply: radau_stop => //; rewrite ta tb.
  by apply: lobatto_stop => //; rewrite ?ta ?tb // z; apply: hl.
rewrite nodesE => /(unscale ab); case: (nt =P "EQUID"%string) => [eE|nE].
  by rewrite eE; apply: (@equid_stop _ fpi eigh fsqrt) => //; rewrite -eE.
apply: (@cheb_stop _ fpi eigh fsqrt) => //; last exact: ct.
by move: hnt nE; rewrite !inE => /orP [/eqP|].
Qed.

Let orth : ort (co_nodes c) a b (excess nt qt M).
Proof.
have [_ _ z t] := facts; have [p' e [_ h]] := declared_order ok ab lg rl ec es sep.
move: e; rewrite ep => -[e]; subst p'; move=> q sq.
have := h (q * nodal (co_nodes c)); rewrite qsum_nodal => <- //.
rewrite pE; apply: leq_trans (size_mul_leq _ _) _; rewrite size_nodal z addnS /= addnC leq_add2l.
exact: sq.
Qed.

(* C78: no quadrature of a higher degree *)
Theorem C78_exact_order : exact_order a b c p /\
  forall P : {poly F}, size P = p.+2 -> forall w, co_weights c = map (@Fin F) w ->
    dot w (pvals P^`() (co_nodes c)) != P.[b] - P.[a].
Proof.
split; first by have [p' e h] := C25_declared_order ok ab lg rl ec es sep; move: e; rewrite ep => -[->].
move=> P sP w; have [_ ew z t] := facts; rewrite ew => /(inj_map (f := @Fin F)) <-; last by move=> x y [].
have zw : size (wv (co_nodes c) a b) = M by rewrite size_mkseq z.
have zp : size (pvals P^`() (co_nodes c)) = M by rewrite size_map z.
rewrite (@dotE _ _ _ M) // -(pint_deriv P a b).
have -> : \sum_(i < M) nth 0 (wv (co_nodes c) a b) i * nth 0 (pvals P^`() (co_nodes c)) i =
  qsum (co_nodes c) a b P^`().
  by rewrite /qsum z; apply: eq_bigr => j _; rewrite nth_mkseq ?z // (nth_map 0) ?z.
apply: (qsum_sharp t orth stop); rewrite z -pE.
have nz : P`_p.+1 != 0 by rewrite -[p.+1]/(p.+2.-1) -sP -lead_coefE lead_coef_eq0 -size_poly_gt0 sP.
apply/eqP; rewrite eqn_leq; apply/andP; split.
  by rewrite -ltnS -sP lt_size_deriv // -size_poly_gt0 sP.
rewrite ltnNge; apply: contra nz => /leq_sizeP /(_ p (leqnn p)) /eqP.
by rewrite coef_deriv mulrn_eq0.
Qed.
(* in particular the declared order is the greatest possible one *)
Theorem C78_not_higher k : exact_order a b c k -> (k <= p)%N.
Proof.
case=> w ew h; rewrite leqNgt; apply/negP => pk; have [_ /(_ 'X^p.+1)] := C78_exact_order.
rewrite size_polyXn => /(_ erefl w ew); rewrite h ?eqxx // size_polyXn //.
Qed.
(* the order conditions of the test equation: the next moment is wrong *)
Theorem C78_moments Q w k : co_Q c = fmat Q -> co_weights c = map (@Fin F) w -> (k <= p)%N ->
  (moment M Q w k == (b - a) ^+ k.+1 / (k.+1`!)%:R) = (k < p)%N.
Proof.
have [eQ ew z t] := facts; move=> eQ' ew'.
have -> : Q = Qm (co_nodes c) a by apply: fmat_inj; rewrite -eQ -eQ'.
have -> : w = wv (co_nodes c) a b by apply: (inj_map (f := @Fin F)); [move=> x y []|rewrite -ew -ew'].
rewrite leq_eqVlt => /orP [/eqP ->|kp]; last first.
  rewrite kp; have [Q2 [w2 [e1 e2 mE]]] := C26_moments ok ab lg rl ec es sep ep kp.
  have -> : Qm (co_nodes c) a = Q2 by apply: fmat_inj; rewrite -eQ.
  have -> : wv (co_nodes c) a b = w2 by apply: (inj_map (f := @Fin F)); [move=> x y []|rewrite -ew].
  by rewrite mE eqxx.
rewrite ltnn; apply/negbTE; have := moment_sharp t orth stop; by rewrite z -pE.
Qed.
End One.
End Props.

(* over the real numbers, no premises on the oracles: the error reported by errorDahlquist for a
   collocation method decreases with the number of steps exactly like N^-p, p the declared order *)
Section Rate.
Notation RF := r_realFieldType.
Variable underflow : seq RF -> bool.
Notation fejerR := (fun k : nat => computeFejerRule k).
Notation eighR := (@eigh_ref r_rcfType).
Notation gaussR := (@gauss_ref r_rcfType).
Notation collR := (coll_init (F := RF) PI eighR sqrt ln exp underflow gaussR gaussR fejerR).
Notation nodesR := (getNodes (F := RF) PI eighR sqrt).
Variables (nt qt : string) (M : nat) (s : seq RF).
Hypothesis hnt : nt \in NODE_TYPES.
Hypothesis hqt : qt \in QUAD_TYPES.
Hypothesis hM : (least_nodes qt <= M)%N.
Hypothesis es : nodesR (NodesGen nt qt) M%:Z = Ok s.
Hypothesis sep : separated 0 1 s.

Theorem C78_rate : exists c Q w p,
  [/\ collR M%:Z nt qt 0 1 = Ok c, co_Q c = fmat Q, co_weights c = map (@Fin RF) w & coll_order c = Some p] /\
  forall we lam u0 tEnd, lam * tEnd != 0 -> u0 != 0 ->
  exact_rate (fun N => errorDahlquist cexp (map toC (co_nodes c)) (map toC w) we (map (map toC) Q)
                         lam u0 tEnd N%:Z None false) p.
Proof.
have [c [Q [w [p [[ok lg rl ec] [[eQ ew ep M0] [shQ zw zn mom]]]]]]] := coll_facts underflow hnt hqt hM es sep.
exists c, Q, w, p; split=> // we lam u0 tEnd Zn un.
have h01 : 0 < 1 :> RF by exact: ltr01.
have pM : (0 < p)%N by rewrite (pE ok h01 lg rl ec es ep) addn_gt0 M0.
have mE k : moment M (map (map toC) Q) (map toC w) k = toC (moment M Q w k) := moment_map toC k shQ zw.
apply: C77_rk_rate => //; rewrite ?size_map ?zn //.
- exact: map_shape.
- by move=> k kp; rewrite mE mom // fmorphV rmorph_nat.
rewrite mE; have := C78_moments ok h01 lg rl ec es sep ep eQ ew (leqnn p).
rewrite ltnn subr0 expr1n mul1r => /negbT h; rewrite subr_eq0.
by apply: contra h => /eqP e; apply/eqP; apply: (fmorph_inj toC); rewrite e fmorphV rmorph_nat.
Qed.
End Rate.

(* three equidistant nodes on [0,1], Simpson's rule, order 4: 4 x^3 is integrated exactly,
   5 x^4 gives 25/24 *)
Example C78_nonvacuous : let c := qcoll 3%:Z "EQUID" "LOBATTO" 0%R 1%R in
  (nodes_ok (1 : Qf) q_eigh q_id "EQUID" "LOBATTO" 3 /\ rules_ok q_none q_none q_fejer 3 "FEJER") /\
  (qbase (NodesGen "EQUID" "LOBATTO") 3%:Z = Ok [:: -1; 0; 1]%R /\ separated 0 (1 : Qf) [:: -1; 0; 1]%R) /\
  (qinit 3%:Z "EQUID" "LOBATTO" 0%R 1%R = Ok c /\ coll_order c = Some 4%N) /\
  exists w, [/\ co_weights c = map (@Fin Qf) w,
    dot w (map (fun x => 4%:R * x ^+ 3) (co_nodes c)) = 1 &
    dot w (map (fun x => 5%:R * x ^+ 4) (co_nodes c)) = qc 25 24].
Proof.
have [e1 [e2 [_ [_ [_ [e3 [e4 _]]]]]]] := C25_nonvacuous.
move=> c; split; first by split; [split|exact: q_rules3].
split; first exact: (conj e1 e2).
split; first exact: (conj e3 e4).
exists [:: qc 1 6; qc 2 3; qc 1 6]; by split; apply/eqP; vm_compute.
Qed.

Print Assumptions C78_exact_order.
Print Assumptions C78_not_higher.
Print Assumptions C78_moments.
Print Assumptions C78_rate.
