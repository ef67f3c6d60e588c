(* Properties C21-C29: collocation. *)
From Coq Require Import ZArith QArith Qcanon.
From Verif.Base Require Import Str.
From mathcomp Require Import all_ssreflect all_algebra ring zify.
From Verif.Base Require Import QcField Outcome Arr Ext PolyInterp PolyInt.
From Verif.Model Require Import Lagrange QGen Nodes Collocation Butcher.
From Verif.Spec Require Import LagrangeSpec QCoeffSpec NodesSpec CollSpec ButcherSpec.
From Verif.Proofs Require Import LagrangeP LagrangeInit LagrangeThms OrthoP NodesP NodesThms QuadP LegendreP CollP StabP.
From Verif.Properties Require Import NodesProps RKProps.
Set Implicit Arguments.
Unset Strict Implicit.
Unset Printing Implicit Defensive.
Import GRing.Theory Num.Theory Order.TTheory.
Local Open Scope ring_scope.

Section Props.
Variable F : realFieldType.
(* oracles, restricted by the premises ok, lg and rl *)
Variables (fpi : F) (eigh : seq F -> seq F -> seq F) (fsqrt : F -> F).
Variables (flog fexp : F -> F) (underflow : seq F -> bool).
Variables (leggauss roots_legendre fejer : nat -> outcome (seq F * seq F)).
Notation cinit := (coll_init fpi eigh fsqrt flog fexp underflow leggauss roots_legendre fejer).
Notation base nt qt M := (getNodes fpi eigh fsqrt (NodesGen nt qt) (Posz M)).

Section One.
Variables (nt qt : string) (M : nat) (a b : F).
Hypothesis ok : nodes_ok fpi eigh fsqrt nt qt M.
Hypothesis ab : a < b.
Hypothesis lg : logs_all flog fexp underflow.
Hypothesis rl : rules_ok leggauss roots_legendre fejer M "FEJER".

(* C21 *)
Theorem C21_defined : exists c, cinit M%:Z nt qt a b = Ok c.
Proof.
have [s es _] := base_nodes ok.
by have [self [e _ _ _ _]] := collE ok ab lg rl es; eexists; exact: e.
Qed.

Variable c : coll F.
Hypothesis ec : cinit M%:Z nt qt a b = Ok c.

Let facts : exists s self, let tau := co_nodes c in
  [/\ base nt qt M = Ok s, tau = snap_nodes a b (scale_nodes a b s),
      c = Coll nt qt a b tau self (fmat (Qm tau a)) (map (@Fin F) (wv tau a b)) &
      good tau "USE_LEFT" self] /\
  [/\ size tau = M, sorted <%O tau, all (fun x => a <= x <= b) tau & (0 < M)%N].
Proof.
have [s es [zs _ _ _ _]] := base_nodes ok.
have [self [e g z t l]] := collE ok ab lg rl es; exists s, self.
move: ec; rewrite e => -[ce]; rewrite -ce /=; split; split=> //.
by have [_ _ hM _] := ok; have [] := least_pos hM.
Qed.

(* the nodes: M of them, strictly increasing, in the interval *)
Theorem C21_nodes : size (co_nodes c) = M /\ sorted <%O (co_nodes c) /\
  all (fun x => a <= x <= b) (co_nodes c).
Proof. by have [s [self [_ [? ? ? _]]]] := facts. Qed.

Theorem C21_exact : exists Q w,
  co_Q c = fmat Q /\ co_weights c = map (@Fin F) w /\ is_shape Q M M /\ size w = M /\
  (forall P : {poly F}, (size P <= M.+1)%N ->
    mv Q (pvals P^`() (co_nodes c)) = [seq P.[t] - P.[a] | t <- co_nodes c] /\
    dot w (pvals P^`() (co_nodes c)) = P.[b] - P.[a]) /\
  [seq vsum r | r <- Q] = [seq t - a | t <- co_nodes c] /\ vsum w = b - a.
Proof.
have [s [self [[_ _ eC _] [z t _ M0]]]] := facts; exists (Qm (co_nodes c) a), (wv (co_nodes c) a b).
rewrite {1 3}eC /=; have zQ := Qm_shape (co_nodes c) a; rewrite z in zQ.
have zw x y : size (wv (co_nodes c) x y) = M by rewrite size_mkseq.
have dE x y (p : {poly F}) : dot (wv (co_nodes c) x y) (pvals p (co_nodes c)) = qsum (co_nodes c) x y p.
  rewrite (@dotE _ _ _ M) // ?size_map // /qsum z; apply: eq_bigr => j _.
  by rewrite nth_mkseq ?z // (nth_map 0) ?z.
have dP x y (P : {poly F}) : (size P <= M.+1)%N ->
    dot (wv (co_nodes c) x y) (pvals P^`() (co_nodes c)) = P.[y] - P.[x].
  move=> sP; rewrite dE qsum_exact // ?pint_deriv // z.
  by rewrite (leq_trans (size_poly _ _)) //; move: sP; case: (size P).
have sE x y : vsum (wv (co_nodes c) x y) = y - x.
  have sX : (size ('X : {poly F}) <= M.+1)%N by rewrite size_polyX.
  have := dP x y 'X sX; rewrite !hornerX => <-; rewrite derivX vsumE zw (@dotE _ _ _ M) // ?size_map //.
  by apply: eq_bigr => j _; rewrite (nth_map 0) ?z // hornerC mulr1.
split=> //; split=> //; split=> //; split=> //; split; last split => //.
  by move=> P sP; rewrite dP //; split=> //; rewrite /mv -map_comp; apply: eq_map => t' /=; exact: dP.
by rewrite /Qm -map_comp; apply: eq_map => t' /=; exact: sE.
Qed.

(* C22 *)
Theorem C22_last_row : last 0 (co_nodes c) = b -> last [::] (co_Q c) = co_weights c.
Proof.
have [s [self [[_ _ eC _] [z t _ M0]]]] := facts => lb.
rewrite {1 2}eC /= /fmat -[last [::] _]nth_last !size_map (nth_map [::]) ?size_map ?z ?prednK //.
by congr (map _ _); rewrite (nth_map 0) ?z ?prednK // /wv -lb -nth_last z.
Qed.

Theorem C22_first_row : nth 0 (co_nodes c) 0 = a -> head [::] (co_Q c) = nseq M (Fin 0).
Proof.
have [s [self [[_ _ eC _] [z t _ M0]]]] := facts => ha.
rewrite {1}eC /= -nth0 /fmat (nth_map [::]) ?size_map ?z // (nth_map 0) ?z // ha.
apply: (@eq_from_nth _ (Fin 0)); rewrite size_map size_mkseq ?size_nseq ?z // => i il.
by rewrite (nth_map 0) ?size_mkseq // nth_mkseq // pint_refl nth_nseq il.
Qed.

(* when a quadrature type includes an end point, it is a node *)
Theorem C22_left_is_node : has_left qt -> nth 0 (co_nodes c) 0 = a.
Proof.
have [s [self [[es eT _ _] _]]] := facts => hl.
have [s' es' [zs ss al e1 _]] := base_nodes ok; move: es'; rewrite es => -[e]; subst s'.
have [_ _ hM _] := ok; have [M0 M1] := least_pos hM; have {}M1 := M1 hl.
rewrite eT /snap_nodes; set s1 := if allclose a _ then _ else _.
have [zsc _ _] := scale_ok ab ss al; rewrite zs in zsc.
have z1 : size s1 = M.
  by rewrite /s1; case: ifP => _; rewrite ?size_set_nth zsc //; apply/maxn_idPr.
have h0 : nth 0 s1 0 = a.
  rewrite /s1; case: ifP => _; first by rewrite nth_set_nth.
  rewrite scale_nodesE (nth_map 0) ?zs // (head_sorted ss (x := -1)) ?node_in_m1 ?e1 ?hl //.
  by move=> y ys; have /andP [] := allP al y ys.
by case: ifP => _ //; rewrite /set_last nth_set_nth /= z1; case: (M) M1 => [|[]].
Qed.

Theorem C22_right_is_node : has_right qt -> (1 < M)%N -> last 0 (co_nodes c) = b.
Proof.
have [s [self [[es eT _ _] [z _ _ M0]]]] := facts => hr M1.
have [s' es' [zs ss al _ e1]] := base_nodes ok; move: es'; rewrite es => -[e]; subst s'.
rewrite -nth_last z eT /snap_nodes; set s1 := if allclose a _ then _ else _.
have [zsc _ _] := scale_ok ab ss al; rewrite zs in zsc.
have z1 : size s1 = M.
  by rewrite /s1; case: ifP => _; rewrite ?size_set_nth zsc //; apply/maxn_idPr.
case: ifP => _; first by rewrite /set_last nth_set_nth /= z1 eqxx.
have h0 : nth 0 (scale_nodes a b s) M.-1 = b.
  rewrite scale_nodesE (nth_map 0) ?zs ?prednK // -zs (last_sorted ss (x := 1)) ?node_in_1 ?e1 ?hr //.
  by move=> y ys; have /andP [] := allP al y ys.
rewrite /s1; case: ifP => _ //; rewrite nth_set_nth /=.
by have -> : (M.-1 == 0%N) = false by case: (M) M1 => [|[]].
Qed.

(* C23 *)
Theorem C23_S : exists Q S, co_Q c = fmat Q /\ coll_S leggauss roots_legendre fejer c = Ok (fmat S) /\
  is_shape S M M /\ S = smat Q /\ mm M (tmat F M) Q = S /\ mm M (trimat F M) S = Q.
Proof.
have [s [self [[_ _ eC g] [z t _ M0]]]] := facts.
set tau := co_nodes c in eC g z t.
have zQ := Qm_shape tau a; rewrite z in zQ.
have := @C36_N2N_rows F flog fexp underflow (Rk (Qm tau a) [::] [::] None) M zQ.
case=> S eS [shS [entS [h1 h2]]]; exists (Qm tau a), S; rewrite {1}eC; split=> //.
have t0 : (0 < size tau)%N by rewrite z.
have rl' : rules_ok leggauss roots_legendre fejer (size tau) "FEJER" by rewrite z.
have zs : size (Qm tau a) = M by case/is_shapeP: zQ.
split; last by rewrite /smat zs.
rewrite /coll_S eC [co_nodes _]/= [co_approx _]/= [co_tLeft _]/=.
rewrite (sorted_integ t t0 (logs_all_ok _ lg) rl') //; congr (Ok (fmat _)).
apply: (mat_ext (m := M) (n := M)) => //.
  rewrite /is_shape size_map size_mkseq z eqxx all_map (eq_all (a2 := predT)) ?all_predT // => x.
  by rewrite /= size_mkseq eqxx.
move=> i j il jl; rewrite entS // /ent (nth_map (0, 0)) ?size_mkseq ?z // !nth_mkseq ?z //=.
rewrite -/(ent (Qm tau a) i j) (ent_Qm a) ?z //.
case: i il => [|i] il /=; first by rewrite subr0.
by rewrite -/(ent (Qm tau a) i j) (ent_Qm a) ?z ?(ltnW il) // -(pint_add _ a (nth 0 tau i) (nth 0 tau i.+1)) addrC addKr.
Qed.

(* C36 for collocation: hCoeffs are returned, there are no embedded weights *)
Theorem C36_collocation form (h : bool) : form = "Z2N"%string \/ form = "N2N"%string ->
  let g := coll_gen leggauss roots_legendre fejer c in
  genCoeffs g form h true = Raise NotImplementedError /\
  exists2 mat, (if form == "Z2N"%string then mat = co_Q c else coll_S leggauss roots_legendre fejer c = Ok mat) &
  genCoeffs g form h false =
    Ok {| c_nodes := map (@Fin F) (co_nodes c); c_weights := W1 (co_weights c); c_mat := mat;
          c_h := if h then Some (coll_hCoeffs c) else None |}.
Proof.
have [_ [S [_ [eS _]]]] := C23_S.
move=> hf; case: hf => ->; rewrite /genCoeffs /= ?eS /=; split=> //.
  by exists (co_Q c) => //; case: h.
by exists (fmat S) => //; case: h.
Qed.

(* C28: the node list is the scaled list unless a node is close to an end point it differs from *)
Theorem C28_nodes_kept s : base nt qt M = Ok s -> separated a b s ->
  co_nodes c = map (node_in a b) s.
Proof.
have [s1 [self [[es eT _ _] _]]] := facts => es'; move: es; rewrite es' => -[e]; subst s1.
have [s' es2 [zs ss al _ _]] := base_nodes ok; move: es2; rewrite es' => -[e]; subst s' => sep.
rewrite eT snap_id //; have [_ _ hM _] := ok; have [M0 _] := least_pos hM; by rewrite zs.
Qed.

(* exactness of the weights, with the declared order *)
Definition exact_order (p : nat) : Prop := exists2 w, co_weights c = map (@Fin F) w &
  forall P : {poly F}, (size P <= p.+1)%N ->
    dot w (pvals P^`() (co_nodes c)) = P.[b] - P.[a].

Let order_from p : (forall q : {poly F}, (size q <= p)%N -> qsum (co_nodes c) a b q = pint q a b) ->
  exact_order p.
Proof.
have [s [self [[_ _ eC g] [z t _ M0]]]] := facts => h.
exists (wv (co_nodes c) a b); first by rewrite {1}eC.
move=> P sP; have sd : (size P^`() <= p)%N.
  by rewrite (leq_trans (size_poly _ _)) //; move: sP; case: (size P).
have zw : size (wv (co_nodes c) a b) = M by rewrite size_mkseq.
have zp : size (pvals P^`() (co_nodes c)) = M by rewrite size_map.
rewrite (@dotE _ _ _ M) // -(pint_deriv P a b) -h // /qsum z.
by apply: eq_bigr => j _; rewrite nth_mkseq ?z // (nth_map 0) ?z.
Qed.

Lemma declared_order s : base nt qt M = Ok s -> separated a b s ->
  exists2 p, coll_order c = Some p & (M <= p)%N /\
  forall q : {poly F}, (size q <= p)%N -> qsum (co_nodes c) a b q = pint q a b.
Proof.
move=> es sep; have eT := C28_nodes_kept es sep.
have [s1 [self [[es1 _ eC g] [z t _ M0]]]] := facts; move: es1; rewrite es => -[e]; subst s1.
have [s' es2 [zs ss al _ _]] := base_nodes ok; move: es2; rewrite es => -[e]; subst s'.
have [hnt hqt hM ct] := ok.
have exM (q : {poly F}) : (size q <= M)%N -> qsum (co_nodes c) a b q = pint q a b.
  by move=> sq; rewrite qsum_exact // z.
have [oE1 oE2 oE3] : [/\ co_nodeType c = nt, co_quadType c = qt & size (co_nodes c) = M].
  by rewrite z eC.
rewrite /coll_order oE1 oE2 oE3; case: (nt =P "LEGENDRE"%string) => [ntE|ntE] /=.
  pose r := if qt == "GAUSS"%string then M else if is_radau qt then M.-1 else M.-2.
  have orth : forall q : {poly F}, (size q <= M + r)%N -> qsum (co_nodes c) a b q = pint q a b.
    rewrite -z; apply: qsum_order => // q sq; rewrite eT; apply: (@scale_ortho _ s a b r) => //.
    move=> q' sq'; apply: (@legendre_nodal F fpi eigh fsqrt qt M s r) => //; last by rewrite -ntE.
    by rewrite -ntE.
  have hl : has_left qt -> (1 < M)%N by have [_] := least_pos hM.
  move: hqt orth hl; rewrite /r !inE => /or4P [] /eqP -> /= h hl.
  - by exists (2 * M)%N => //; split; [lia|move=> q sq; apply: h; lia].
  - by exists (2 * M - 1)%N => //; have := hl isT; split; [lia|move=> q sq; apply: h; lia].
  - by exists (2 * M - 1)%N => //; split; [lia|move=> q sq; apply: h; lia].
  - by exists (2 * M - 2)%N => //; have := hl isT; split; [lia|move=> q sq; apply: h; lia].
case: ifP => [/andP [hq hn]|_]; last by exists M.
exists (M + M %% 2)%N => //; split; first exact: leq_addr.
rewrite modn2; case od: (odd M); last by rewrite addn0.
move=> q; rewrite addn1 -z => sq; apply: qsum_sym sq => //; first by rewrite z.
have sym : s = rev (map -%R s).
  case: (nt =P "EQUID"%string) => [nE|ne].
    have emq : mirror_qt qt = qt by move: hq; rewrite !inE => /orP [] /eqP ->.
    by apply: (@C20_equidistant F fpi eigh fsqrt qt M s s); rewrite ?emq -?nE.
  apply: (@C20_symmetric F fpi eigh fsqrt nt qt M) => //; last exact: ct.
  by move: hn; rewrite !inE => /or3P [/eqP|->|->]; rewrite ?orbT.
move=> j jl; rewrite z in jl *; have jl' : (M - j.+1 < M)%N by rewrite ltn_subrL M0.
rewrite eT !(nth_map 0) ?zs // {1}sym nth_rev ?size_map ?zs // (nth_map 0) ?zs; last by rewrite subnSK // subKn // ltnW.
have -> : (M - (M - j.+1).+1)%N = j by rewrite subnSK // subKn // ltnW.
by rewrite /node_in; field.
Qed.

(* C24, C25: the weights have the declared order, for every node and quadrature type *)
Theorem C25_declared_order s : base nt qt M = Ok s -> separated a b s ->
  exists2 p, coll_order c = Some p & exact_order p.
Proof. by move=> es sep; have [p e [_ h]] := declared_order es sep; exists p => //; apply: order_from. Qed.

Theorem C24_legendre_order s : nt = "LEGENDRE"%string -> base nt qt M = Ok s -> separated a b s ->
  (qt = "GAUSS"%string -> exact_order (2 * M)) /\
  (qt = "RADAU-LEFT"%string \/ qt = "RADAU-RIGHT"%string -> exact_order (2 * M - 1)) /\
  (qt = "LOBATTO"%string -> exact_order (2 * M - 2)).
Proof.
move=> ntE es sep; have [p e h] := C25_declared_order es sep.
have [s1 [self [[_ _ eC _] _]]] := facts.
move: e; rewrite /coll_order; have [oE1 oE2] : co_nodeType c = nt /\ co_quadType c = qt by rewrite eC.
rewrite oE1 oE2 ntE /=; have [z _] := C21_nodes; rewrite z => e.
split; [|split]; [move=> qE|case=> qE|move=> qE]; by move: e; rewrite qE /= => -[->].
Qed.

(* C26 *)
Theorem C26_moments s p k : base nt qt M = Ok s -> separated a b s -> coll_order c = Some p ->
  (k < p)%N -> exists Q w, [/\ co_Q c = fmat Q, co_weights c = map (@Fin F) w &
  moment M Q w k = (b - a) ^+ k.+1 / (k.+1`!)%:R].
Proof.
move=> es sep ep kp; have [p' e [Mp h]] := declared_order es sep.
move: e; rewrite ep => -[e]; subst p'.
have [s1 [self [[_ _ eC g] [z t _ M0]]]] := facts.
exists (Qm (co_nodes c) a), (wv (co_nodes c) a b); rewrite {1 3}eC; split=> //.
by rewrite -{1}z; apply: (coll_moment t h) => //; rewrite z.
Qed.
End One.

(* one step on the unit interval, in any field containing F *)
Theorem C26_dahlquist_order nt qt M c s p (K : numFieldType) (f : {rmorphism F -> K}) (lam dt u0 : K) :
  nodes_ok fpi eigh fsqrt nt qt M -> logs_all flog fexp underflow ->
  rules_ok leggauss roots_legendre fejer M "FEJER" ->
  cinit M%:Z nt qt 0 1 = Ok c -> base nt qt M = Ok s -> separated 0 1 s ->
  coll_order c = Some p ->
  exists Q w R, [/\ co_Q c = fmat Q, co_weights c = map (@Fin F) w &
   let Q' := map (map f) Q in let w' := map f w in let z := lam * dt in
   `|z| * mnorm Q' <= 2%:R^-1 ->
   solveDahlquist (map f (co_nodes c)) w' (Raise NotImplementedError) Q' lam u0 dt 1 false =
     Ok [:: u0; R * u0] /\
   `|R - expser p z| <= 2%:R * M%:R * vnorm1 w' * mnorm Q' ^+ p * `|z| ^+ p.+1].
Proof.
move=> ok lg rl ec es sep ep; have h01 : 0 < 1 :> F by exact: ltr01.
have mom k : (k < p)%N -> _ := C26_moments ok h01 lg rl ec es sep ep (k := k).
have [Q [w [eQ [ew [shQ [zw _]]]]]] := C21_exact ok h01 lg rl ec.
have [zn _] := C21_nodes ok h01 lg rl ec.
exists Q, w, (stabf M (map (map f) Q) (map f w) (lam * dt)); split=> // Q' w' z hz.
have shQ' : is_shape Q' M M.
  case/andP: shQ => q1 q2; rewrite /is_shape size_map q1 all_map; apply: sub_all q2 => r /=.
  by rewrite size_map.
have zw' : size w' = M by rewrite size_map.
split.
  rewrite (dahlquistE _ _ _ _ _ shQ') ?size_map //= divr1 -/z (small_unit shQ' hz).
  by rewrite /mkseq /= expr0 mul1r expr1.
apply: (le_trans (stabf_remainder p shQ' zw' hz)); rewrite ger_addr.
rewrite big1 // => k _; rewrite (moment_map f k shQ zw).
have [Q2 [w2 [eQ2 ew2 mE]]] := mom k (ltn_ord k).
have e1 : Q2 = Q by apply: fmat_inj; rewrite -eQ2 -eQ.
have e2 : w2 = w by apply: (inj_map (f := @Fin F)); [move=> x y []|rewrite -ew2 -ew].
move: mE; rewrite e1 e2 => ->; rewrite subr0 expr1n mul1r fmorphV rmorph_nat subrr normr0 mulr0 //.
Qed.

(* C27 *)
Theorem C27_affine nt qt M a b c c1 s :
  nodes_ok fpi eigh fsqrt nt qt M -> logs_all flog fexp underflow ->
  rules_ok leggauss roots_legendre fejer M "FEJER" -> a < b ->
  base nt qt M = Ok s -> separated a b s -> separated 0 1 s ->
  cinit M%:Z nt qt a b = Ok c -> cinit M%:Z nt qt 0 1 = Ok c1 ->
  co_nodes c = [seq a + (b - a) * t | t <- co_nodes c1] /\
  (exists Q w, co_Q c1 = fmat Q /\ co_weights c1 = map (@Fin F) w /\
     co_Q c = fmat (mscale (b - a) Q) /\ co_weights c = map (@Fin F) [seq (b - a) * x | x <- w]) /\
  forall ts, getInterpolationMatrix (co_approx c) [seq a + (b - a) * t | t <- ts] true =
             getInterpolationMatrix (co_approx c1) ts true.
Proof.
move=> ok lg rl ab es sep sep1 ec ec1; have h01 : 0 < 1 :> F by exact: ltr01.
have n1 := C28_nodes_kept ok h01 lg rl ec1 es sep1; have n2 := C28_nodes_kept ok ab lg rl ec es sep.
have nE : co_nodes c = [seq a + (b - a) * t | t <- co_nodes c1].
  by rewrite n1 n2 -map_comp; apply: eq_map => x /=; exact: node_in_01.
have [self [e g z t _]] := collE ok ab lg rl es; have [self1 [e1 g1 z1 t1 _]] := collE ok h01 lg rl es.
move: ec ec1; rewrite e e1 => -[ec] [ec1].
move: e e1 g g1 z z1 t t1; rewrite (_ : snap_nodes a b _ = co_nodes c); last by rewrite -ec.
rewrite (_ : snap_nodes 0 1 _ = co_nodes c1); last by rewrite -ec1.
move=> e e1 g g1 z z1 t t1.
have {}ec : c = Coll nt qt a b (co_nodes c) self (fmat (Qm (co_nodes c) a)) (map (@Fin F) (wv (co_nodes c) a b)).
  by rewrite -ec.
have {}ec1 : c1 = Coll nt qt 0 1 (co_nodes c1) self1 (fmat (Qm (co_nodes c1) 0)) (map (@Fin F) (wv (co_nodes c1) 0 1)).
  by rewrite -ec1.
have h0 : 0 < b - a by rewrite subr_gt0.
have wE x y : wv (co_nodes c) (a + (b - a) * x) (a + (b - a) * y) = [seq (b - a) * v | v <- wv (co_nodes c1) x y].
  rewrite /wv map_mkseq z z1; apply: eq_mkseq_in => j jl /=.
  by rewrite nE pint_ell_aff // z1.
have a0 : a + (b - a) * 0 = a by ring. have a1 : a + (b - a) * 1 = b by ring.
split=> //; split.
  exists (Qm (co_nodes c1) 0), (wv (co_nodes c1) 0 1); split; first by rewrite {1}ec1.
  split; first by rewrite {1}ec1.
  split; rewrite {1}ec /=; last by rewrite -wE a0 a1.
  congr fmat; rewrite /Qm {3}nE /mscale -!map_comp; apply: eq_map => y /=.
  by rewrite -[mkseq _ _ in LHS]/(wv (co_nodes c) a (a + (b - a) * y)) -{1}a0 wE.
move=> ts; rewrite {1}ec {1}ec1 /=; have M0 : (0 < M)%N by have [_ _ /least_pos []] := ok.
rewrite (sorted_interp t _ (logs_all_ok _ lg) _ g) ?z //.
rewrite (sorted_interp t1 _ (logs_all_ok _ lg) _ g1) ?z1 // -map_comp; congr fmat; apply: eq_map => y /=.
apply: eq_mkseq_in => j jl; rewrite -[in RHS](@ell_aff F _ a (b - a)) ?z1 // -nE.
by rewrite horner_comp aff_horner addrC.
Qed.

(* C29: hCoeffs interpolates at 1 *)
Theorem C29_hCoeffs nt qt M a b c : nodes_ok fpi eigh fsqrt nt qt M -> a < b ->
  logs_all flog fexp underflow -> rules_ok leggauss roots_legendre fejer M "FEJER" ->
  cinit M%:Z nt qt a b = Ok c ->
  exists2 h, coll_hCoeffs c = map (@Fin F) h & size h = M /\
  (forall p : {poly F}, (size p <= M)%N -> dot h (pvals p (co_nodes c)) = p.[1]) /\
  (* so on an interval with right end 1 the value is the one at the right boundary; if 1 is
     the last node only the last value counts *)
  (last 0 (co_nodes c) = 1 -> h = rcons (nseq M.-1 0) 1) /\
  rightIsNode (co_nodes c) = (last 0 (co_nodes c) == 1).
Proof.
move=> ok ab lg rl ec; have [s es _] := base_nodes ok.
have [self [e g z t _]] := collE ok ab lg rl es; move: ec; rewrite e => -[<-] /=.
set tau := snap_nodes _ _ _ in g z t *; have M0 : (0 < M)%N by have [_ _ /least_pos []] := ok.
exists (mkseq (fun j => (ell tau j).[1]) M).
  by rewrite /coll_hCoeffs [co_approx _]/= (sorted_interp t _ (logs_all_ok _ lg) _ g) ?z //= cats0.
rewrite size_mkseq; split=> //; split; last split=> //.
  move=> p sp; rewrite (@dotE _ _ _ M) ?size_mkseq ?size_map ?size_iota //.
  rewrite -[RHS](ell_interp t) ?z //; apply: eq_bigr => j _.
  by rewrite nth_mkseq // (nth_map 0) ?z.
rewrite -nth_last z => l1; apply: (@eq_from_nth _ 0); rewrite size_mkseq ?size_rcons ?size_nseq ?prednK // => j jl.
rewrite nth_mkseq // -l1 (ell_node t) ?z ?prednK // nth_rcons size_nseq eq_sym.
case: (ltngtP j M.-1) => // h; first by rewrite nth_nseq h.
Qed.

(* hCoeffs never raises AssertionError, so that the value which RK.hCoeffs keeps for that case is
   never returned *)
Theorem C29_fallback_unused (r : rk F) : base_hCoeffs flog fexp underflow (rc r) <> Raise AssertionError /\
  rk_hCoeffs flog fexp underflow r = base_hCoeffs flog fexp underflow (rc r).
Proof.
have na : base_hCoeffs flog fexp underflow (rc r) <> Raise AssertionError.
  rewrite /base_hCoeffs /lagrange_init /compute_weights /logScale.
  by case: ifP => _ /=; case: ifP => _ //=; case: (np_unique _) => //=.
by split=> //; rewrite /rk_hCoeffs; case: base_hCoeffs na => // -[].
Qed.

(* hCoeffs of a Runge-Kutta table with increasing nodes, or with repeated nodes *)
Theorem C29_rk_hCoeffs (r : rk F) : points_ok (rc r) "USE_LEFT" -> logs_all flog fexp underflow ->
  exists2 h, rk_hCoeffs flog fexp underflow r = Ok (map (@Fin F) h) & size h = size (rc r) /\
  forall p : {poly F}, (size p <= ndist (rc r))%N -> dot h (pvals p (rc r)) = p.[1].
Proof.
move=> pok lg.
have lok : lag_ok flog fexp underflow (rc r) "AUTO" "MAX" "USE_LEFT".
  split=> //; split; last exact: logs_all_ok.
  by right; left; split; [left|right].
have [self e [g _]] := @lag_init _ flog fexp underflow _ _ false _ _ None lok isT.
exists (xrow (rc r) "USE_LEFT" true (fun k => (ell (np_unique (rc r)) k).[1])).
  by rewrite /rk_hCoeffs /base_hCoeffs e [obind _ _]/obind (interpE_M pok g).
split; first by rewrite size_xrow.
move=> p sp; have := @interp_exact _ (rc r) "USE_LEFT" pok [:: 1] p (pvals p (rc r)) sp.
rewrite size_map => /(_ erefl) H; have := H _; rewrite /mv /= => H2.
by have [] := H2 (fun j uj => nth_map 0 0 _ uj.1).
Qed.

(* C28: with many nodes, even the unit interval moves a GAUSS node to the end *)
Theorem C28_unit_interval_refuted M c : (10 ^ 5 <= M)%N ->
  cinit M%:Z "EQUID" "GAUSS" 0 1 = Ok c ->
  exists2 s, base "EQUID" "GAUSS" M = Ok s & 1 \notin s /\ last 0 (co_nodes c) = 1.
Proof.
move=> hM; have M1 : (1 < M)%N by apply: leq_trans hM.
have M0 := ltnW M1.
have es : base "EQUID" "GAUSS" M = Ok (mkseq (equid F "GAUSS" M) M) by exact: getNodes_equid.
rewrite /coll_init /= es /= => ec; exists (mkseq (equid F "GAUSS" M) M) => //.
have [_ _ _ ->] := @equid_props F "GAUSS" M isT M0 (fun h => ltac:(discriminate h)).
split=> //; move: ec; rewrite /coll_of_nodes; case: (lagrange_init _ _ _ _ _ _ _ _ _) => // self /=.
case: (getIntegrationMatrix _ _ _ _ _ _ _) => // Q /=; case: (getIntegrationMatrix _ _ _ _ _ _ _) => // w /= [<-] /=.
rewrite /snap_nodes; set s1 := if allclose 0 _ then _ else _.
have zs : size (scale_nodes 0 1 (mkseq (equid F "GAUSS" M) M)) = M.
  by rewrite scale_nodesE size_map ?size_mkseq ?size_iota.
have z1 : size s1 = M by rewrite /s1; case: ifP => _; rewrite ?size_set_nth zs //; apply/maxn_idPr.
have l1 : last 0 s1 = M%:R / M.+1%:R.
  rewrite -nth_last z1; transitivity (nth 0 (scale_nodes 0 1 (mkseq (equid F "GAUSS" M) M)) M.-1).
    by rewrite /s1; case: ifP => _ //; rewrite nth_set_nth /=; case: (M) M1 => [|[]].
  rewrite scale_nodesE (nth_map 0) ?size_mkseq ?prednK // nth_mkseq ?prednK // /equid /= prednK //.
  rewrite /node_in subr0 mul1r add0r; have : M.+1%:R != 0 :> F by rewrite pnatr_eq0.
  by move: (M.+1%:R) (M%:R) => x y x0; field.
have -> : allclose 1 (last 0 s1).
  rewrite l1 /allclose; have p0 : 0 < M.+1%:R :> F by rewrite ltr0n.
  have -> : 1 - M%:R / M.+1%:R = M.+1%:R^-1 :> F.
    by rewrite -(natr1 _ M) in p0 *; move: p0; move: (M%:R) => x p0; field; rewrite gt_eqF.
  rewrite !ger0_norm ?divr_ge0 ?invr_ge0 ?ler0n //.
  apply: ler_paddl; first by rewrite invr_ge0 exprn_ge0 // ler0n.
  rewrite mulrA -[X in X <= _]mul1r ler_pmul2r ?invr_gt0 // mulrC ler_pdivl_mulr ?exprn_gt0 ?ltr0n //.
  by rewrite mul1r -natrX ler_nat.
by rewrite -nth_last /set_last size_set_nth z1 prednK // maxnn nth_set_nth /= eqxx.
Qed.
End Props.

(* C23: the transfer matrices of every generator *)
Theorem C23_transfer (F : realFieldType) M :
  mm M (trimat F M) (tmat F M) = eye F M /\ mm M (tmat F M) (trimat F M) = eye F M /\
  (forall Q, is_shape Q M M -> mm M (trimat F M) (smat Q) = Q).
Proof.
have shI : is_shape (eye F M) M M by exact: eye_shape.
have shT : is_shape (tmat F M) M M by exact: mkmat_shape.
have shL : is_shape (trimat F M) M M by exact: mkmat_shape.
have gen Q : is_shape Q M M -> mm M (trimat F M) (mm M (tmat F M) Q) = Q.
  move=> sh; have [S _ [_ [_ [h1 h2]]]] := @C36_N2N_rows F id id (fun _ => false) (Rk Q [::] [::] None) M sh.
  by move: h1 h2; rewrite [rA _]/= => h1 ->.
have h : mm M (trimat F M) (tmat F M) = eye F M.
  have := gen _ shI; suff -> : mm M (tmat F M) (eye F M) = tmat F M by [].
  apply: (mxl_inj (mm_shape _ M shT) shT).
  by rewrite (mxl_mm (k := M)) // mxl_eye mulmx1.
split=> //; split; last first.
  by move=> Q sh; rewrite /smat; have [-> _] := is_shapeP _ _ _ sh; exact: gen.
have e : mxl M M (trimat F M) *m mxl M M (tmat F M) = 1%:M by rewrite -(mxl_mm (k := M)) // h mxl_eye.
apply: (mxl_inj (mm_shape _ M shT) shI).
by rewrite (mxl_mm (k := M)) // mxl_eye; exact: mulmx1C.
Qed.

Print Assumptions C36_collocation.
Print Assumptions C21_defined.
Print Assumptions C21_nodes.
Print Assumptions C21_exact.
Print Assumptions C22_last_row.
Print Assumptions C22_first_row.
Print Assumptions C22_left_is_node.
Print Assumptions C22_right_is_node.
Print Assumptions C23_S.
Print Assumptions C23_transfer.
Print Assumptions C24_legendre_order.
Print Assumptions C25_declared_order.
Print Assumptions C26_moments.
Print Assumptions C26_dahlquist_order.
Print Assumptions C27_affine.
Print Assumptions C28_nodes_kept.
Print Assumptions C28_unit_interval_refuted.
Print Assumptions C29_hCoeffs.
Print Assumptions C29_fallback_unused.
Print Assumptions C29_rk_hCoeffs.

(* Concrete cases, in rational arithmetic. *)
Notation Qf := qc_realFieldType.
(* eigenvalues of a 1x1 matrix; Fejer rules with one and three points (midpoint and
   Simpson); the logarithm is not needed *)
Definition q_eigh (d e : seq Qf) : seq Qf := d.
Definition q_id (x : Qf) : Qf := x.
Definition q_under (s : seq Qf) : bool := false.
Definition q_none (n : nat) : outcome (seq Qf * seq Qf) := Raise ValueError.
Definition q_fejer (n : nat) : outcome (seq Qf * seq Qf) :=
  if n == 1%N then Ok ([:: 0], [:: 2%:R])%R
  else Ok ([:: -1; 0; 1], [:: qc 1 3; qc 4 3; qc 1 3])%R.
Notation qinit := (coll_init (1 : Qf) q_eigh q_id q_id q_id q_under q_none q_none q_fejer).
Notation qbase := (getNodes (1 : Qf) q_eigh q_id).
Notation qcoll M nt qt a b := (ok_or (Coll nt qt a b [::] (Lagr [::] [::] [::] None None) [::] [::]) (qinit M nt qt a b)).

Example q_logs : logs_all q_id q_id q_under. Proof. by right. Qed.

Lemma poly5E (R : fieldType) (P : {poly R}) : (size P <= 5)%N ->
  exists a b c d e, P = a%:P + b *: 'X + c *: 'X^2 + d *: 'X^3 + e *: 'X^4.
Proof.
move=> sP; exists P`_0, P`_1, P`_2, P`_3, P`_4; apply/polyP => i.
rewrite !coefD !coefZ coefC coefX !coefXn.
case: i => [|[|[|[|[|i]]]]] /=; rewrite ?mulr1 ?mulr0 ?addr0 ?add0r //.
by rewrite nth_default // (leq_trans sP).
Qed.

Lemma mid_rule (F : realFieldType) : exact_rule ([:: 0 : F], [:: 2%:R]) 1.
Proof.
split=> // P sP; rewrite big_ord_recl big_ord0 addr0 /=.
have -> : P = (P`_0)%:P + P`_1 *: 'X + P`_2 *: 'X^2.
  apply/polyP => i; rewrite !coefD !coefZ coefC coefX coefXn.
  case: i => [|[|[|i]]] /=; rewrite ?mulr1 ?mulr0 ?addr0 ?add0r //.
  by rewrite nth_default // (leq_trans sP).
rewrite !derivD !derivZ derivC derivX derivXn !hornerE /=.
by move: (P`_0) (P`_1) (P`_2) => a b c; ring.
Qed.

Lemma simpson_rule (F : realFieldType) : exact_rule ([:: -1 : F; 0; 1], [:: 3%:R^-1; 4%:R / 3%:R; 3%:R^-1]) 3.
Proof.
split=> // P sP; rewrite !big_ord_recl big_ord0 addr0 /=; have [a [b [c [d [e ->]]]]] := poly5E sP.
rewrite !derivD !derivZ derivC derivX !derivXn !hornerE /=.
by field.
Qed.

Example q_rules1 : rules_ok q_none q_none q_fejer 1 "FEJER".
Proof. by right; right; split=> //; exists ([:: 0], [:: 2%:R])%R => //; exact: mid_rule. Qed.

Example q_rules3 n : (n == 3%N) || (n == 4%N) -> rules_ok q_none q_none q_fejer n "FEJER".
Proof.
move=> hn; right; right; split=> //.
have -> : (if odd n then n else n.-1) = 3%N by case/orP: hn => /eqP ->.
exists ([:: -1; 0; 1], [:: qc 1 3; qc 4 3; qc 1 3])%R => //.
have -> : qc 1 3 = 3%:R^-1 :> Qf by apply/eqP; vm_compute.
have -> : qc 4 3 = 4%:R / 3%:R :> Qf by apply/eqP; vm_compute.
exact: simpson_rule.
Qed.

(* C21, C22, C23: three equidistant nodes on [0,2]; Q and the weights are those of Simpson *)
Example C21_nonvacuous : let c := qcoll 3%:Z "EQUID" "LOBATTO" 0%R 2%:R in
  nodes_ok (1 : Qf) q_eigh q_id "EQUID" "LOBATTO" 3 /\ (0 < 2%:R :> Qf)%R /\
  rules_ok q_none q_none q_fejer 3 "FEJER" /\ qinit 3%:Z "EQUID" "LOBATTO" 0%R 2%:R = Ok c /\
  co_nodes c = [:: 0; 1; 2%:R]%R /\
  co_Q c = fmat [:: [:: 0; 0; 0]; [:: qc 5 12; qc 2 3; qc (-1) 12]; [:: qc 1 3; qc 4 3; qc 1 3]]%R /\
  co_weights c = map (@Fin Qf) [:: qc 1 3; qc 4 3; qc 1 3].
Proof.
move=> c; split; first by split.
split; first by vm_compute.
split; first exact: q_rules3.
split; first by apply: ok_orE; vm_compute.
by split; [|split]; apply/eqP; vm_compute.
Qed.

Example C23_nonvacuous : let c := qcoll 3%:Z "EQUID" "LOBATTO" 0%R 2%:R in
  coll_S q_none q_none q_fejer c =
    Ok (fmat [:: [:: 0; 0; 0]; [:: qc 5 12; qc 2 3; qc (-1) 12]; [:: qc (-1) 12; qc 2 3; qc 5 12]]%R).
Proof. by move=> c; apply: ok_eqP; vm_compute. Qed.

(* C24: the midpoint rule, order 2 *)
Example C24_nonvacuous : let c := qcoll 1%:Z "LEGENDRE" "GAUSS" 0%R 2%:R in
  nodes_ok (1 : Qf) q_eigh q_id "LEGENDRE" "GAUSS" 1 /\
  qbase (NodesGen "LEGENDRE" "GAUSS") 1%:Z = Ok [:: 0]%R /\ separated 0 (2%:R : Qf) [:: 0]%R /\
  qinit 1%:Z "LEGENDRE" "GAUSS" 0%R 2%:R = Ok c /\ coll_order c = Some 2%N.
Proof.
move=> c; split.
  split=> // _ al be; have -> : getTridiagCoefficients (1 : Qf) (NodesGen "LEGENDRE" "GAUSS") 1 = Ok ([:: 0], [:: 2%:R])%R.
    by apply: ok_eqP; vm_compute.
  move=> -[<- <-]; split; first by [].
  split=> //; exists 1%:M; split; first exact: unitmx1.
  apply/matrixP => i j; rewrite !mxE; do ?[rewrite big_ord_recl big_ord0]; rewrite !mxE.
  by rewrite !ord1 /=; apply/eqP; vm_compute.
split; first by apply: ok_eqP; vm_compute.
split; first by move=> x; rewrite inE => /eqP ->; split=> _; vm_compute.
by split; [apply: ok_orE; vm_compute|vm_compute].
Qed.

(* C25, C26, C27: three equidistant nodes have order 4 on [0,1] and on [3,5] *)
Example C25_nonvacuous :
  qbase (NodesGen "EQUID" "LOBATTO") 3%:Z = Ok [:: -1; 0; 1]%R /\
  separated 0 (1 : Qf) [:: -1; 0; 1]%R /\ separated 3%:R (5%:R : Qf) [:: -1; 0; 1]%R /\
  qinit 3%:Z "EQUID" "LOBATTO" 3%:R 5%:R = Ok (qcoll 3%:Z "EQUID" "LOBATTO" 3%:R 5%:R) /\
  coll_order (qcoll 3%:Z "EQUID" "LOBATTO" 3%:R 5%:R) = Some 4%N /\
  qinit 3%:Z "EQUID" "LOBATTO" 0%R 1%R = Ok (qcoll 3%:Z "EQUID" "LOBATTO" 0%R 1%R) /\
  coll_order (qcoll 3%:Z "EQUID" "LOBATTO" 0%R 1%R) = Some 4%N /\
  coll_hCoeffs (qcoll 3%:Z "EQUID" "LOBATTO" 0%R 1%R) = map (@Fin Qf) [:: 0; 0; 1]%R.
Proof.
split; first by apply: ok_eqP; vm_compute.
split.
  move=> x; rewrite !inE => /or3P [] /eqP ->.
  - by split=> [h|_]; [case: h; apply/eqP; vm_compute|vm_compute].
  - by split=> _; vm_compute.
  by split=> [_|h]; [vm_compute|case: h].
split.
  move=> x; rewrite !inE => /or3P [] /eqP ->.
  - by split=> [h|_]; [case: h; apply/eqP; vm_compute|vm_compute].
  - by split=> _; vm_compute.
  by split=> [_|h]; [vm_compute|case: h].
split; first by apply: ok_orE; vm_compute.
split; first by vm_compute.
split; first by apply: ok_orE; vm_compute.
by split; [vm_compute|apply/eqP; vm_compute].
Qed.

(* C28: with a large offset the only node of a GAUSS distribution is moved to the right end,
   and the weights do not have the declared order any more *)
Theorem C28_large_offset_refuted : exists (a b : Qf) c s,
  [/\ (a < b)%R, qbase (NodesGen "EQUID" "GAUSS") 1%:Z = Ok s, 1%R \notin s,
      qinit 1%:Z "EQUID" "GAUSS" a b = Ok c & last 0%R (co_nodes c) = b /\
      coll_order c = Some 2%N /\ ~ exact_order a b c 2].
Proof.
pose a := qc 100000 1; pose b := qc 100001 1.
exists a, b, (qcoll 1%:Z "EQUID" "GAUSS" a b), [:: 0]%R; split.
- by vm_compute.
- by apply: ok_eqP; vm_compute.
- by vm_compute.
- by apply: ok_orE; vm_compute.
split; first by apply/eqP; vm_compute.
split; first by vm_compute.
case=> w ew /(_ 'X^2); rewrite size_polyXn => /(_ isT).
have -> : w = [:: 1]%R.
  apply: (inj_map (f := @Fin Qf)); first by move=> x y [].
  by rewrite -ew; apply/eqP; vm_compute.
have -> : co_nodes (qcoll 1%:Z "EQUID" "GAUSS" a b) = [:: b] by apply/eqP; vm_compute.
rewrite derivXn /= !(hornerXn, hornerMn) => /eqP; by vm_compute.
Qed.
Print Assumptions C28_large_offset_refuted.

(* C29: on an interval whose right end is not 1, hCoeffs still interpolates at 1 and
   rightIsNode compares the last node with 1 *)
Theorem C29_right_boundary_refuted : exists (a b : Qf) c,
  [/\ (a < b)%R, qinit 3%:Z "EQUID" "LOBATTO" a b = Ok c, last 0%R (co_nodes c) = b,
      rightIsNode (co_nodes c) = false &
      exists2 p : {poly Qf}, (size p <= 3)%N & forall h, coll_hCoeffs c = map (@Fin Qf) h ->
        dot h (pvals p (co_nodes c)) <> p.[b]].
Proof.
exists 0%R, 2%:R, (qcoll 3%:Z "EQUID" "LOBATTO" 0%R 2%:R); split.
- by vm_compute.
- by apply: ok_orE; vm_compute.
- by apply/eqP; vm_compute.
- by vm_compute.
exists 'X; first by rewrite size_polyX.
move=> h eh; have -> : h = [:: 0; 1; 0]%R.
  apply: (inj_map (f := @Fin Qf)); first by move=> x y [].
  by rewrite -eh; apply/eqP; vm_compute.
have -> : co_nodes (qcoll 3%:Z "EQUID" "LOBATTO" 0%R 2%:R) = [:: 0; 1; 2%:R]%R by apply/eqP; vm_compute.
by rewrite /pvals /= !hornerX => /eqP; vm_compute.
Qed.
Print Assumptions C29_right_boundary_refuted.

(* ... and the hCoeffs of a declared table with distinct nodes in another order are not
   interpolation coefficients: they are wrong for quadratic polynomials already *)
Definition edirk43_rk : rk Qf := let t := scheme_table (0 : Qf) s_EDIRK43 in Rk (tA t) (tb t) (tc t) None.
Theorem C29_EDIRK43_refuted : exists sc, List.In sc schemes /\ s_name sc = "EDIRK43"%string /\
  exists h : seq Qf, rk_hCoeffs q_id q_id q_under edirk43_rk = Ok (map (@Fin Qf) h) /\
  exists2 p : {poly Qf}, (size p <= 4)%N & dot h (pvals p (rc edirk43_rk)) <> p.[1].
Proof.
exists s_EDIRK43; split; first by apply: (nth_scheme (k := 20)).
split=> //.
pose h := map (fun x => if x is Fin y then y else 0%R) (ok_or [::] (rk_hCoeffs q_id q_id q_under edirk43_rk)).
exists h; split; first by apply: ok_eqP; vm_compute.
exists 'X^2; first by rewrite size_polyXn.
rewrite hornerXn /pvals (eq_map (f2 := fun x => x ^+ 2)%R); last by move=> x; rewrite hornerXn.
by move=> /eqP; vm_compute.
Qed.
Print Assumptions C29_EDIRK43_refuted.

(* no order is declared only for LEGENDRE nodes with a quadrature type the constructor refuses *)
Theorem C24_no_order (F : realFieldType) (c : coll F) :
  coll_order c = None <-> co_nodeType c = "LEGENDRE"%string /\
    ~ List.In (co_quadType c) [:: "GAUSS"; "RADAU-LEFT"; "RADAU-RIGHT"; "LOBATTO"]%string.
Proof.
rewrite /coll_order /is_radau !inE; case: (co_nodeType c =P _) => [->|n] /=; last first.
  by split=> [|[]] //; case: ifP.
case: (co_quadType c =P "GAUSS"%string) => [->|h1] /=; first by split=> // -[_ []]; left.
case: (co_quadType c =P "RADAU-LEFT"%string) => [->|h2] /=; first by split=> // -[_ []]; right; left.
case: (co_quadType c =P "RADAU-RIGHT"%string) => [->|h3] /=; first by split=> // -[_ []]; right; right; left.
case: (co_quadType c =P "LOBATTO"%string) => [->|h4] /=; first by split=> // -[_ []]; do 3 right; left.
by split=> // _; split=> // -[|[|[|[|//]]]] /esym.
Qed.
Print Assumptions C24_no_order.
