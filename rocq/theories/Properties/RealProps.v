(* Property C66: the premises on external routines used by C15-C29 hold for reference versions of
   these routines on the real numbers; collocation on the reals without premises. *)
From Coq Require Import Reals.
From Verif.Base Require Import Str.
From mathcomp Require Import all_ssreflect all_algebra ring zify.
From Verif.Base Require Import RField RRcf Outcome Arr Ext PolyInterp PolyInt.
From Verif.Model Require Import Lagrange QGen Nodes Collocation Fejer.
From Verif.Spec Require Import LagrangeSpec QCoeffSpec NodesSpec CollSpec.
From Verif.Proofs Require Import OrthoP NodesP NodesThms RootsP OracleP ChebNodesP.
From Verif.Properties Require Import LagrangeProps FejerProps NodesProps CollProps.
Set Implicit Arguments.
Unset Strict Implicit.
Unset Printing Implicit Defensive.
Import GRing.Theory Num.Theory Order.TTheory.
Local Open Scope ring_scope.
Bind Scope ring_scope with R.

(* every symmetric tridiagonal matrix with nonzero off-diagonal entries has the eigenvalues
   that eigh_tridiagonal promises *)
Theorem C66_eigenvalues_exist (F : rcfType) (d e : seq F) :
  size e = (size d).-1 -> all (fun x => x != 0) e -> exists w, eig_ok d e w.
Proof. by move=> h1 h2; exists (eigh_ref d e); apply: eigh_ref_ok. Qed.

(* the contracts of the eigenvalue solver and of the Gauss rules can be met, for all sizes *)
Theorem C66_contracts_exist (F : rcfType) : exists eigh fsqrt gauss,
  (forall fpi nt qt M, nt \in NODE_TYPES -> qt \in QUAD_TYPES -> (least_nodes qt <= M)%N ->
     nodes_ok (F := F) fpi eigh fsqrt nt qt M) /\
  (forall m, (0 < m)%N -> exists2 r, gauss m = Ok r & exact_rule (F := F) r (2 * m - 1)) /\
  (forall fejer n nq, (0 < n)%N -> (nq = "LEGENDRE_NUMPY" \/ nq = "LEGENDRE_SCIPY")%string ->
     rules_ok gauss gauss fejer n nq).
Proof.
exists (@eigh_ref F), Num.sqrt, (@gauss_ref F); split; last by split; [exact: gauss_ref_ok|exact: rules_ok_ref].
by move=> fpi nt qt M h1 h2 h3; apply: nodes_ok_ref => // x /ltW; apply: sqr_sqrtr.
Qed.

(* the nodes do not depend on the solver that is used, nor on the value of pi *)
Theorem C66_nodes_unique (F : realFieldType) fpi fpi' eigh eigh' fsqrt fsqrt' nt qt M :
  nodes_ok (F := F) fpi eigh fsqrt nt qt M -> nodes_ok fpi' eigh' fsqrt' nt qt M ->
  getNodes fpi eigh fsqrt (NodesGen nt qt) M%:Z = getNodes fpi' eigh' fsqrt' (NodesGen nt qt) M%:Z.
Proof.
move=> [hnt hqt ln c1] [_ _ _ c2].
have [n0 hn] : (0 < M)%N /\ (has_left qt -> (1 < M)%N).
  by move: ln; rewrite /least_nodes; case: (has_left qt) => h; split=> //; apply: ltnW.
case: (nt =P "EQUID"%string) => [->|ne]; first by rewrite !getNodes_equid.
have hnt' : nt \in ORTHO by move: hnt; rewrite in_cons => /orP [/eqP|].
have [a [b [s [_ r1 _ sr1 ->]]]] := getNodesE hnt' hqt n0 hn (c1 ne).
have [a' [b' [s' [_ r2 _ sr2 ->]]]] := getNodesE hnt' hqt n0 hn (c2 ne).
have e := rec_uniq (rec_ok_pi fpi' r1) r2 hqt n0 hn.
have [_ mp] := size_op a' b' M; congr Ok; apply: (sorted_roots_uniq mp) sr2.
by rewrite -e (@op_ext0 _ a _ a b) // => j /andP [j0 _]; rewrite /upd gtn_eqF.
Qed.

(* real numbers *)
Section Real.
Variable underflow : seq RF -> bool.
Notation fejerR := (fun k : nat => computeFejerRule k).
Notation eighR := (@eigh_ref r_rcfType).
Notation gaussR := (@gauss_ref r_rcfType).
Notation collR := (coll_init (F := RF) PI eighR sqrt ln exp underflow gaussR gaussR fejerR).
Notation nodesR := (getNodes (F := RF) PI eighR sqrt).

Lemma r_sqrt (x : RF) : 0 < x -> sqrt x ^+ 2 = x.
Proof. by move=> /rltE x0; rewrite expr2; apply: sqrt_sqrt; apply: Rlt_le. Qed.

Theorem C66_nodes_ok nt qt M : nt \in NODE_TYPES -> qt \in QUAD_TYPES -> (least_nodes qt <= M)%N ->
  nodes_ok (F := RF) PI eighR sqrt nt qt M.
Proof. by move=> h1 h2 h3; apply: (@nodes_ok_ref r_rcfType) => //; apply: r_sqrt. Qed.

Theorem C66_rules_ok n nq : (0 < n)%N ->
  (nq = "LEGENDRE_NUMPY" \/ nq = "LEGENDRE_SCIPY" \/ nq = "FEJER")%string ->
  rules_ok (F := RF) gaussR gaussR fejerR n nq.
Proof.
move=> n0 [h|[h|->]]; last exact: C07_meets_contract.
  by apply: (@rules_ok_ref r_rcfType) => //; left.
by apply: (@rules_ok_ref r_rcfType) => //; right.
Qed.

Theorem C66_collocation nt qt M (a b : RF) : nt \in NODE_TYPES -> qt \in QUAD_TYPES ->
  (least_nodes qt <= M)%N -> a < b ->
  exists2 c, collR M%:Z nt qt a b = Ok c & exists Q w,
  [/\ co_Q c = fmat Q, co_weights c = map (@Fin RF) w, is_shape Q M M & size w = M] /\
  [/\ size (co_nodes c) = M, sorted <%O (co_nodes c) & all (fun x => a <= x <= b) (co_nodes c)] /\
  (forall P : {poly RF}, (size P <= M.+1)%N ->
    mv Q (pvals P^`() (co_nodes c)) = [seq P.[t] - P.[a] | t <- co_nodes c] /\
    dot w (pvals P^`() (co_nodes c)) = P.[b] - P.[a]) /\
  (* the declared order, unless a node other than an end point is within the tolerance of one *)
  (forall s, nodesR (NodesGen nt qt) M%:Z = Ok s -> separated a b s ->
    exists2 p, coll_order c = Some p & forall P : {poly RF}, (size P <= p.+1)%N ->
      dot w (pvals P^`() (co_nodes c)) = P.[b] - P.[a]).
Proof.
move=> h1 h2 h3 ab; have ok := C66_nodes_ok h1 h2 h3.
have M0 : (0 < M)%N by move: h3; rewrite /least_nodes; case: ifP => // _; apply: ltnW.
have rl := C66_rules_ok M0 (or_intror (or_intror (erefl "FEJER"%string))).
have lg : logs_all (F := RF) ln exp underflow by left; apply: r_exp_log.
have [c ec] := C21_defined ok ab lg rl; exists c => //.
have [Q [w [eQ [ew [sQ [sw [ex _]]]]]]] := C21_exact ok ab lg rl ec.
have [z [t l]] := C21_nodes ok ab lg rl ec.
exists Q, w; split=> //; split=> //; split=> // s es sep.
have [p ep [w' ew' ho]] := C25_declared_order ok ab lg rl ec es sep; exists p => // P sP.
rewrite -ho //; congr dot; move: ew'; rewrite ew => /(congr1 (map (@unfin RF))).
by rewrite -!map_comp !map_id_in //.
Qed.
End Real.

(* a matrix whose eigenvalues are not rational, and the two Gauss-Legendre nodes *)
Example C66_eigenvalues_nonvacuous (F : rcfType) : let d := [:: 0; 0] : seq F in let e := [:: Num.sqrt 2%:R] in
  (size e = (size d).-1 /\ all (fun x => x != 0) e) /\ eig_ok d e (eigh_ref d e).
Proof.
have nz : Num.sqrt 2%:R != 0 :> F by rewrite sqrtr_eq0 -ltNge ltr0n.
by split; [rewrite /= nz|apply: eigh_ref_ok; rewrite //= nz].
Qed.

Example C66_nonvacuous : let x := (sqrt 3%:R)^-1 : RF in
  getNodes (F := RF) PI (@eigh_ref r_rcfType) sqrt (NodesGen "LEGENDRE" "GAUSS") 2 = Ok [:: - x; x].
Proof.
move=> x; have x2 : x ^+ 2 = 3%:R^-1 by rewrite exprVn r_sqrt ?ltr0n.
have x0 : 0 < x by rewrite invr_gt0; apply/rltE; apply: sqrt_lt_R0; apply/rltE; rewrite ltr0n.
have [_ _ _ ct] := @C66_nodes_ok "LEGENDRE"%string "GAUSS"%string 2%N isT isT isT.
apply: (@nodes_criterion _ _ _ _ "LEGENDRE"%string "GAUSS"%string 2%N _ 0 0 _ _ _ (ct _)) => //.
- by rewrite /= andbT (lt_trans _ x0) // oppr_lt0.
- move=> y hy; have {}hy : y ^+ 2 = 3%:R^-1.
    by move: hy; rewrite !inE => /orP [] /eqP ->; rewrite ?sqrrN.
  rewrite !mul0r !addr0 clasS eqxx hornerZ hornerD hornerN !hornerZ hornerM hornerX.
  have -> : (clas RF "LEGENDRE" 0).[y] = 1 by exact: hornerC.
  by rewrite -expr2 hy (_ : (2 * 1 + 1)%N = 3%N) // mulfV ?pnatr_eq0 // mulr1 subrr mulr0.
Qed.

Print Assumptions C66_eigenvalues_exist.
Print Assumptions C66_contracts_exist.
Print Assumptions C66_nodes_unique.
Print Assumptions C66_nodes_ok.
Print Assumptions C66_rules_ok.
Print Assumptions C66_collocation.
