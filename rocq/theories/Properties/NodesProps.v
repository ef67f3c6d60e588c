(* Properties C15-C20, C62: quadrature nodes. *)
From Coq Require Import ZArith QArith Qcanon.
From Verif.Base Require Import Str.
From mathcomp Require Import all_ssreflect all_algebra ring.
From Verif.Base Require Import QcField Outcome Arr LinSolve.
From Verif.Model Require Import Nodes.
From Verif.Spec Require Import NodesSpec.
From Verif.Proofs Require Import OrthoP NodesP NodesThms.
Set Implicit Arguments.
Unset Strict Implicit.
Unset Printing Implicit Defensive.
Import GRing.Theory Num.Theory Order.TTheory.
Local Open Scope ring_scope.

Section Props.
Variable F : realFieldType.
(* np.pi, eigenvalue solver, square root: arbitrary, restricted by premises where needed *)
Variables (fpi : F) (eigh : seq F -> seq F -> seq F) (fsqrt : F -> F).
Implicit Types (nt qt : string) (M : nat).

Let least qt M : (least_nodes qt <= M)%N -> (0 < M)%N /\ (has_left qt -> (1 < M)%N).
Proof. by rewrite /least_nodes; case: (has_left qt) => h; split=> //; apply: ltnW. Qed.

(* C15 *)
Theorem C15_equidistant qt M : qt \in QUAD_TYPES -> (least_nodes qt <= M)%N ->
  exists2 s, getNodes fpi eigh fsqrt (NodesGen "EQUID" qt) M%:Z = Ok s &
  [/\ size s = M, sorted <%O s, all (fun x => -1 <= x <= 1) s,
      (-1 \in s) = has_left qt & (1 \in s) = has_right qt] /\
  (* equally spaced *)
  exists h, forall i, (i.+1 < M)%N -> nth 0 s i.+1 = nth 0 s i + h.
Proof.
move=> hqt /least [n0 hn]; exists (mkseq (equid F qt M) M); first exact: getNodes_equid.
have [h1 h2 h3 h4] := equid_props F hqt n0 hn; split; first by rewrite size_mkseq.
exists (2%:R / (equid_den qt M)%:R) => i il.
by rewrite !nth_mkseq ?(ltnW il) // -(equid_step F qt M i) addrC subrK.
Qed.

(* the closed forms: i-th node of M *)
Theorem C15_values M i : (i < M)%N ->
  let node qt := nth 0 (ok_or [::] (getNodes fpi eigh fsqrt (NodesGen "EQUID" qt) M%:Z)) i in
  [/\ node "GAUSS"%string = 2%:R * i.+1%:R / M.+1%:R - 1,
      node "RADAU-RIGHT"%string = 2%:R * i.+1%:R / M%:R - 1 &
      (1 < M)%N -> node "RADAU-LEFT"%string = 2%:R * i%:R / M%:R - 1 /\
                   node "LOBATTO"%string = 2%:R * i%:R / M.-1%:R - 1].
Proof.
move=> il node; have M0 : (0 < M)%N by apply: leq_ltn_trans il.
rewrite /node; split=> [||M1]; last split; rewrite getNodes_equid //= nth_mkseq // /equid /=; exact: addrC.
Qed.

(* C16 *)
Theorem C16_constructor nt qt :
  nodesgen_init nt qt = if (nt \in [:: "EQUID"; "LEGENDRE"; "CHEBY-1"; "CHEBY-2"; "CHEBY-3"; "CHEBY-4"]%string)
     && (qt \in [:: "GAUSS"; "RADAU-LEFT"; "RADAU-RIGHT"; "LOBATTO"]%string)
  then Ok (NodesGen nt qt) else Raise ValueError.
Proof. by rewrite /nodesgen_init -/NODE_TYPES -/QUAD_TYPES; case: (nt \in _); case: (qt \in _). Qed.

Theorem C16_getNodes nt qt g (m : int) : nodesgen_init nt qt = Ok g ->
  (m < (least_nodes qt)%:Z -> getNodes fpi eigh fsqrt g m = Raise ValueError) /\
  ((least_nodes qt)%:Z <= m -> exists s, getNodes fpi eigh fsqrt g m = Ok s).
Proof.
rewrite /nodesgen_init; case hnt: (nt \in NODE_TYPES) => //=; case hqt: (qt \in QUAD_TYPES) => //= -[<-].
split.
  rewrite /getNodes [quadType _]/= -/(has_left qt) /least_nodes; case: (has_left qt) => /= h; first by rewrite h.
  by rewrite h.
case: m => [M|//]; rewrite lez_nat => hM; have [n0 hn] := least hM.
case: (boolP (nt == "EQUID"%string)) => [/eqP ->|ne]; first by eexists; exact: getNodes_equid.
have hor : nt \in ORTHO by move: hnt; rewrite inE (negbTE ne).
have [a [b [e _]]] := tridiagE fpi hor hqt n0 hn.
rewrite /getNodes [quadType _]/= -/(has_left qt) [nodeType _]/= (negbTE ne) absz_nat e /=.
have -> : has_left qt && (M%:Z < 2) = false.
  by case: (has_left qt) hn => // /(_ isT) n1; apply/negbTE; rewrite -leNgt lez_nat.
have -> : (M%:Z < 1) = false by apply/negbTE; rewrite -leNgt lez_nat.
by eexists.
Qed.

(* C17 *)
Theorem C17_coefficients nt qt M : nt \in ORTHO -> qt \in QUAD_TYPES -> (least_nodes qt <= M)%N ->
  exists2 ab, getTridiagCoefficients fpi (NodesGen nt qt) M = Ok ab &
  [/\ size ab.1 = M, size ab.2 = M & all (fun x => 0 < x) (behead ab.2)].
Proof.
move=> hnt hqt /least [n0 hn]; have [a [b [e ok]]] := tridiagE fpi hnt hqt n0 hn.
exists (mkseq a M, mkseq b M) => //=; rewrite !size_mkseq; split=> //.
rewrite behead_mkseq; apply/allP => x /mapP [k]; rewrite mem_iota add0n => kl ->.
by apply: (rok_b ok); rewrite /=; case: M kl {n0 hn e ok hqt}.
Qed.

(* the denominators of the Radau change, at both end points *)
Theorem C17_denominators nt qt M al be : nt \in ORTHO -> (0 < M)%N ->
  getOrthogPolyCoefficients fpi (NodesGen nt qt) M = Ok (al, be) ->
  (evalOrthogPoly 1 (but_last al) (but_last be)).2 != 0 /\
  (evalOrthogPoly (-1) (but_last al) (but_last be)).2 != 0.
Proof.
move=> hnt M0; rewrite orthogE // => -[<- <-]; rewrite !evalOrthogE /= op_m1.
have [p1 p2] := family fpi M.-1 hnt.
by rewrite mulf_neq0 ?signr_eq0 // gt_eqF // ?p1 ?p2.
Qed.

(* C18 *)
Theorem C18_endpoints nt qt M al be : nt \in ORTHO -> qt \in QUAD_TYPES -> (least_nodes qt <= M)%N ->
  getTridiagCoefficients fpi (NodesGen nt qt) M = Ok (al, be) ->
  (forall x, x \in behead be -> fsqrt x ^+ 2 = x) ->
  (has_left qt -> (char_poly (tri_mx M al (map fsqrt (behead be)))).[-1] = 0) /\
  (has_right qt -> (char_poly (tri_mx M al (map fsqrt (behead be)))).[1] = 0).
Proof.
move=> hnt hqt /least [n0 hn] e0 sq.
have [a [b [e ok]]] := tridiagE fpi hnt hqt n0 hn.
move: e0; rewrite e => -[ea eb]; subst al be.
have [sk sn] := sqrt_facts ok n0 sq.
rewrite behead_mkseq -[map fsqrt _]map_comp.
have h := root_eig sk sn n0.
split=> hq; apply/rootP; rewrite -eigenvalue_root_char; apply: h; apply/eqP.
  by have := rok_L ok; rewrite hq op_refl => /eqP; rewrite mulf_eq0 signr_eq0 => /eqP.
by have := rok_R ok; rewrite hq.
Qed.

(* forcing the end nodes changes nothing: the nodes are the sorted eigenvalues *)
Theorem C18_forcing nt qt M al be : nt \in ORTHO -> qt \in QUAD_TYPES -> (least_nodes qt <= M)%N ->
  eig_contract fpi eigh fsqrt (NodesGen nt qt) M ->
  getTridiagCoefficients fpi (NodesGen nt qt) M = Ok (al, be) ->
  getNodes fpi eigh fsqrt (NodesGen nt qt) M%:Z = Ok (sort <=%O (eigh al (map fsqrt (behead be)))).
Proof.
move=> hnt hqt /least [n0 hn] ct e0.
have [a [b [s [e _ -> _ ->]]]] := getNodesE hnt hqt n0 hn ct.
by move: e0; rewrite e => -[<- <-].
Qed.

(* C19 *)
Theorem C19_nodes nt qt M : nt \in ORTHO -> qt \in QUAD_TYPES -> (least_nodes qt <= M)%N ->
  eig_contract fpi eigh fsqrt (NodesGen nt qt) M ->
  exists2 s, getNodes fpi eigh fsqrt (NodesGen nt qt) M%:Z = Ok s &
  [/\ size s = M, sorted <%O s, all (fun x => -1 <= x <= 1) s,
      (-1 \in s) = has_left qt & (1 \in s) = has_right qt].
Proof.
move=> hnt hqt /least [n0 hn] ct.
have [a [b [s [_ ok _ sr e]]]] := getNodesE hnt hqt n0 hn ct.
exists s => //; have [-> ->] := ends_mem ok n0 sr; have [ss sz rs] := sr; have [szp _] := size_op a b M.
split=> //; first by apply: succn_inj; rewrite sz szp.
by apply/allP => x xs; have [] := rec_bounds ok n0 (allP rs x xs).
Qed.

(* C62: which nodes: the nodal polynomial is the classical orthogonal polynomial of degree M
   (GAUSS), or that plus multiples of the two previous ones which make it vanish at the
   required end points *)
Theorem C62_nodal_polynomial nt qt M : nt \in ORTHO -> qt \in QUAD_TYPES -> (least_nodes qt <= M)%N ->
  eig_contract fpi eigh fsqrt (NodesGen nt qt) M ->
  exists2 s, getNodes fpi eigh fsqrt (NodesGen nt qt) M%:Z = Ok s &
  exists c0 c1 c2, [/\ c0 != 0,
    \prod_(x <- s) ('X - x%:P) = c0 *: clas F nt M + c1 *: clas F nt M.-1 + c2 *: clas F nt M.-2,
    qt = "GAUSS"%string -> c1 = 0 /\ c2 = 0 &
    qt = "RADAU-LEFT"%string \/ qt = "RADAU-RIGHT"%string -> c2 = 0].
Proof.
move=> hnt hqt /least [n0 hn] ct.
have [a [b [s [_ ok _ sr e]]]] := getNodesE hnt hqt n0 hn ct.
exists s => //; have [_ mp] := size_op a b M; rewrite -(sorted_roots_prod mp sr).
have [c [d [-> hG hR]]] := op_mod ok n0.
have rq : qt = "RADAU-LEFT"%string \/ qt = "RADAU-RIGHT"%string -> is_radau qt by case=> ->.
case: M n0 {hn ct e ok sr mp} => [//|[|M]] _.
  exists (gam F nt 1), (c * gam F nt 0), 0; rewrite gam_neq0 !op_clas // scalerA scaler0 scale0r.
  by split=> // /hG [-> _]; rewrite mul0r.
exists (gam F nt M.+2), (c * gam F nt M.+1), (d * gam F nt M).
rewrite gam_neq0 opp1 !op_clas // !scalerA.
split=> // [/hG [-> ->]|/rq /hR ->]; by rewrite !mul0r.
Qed.

(* C20 *)
Theorem C20_mirror nt qt M s s' : nt \in ORTHO -> qt \in QUAD_TYPES ->
  (least_nodes qt <= M)%N -> (least_nodes (mirror_qt qt) <= M)%N ->
  eig_contract fpi eigh fsqrt (NodesGen nt qt) M ->
  eig_contract fpi eigh fsqrt (NodesGen (mirror_nt nt) (mirror_qt qt)) M ->
  getNodes fpi eigh fsqrt (NodesGen nt qt) M%:Z = Ok s ->
  getNodes fpi eigh fsqrt (NodesGen (mirror_nt nt) (mirror_qt qt)) M%:Z = Ok s' ->
  s' = rev (map -%R s).
Proof.
move=> hnt hqt /least [n0 hn] /least [_ hn'] ct ct' e e'.
have hnt' : mirror_nt nt \in ORTHO by move: hnt; rewrite !inE => /or4P [|||/orP []] /eqP ->.
have hqt' : mirror_qt qt \in QUAD_TYPES by move: hqt; rewrite !inE => /or4P [] /eqP ->.
have [a [b [t [_ ok _ sr]]]] := getNodesE hnt hqt n0 hn ct.
have [a' [b' [t' [_ ok' _ sr']]]] := getNodesE hnt' hqt' n0 hn' ct'.
rewrite e e' => -[e1] [e2]; subst t t'.
apply: (nodes_mirror hnt hqt ok ok' n0 hn _ sr sr').
by move=> h; apply: hn'; move: hqt h; rewrite !inE => /or4P [] /eqP ->.
Qed.

Theorem C20_symmetric nt qt M s : nt \in [:: "LEGENDRE"; "CHEBY-1"; "CHEBY-2"]%string ->
  qt \in [:: "GAUSS"; "LOBATTO"]%string -> (least_nodes qt <= M)%N ->
  eig_contract fpi eigh fsqrt (NodesGen nt qt) M ->
  getNodes fpi eigh fsqrt (NodesGen nt qt) M%:Z = Ok s -> s = rev (map -%R s).
Proof.
move=> hnt hqt hM ct e.
have en : mirror_nt nt = nt by move: hnt; rewrite !inE => /or3P [] /eqP ->.
have eq : mirror_qt qt = qt by move: hqt; rewrite !inE => /orP [] /eqP ->.
apply: (@C20_mirror nt qt M); rewrite ?en ?eq //.
  by move: hnt; rewrite !inE => /or3P [] /eqP ->.
by move: hqt; rewrite !inE => /orP [] /eqP ->.
Qed.

Theorem C20_equidistant qt M s s' : qt \in QUAD_TYPES ->
  (least_nodes qt <= M)%N -> (least_nodes (mirror_qt qt) <= M)%N ->
  getNodes fpi eigh fsqrt (NodesGen "EQUID" qt) M%:Z = Ok s ->
  getNodes fpi eigh fsqrt (NodesGen "EQUID" (mirror_qt qt)) M%:Z = Ok s' ->
  s' = rev (map -%R s).
Proof.
move=> hqt /least [n0 hn] /least [_ hn'].
have hqt' : mirror_qt qt \in QUAD_TYPES by move: hqt; rewrite !inE => /or4P [] /eqP ->.
by rewrite !getNodes_equid // => -[<-] [<-]; apply: equid_mirror.
Qed.
End Props.

Print Assumptions C15_equidistant.
Print Assumptions C15_values.
Print Assumptions C16_constructor.
Print Assumptions C16_getNodes.
Print Assumptions C17_coefficients.
Print Assumptions C17_denominators.
Print Assumptions C18_endpoints.
Print Assumptions C18_forcing.
Print Assumptions C19_nodes.
Print Assumptions C20_mirror.
Print Assumptions C20_symmetric.
Print Assumptions C20_equidistant.
Print Assumptions C62_nodal_polynomial.

(* Concrete cases: equidistant nodes; CHEBY-2 with RADAU-RIGHT, M = 2: the matrix
   [[0, 1/2], [1/2, 3/4]] has the eigenvalues -1/4 and 1 *)
Local Notation Q := qc_realFieldType.
Definition ex_eigh (d e : seq Q) : seq Q := [:: 1; qc (-1) 4]%R.
Definition ex_sqrt (x : Q) : Q := qc 1 2.

Example C15_nonvacuous :
  getNodes (F := Q) 1%R (fun _ _ => [::]) (fun x => x) (NodesGen "EQUID" "GAUSS") 3 = Ok [:: qc (-1) 2; 0; qc 1 2]%R.
Proof. by apply: ok_eqP; vm_compute. Qed.

Example C16_nonvacuous :
  nodesgen_init "EQUID" "GAUS" = Raise ValueError /\ nodesgen_init "LEGENDRE" "LOBATTO" = Ok (NodesGen "LEGENDRE" "LOBATTO").
Proof. by []. Qed.

Lemma ex_tridiag : getTridiagCoefficients (F := Q) 1%R (NodesGen "CHEBY-2" "RADAU-RIGHT") 2 =
  Ok ([:: 0; qc 3 4]%R, [:: qc 1 2; qc 1 4]).
Proof. by apply: ok_eqP; vm_compute. Qed.

Example C19_nonvacuous :
  eig_contract (F := Q) 1%R ex_eigh ex_sqrt (NodesGen "CHEBY-2" "RADAU-RIGHT") 2 /\
  getNodes (F := Q) 1%R ex_eigh ex_sqrt (NodesGen "CHEBY-2" "RADAU-RIGHT") 2 = Ok [:: qc (-1) 4; 1]%R.
Proof.
split; last by apply: ok_eqP; vm_compute.
move=> al be; rewrite ex_tridiag => -[<- <-]; split.
  by move=> x; rewrite inE => /eqP ->; apply/eqP; vm_compute.
split=> //; pose V : 'M[Q]_2 := mxl 2 2 [:: [:: 1; 2%:R]; [:: 2%:R; -1]]%R.
exists V; split.
  have h : V *m (qc 1 5 *: V) = 1%:M.
    apply/matrixP => i j; rewrite !mxE !big_ord_recl big_ord0 !mxE.
    by case: i => -[|[|//]] il; case: j => -[|[|//]] jl; apply/eqP; vm_compute.
  exact: (mulmx1_unit h).1.
apply/matrixP => i j; rewrite mul_mx_diag !mxE !big_ord_recl big_ord0 !mxE.
by case: i => -[|[|//]] il; case: j => -[|[|//]] jl; apply/eqP; vm_compute.
Qed.
