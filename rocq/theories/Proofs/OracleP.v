(* Reference versions, over a real closed field, of the external routines used by NodesGenerator
   and LagrangeApproximation; they satisfy the contracts used as premises elsewhere. *)
From Verif.Base Require Import Str.
From mathcomp Require Import all_ssreflect all_algebra ring polyrcf zify.
From Verif.Base Require Import Outcome Arr PolyInterp PolyInt.
From Verif.Model Require Import Nodes.
From Verif.Spec Require Import LagrangeSpec NodesSpec CollSpec.
From Verif.Proofs Require Import LagrangeP OrthoP NodesP NodesThms QuadP LegendreP RootsP.
Set Implicit Arguments.
Unset Strict Implicit.
Unset Printing Implicit Defensive.
Import GRing.Theory Num.Theory Order.TTheory.
Local Open Scope ring_scope.

Section Any.
Variable F : realFieldType.
Implicit Types (a b : nat -> F).
(* b 0 plays no role *)
Lemma op_ext0 a b a' b' k : (forall j, (j < k)%N -> a j = a' j) ->
  (forall j, (0 < j < k)%N -> b j = b' j) -> op a b k = op a' b' k.
Proof.
elim/ltn_ind: k => -[|[|k]] ih ha hb; first by rewrite !op0.
  by rewrite !op1 ha.
rewrite !opS (ha _ (leqnn _)) (hb k.+1) ?ltnSn ?ltn0Sn //.
rewrite (ih k.+1) ?(ih k) // => j.
- by move=> h; apply: ha; lia.
- by move=> h; apply: hb; lia.
- by move=> h; apply: ha; lia.
by move=> h; apply: hb; lia.
Qed.


Lemma rec_ok_pi (fpi fpi' : F) nt qt n a b : rec_ok fpi nt qt n a b ->
  rec_ok fpi' nt qt n a (upd b 0 (bfun fpi' nt 0)).
Proof.
have e k : op a (upd b 0 (bfun fpi' nt 0)) k = op a b k.
  by apply: op_ext0 => // j /andP [j0 _]; rewrite /upd gtn_eqF.
have e' k : op (neg a) (upd b 0 (bfun fpi' nt 0)) k = op (neg a) b k.
  by apply: op_ext0 => // j /andP [j0 _]; rewrite /upd gtn_eqF.
have bf k : (0 < k)%N -> bfun fpi nt k = bfun fpi' nt k by case: k.
have up k (bk : b k = bfun fpi nt k) : upd b 0 (bfun fpi' nt 0) k = bfun fpi' nt k.
  by rewrite /upd; case: eqP => [->//|/eqP k0]; rewrite bk bf // lt0n.
case=> h1 h2 h3 h4 h5 h6 h7 h8; split; rewrite ?e ?e' //.
- by move=> k /andP [k0 kn]; rewrite /upd gtn_eqF // h1 // k0.
- by move=> k kn; rewrite e h2.
- by move=> k kn; rewrite e' h3.
- by move=> k kn; have [-> bk] := h6 k kn; rewrite up.
- by move=> g; have [-> bk] := h7 g; rewrite up.
by move=> r; rewrite up // h8.
Qed.
End Any.

Section Rcf.
Variable F : rcfType.
Implicit Types (a b : nat -> F) (d e : seq F).

(* eigenvalues of the symmetric tridiagonal matrix: the real roots of its characteristic
   polynomial in increasing order *)
Definition eigh_ref d e : seq F := rootsR (char_poly (tri_mx (size d) d e)).

Lemma eigh_ref_ok d e : size e = (size d).-1 -> all (fun x => x != 0) e -> eig_ok d e (eigh_ref d e).
Proof.
move=> se /allP ne; set n := size d.
pose a := nth 0 d; pose s := nth 0 e; pose b k := s k.-1 ^+ 2.
have dE : d = mkseq a n by rewrite mkseq_nth.
have eE : e = mkseq s n.-1 by rewrite -se mkseq_nth.
have ssq k : (k.+1 < n)%N -> s k * s k = b k.+1 by move=> _; rewrite /b expr2.
have snz k : (k.+1 < n)%N -> s k != 0 by move=> kn; apply: ne; rewrite mem_nth // se -/n; lia.
have bp j : (0 < j < n)%N -> 0 < b j.
  by case: j => // j /andP [_ jn]; rewrite /b /= lt_neqAle sqr_ge0 eq_sym sqrf_eq0 snz.
have [srt sz al] := rootsR_op a bp.
have [sp mp] := size_op a b n.
have ch : eigh_ref d e = rootsR (op a b n).
  rewrite /eigh_ref -/n; have mc := char_poly_monic (tri_mx n d e); have scp := size_char_poly (tri_mx n d e).
  congr rootsR; rewrite (sorted_roots_prod mp (And3 srt sz al)).
  apply: sorted_roots_prod => //; split=> //; first by rewrite sz sp scp.
  apply/allP => x /(allP al) rx; rewrite -eigenvalue_root_char.
  case: (posnP n) => [n0|n0]; last by rewrite dE eE; apply: (root_eig ssq snz).
  by move: rx; rewrite n0 op0 rootE hornerC oner_eq0.
rewrite ch [X in eig_ok X]dE [X in eig_ok _ X]eE; apply: (roots_eig_ok ssq snz) => //.
  by apply/eqP; rewrite -eqSS sz sp.
by move: srt; rewrite lt_sorted_uniq_le => /andP [].
Qed.

Lemma contract_ref fpi fsqrt nt qt n : (forall x, 0 < x -> fsqrt x ^+ 2 = x) -> nt \in ORTHO ->
  qt \in QUAD_TYPES -> (least_nodes qt <= n)%N ->
  eig_contract (F := F) fpi eigh_ref fsqrt (NodesGen nt qt) n.
Proof.
move=> hs hnt hqt ln alpha beta.
have [n0 hn] : (0 < n)%N /\ (has_left qt -> (1 < n)%N).
  by move: ln; rewrite /least_nodes; case: (has_left qt) => h; split=> //; apply: ltnW.
have [a [b [-> [bp _ _ _ _ _ _ _]]]] := tridiagE fpi hnt hqt n0 hn => -[<- <-].
have pos x : x \in behead (mkseq b n) -> 0 < x.
  by rewrite behead_mkseq => /mapP [k]; rewrite mem_iota => kn ->; apply: bp; lia.
split=> [x /pos /hs //|]; apply: eigh_ref_ok; first by rewrite size_map size_behead !size_mkseq.
apply/allP => y /mapP [x /pos x0 ->]; have := hs x x0; case: eqP => [->|//].
by rewrite expr0n /= => e; move: x0; rewrite -e ltxx.
Qed.

Lemma nodes_ok_ref fpi fsqrt nt qt n : (forall x, 0 < x -> fsqrt x ^+ 2 = x) -> nt \in NODE_TYPES ->
  qt \in QUAD_TYPES -> (least_nodes qt <= n)%N -> nodes_ok (F := F) fpi eigh_ref fsqrt nt qt n.
Proof.
move=> hs hnt hqt ln; split=> // ne; apply: contract_ref => //.
by move: hnt; rewrite in_cons => /orP [/eqP //|].
Qed.

(* Gauss-Legendre rule: nodes are the roots of the Legendre polynomial, weights the integrals
   of the Lagrange basis; no rule without points *)
Definition gauss_ref (m : nat) : outcome (seq F * seq F) :=
  if m == 0%N then Raise ValueError
  else let s := rootsR (clas F "LEGENDRE" m) in Ok (s, mkseq (fun j => pint (ell s j) (-1) 1) m).

Lemma gauss_ref_ok m : (0 < m)%N -> exists2 r, gauss_ref m = Ok r & exact_rule r (2 * m - 1).
Proof.
move=> m0; rewrite /gauss_ref gtn_eqF //; eexists; first by [].
set s := rootsR _; pose a : nat -> F := afun F "LEGENDRE"; pose b := bfun (0 : F) "LEGENDRE".
have bp j : (0 < j < m)%N -> 0 < b j by move=> /andP [j0 _]; apply: bfun_gt0.
have [srt sz al] := rootsR_op a bp; have [sp mp] := size_op a b m.
have sE : s = rootsR (op a b m).
  have nzc : clas F "LEGENDRE" m != 0.
    apply/eqP => e; have := monic_neq0 mp; rewrite /a /b (op_clas (0 : F) m (nt := "LEGENDRE")) // e.
    by rewrite scaler0 eqxx.
  apply: (irr_sorted_eq lt_trans (@ltxx _ _)) => //; first exact: polyrcf.sorted_roots.
  move=> x; rewrite -(roots_on_rootsR nzc) -(roots_on_rootsR (monic_neq0 mp)).
  by congr andb; rewrite /a /b (op_clas (0 : F) m (nt := "LEGENDRE")) // rootZ // gam_neq0.
have ss : size s = m by apply/eqP; rewrite -eqSS sE sz sp.
have srt' : sorted <%O s by rewrite sE.
split; rewrite /= ?size_mkseq // => P sP.
have := @qsum_order F s srt' (-1) 1 m _ P^`() _; rewrite /qsum pint_deriv => <-.
- by apply: eq_bigr => j _; rewrite nth_mkseq // -ss.
- move=> q sq; rewrite /nodal sE -(sorted_roots_prod mp (And3 srt sz al)) mulrC.
  have -> : op a b m = op (fun=> 0) b m.
    by apply: op_ext0 => // j _; rewrite /a /afun; case: eqP.
  by apply: leg_ortho => // k; rewrite /b /bfun.
case: (P =P 0) => [->|/eqP nz]; first by rewrite deriv0 size_poly0.
have := leq_trans (lt_size_deriv nz) sP; rewrite ss; move: (size _) m0; clear; lia.
Qed.

Lemma rules_ok_ref fejer n nq : (0 < n)%N -> (nq = "LEGENDRE_NUMPY" \/ nq = "LEGENDRE_SCIPY")%string ->
  rules_ok gauss_ref gauss_ref fejer n nq.
Proof.
move=> n0 h; have [|r e ok] := @gauss_ref_ok (n.+1 %/ 2); first by rewrite divn_gt0.
by case: h => ->; [left|right; left]; split=> //; exists r.
Qed.
End Rcf.
