(* Enclosures of the Legendre nodes of RADAU-RIGHT and LOBATTO type by sign changes. *)
From Coq Require Import ZArith Lia.
From Verif.Base Require Import Str.
From mathcomp Require Import all_ssreflect all_algebra ring.
From Verif.Base Require Import QcEmb IntvZ IntvMx Outcome Arr.
From Verif.Model Require Import Nodes.
From Verif.Spec Require Import NodesSpec CollSpec.
From Verif.Proofs Require Import OrthoP NodesP NodesThms.
From Verif.Properties Require Import NodesProps.
Set Implicit Arguments.
Unset Strict Implicit.
Unset Printing Implicit Defensive.
Import GRing.Theory Num.Theory Order.TTheory.
Local Open Scope ring_scope.
Delimit Scope Z_scope with cz.

(* k! S^k P_k(A/S) for k = n-1 and k = n *)
Fixpoint legz (A : Z) (n : nat) : Z * Z :=
  if n is k.+1 then
    let r := legz A k in
    (r.2, (Z.of_nat (2 * k + 1) * A * r.2 - Z.of_nat (k * k) * (SC * SC) * r.1)%cz)
  else (Z0, 1%cz).
(* n! S^n (P_n - P_{n-1}) and n! S^n (P_n - P_{n-2}) at A/S *)
Definition nodz (lob : bool) (n : nat) (A : Z) : Z :=
  let r := legz A n in
  if lob then (r.2 - Z.of_nat (n * n.-1) * (SC * SC) * (legz A n.-1).1)%cz
  else (r.2 - Z.of_nat n * SC * r.1)%cz.
(* intervals in [0,1]: end points and (lo, lo+1) for the other nodes *)
Definition leg_encl (lob : bool) (lows : seq Z) : seq intv :=
  (if lob then [:: izero] else [::]) ++ [seq (a, (a + 1)%cz) | a <- lows] ++ [:: ione].
Definition leg_check (lob : bool) (n : nat) (lows : seq Z) : bool :=
  all (fun a => Z.leb (nodz lob n (2 * a - SC) * nodz lob n (2 * (a + 1) - SC)) 0)%cz lows.
Definition chain (T : seq intv) : bool := sorted (fun I J : intv => Z.ltb I.2 J.1) T.

Lemma legzS A k : (legz A k.+1).2 =
  (Z.of_nat (2 * k + 1) * A * (legz A k).2 - Z.of_nat (k * k) * (SC * SC) * (legz A k).1)%cz.
Proof. by []. Qed.
Opaque SC shr IntvZ.sc.
Section Encl.
Variable F : realFieldType.
Notation z := (@zr F).
Notation sc := (sc F).
Notation P k := (clas F "LEGENDRE" k).

Lemma z_leg (a b c d e S : Z) : z (a * b * c - d * (S * S) * e)%cz = z a * z b * z c - z d * (z S * z S) * z e.
Proof. by rewrite zB !zrM. Qed.
Lemma z_rad (a b S c : Z) : z (a - b * S * c)%cz = z a - z b * z S * z c.
Proof. by rewrite zB !zrM. Qed.
Lemma z_lob (a b S c : Z) : z (a - b * (S * S) * c)%cz = z a - z b * (z S * z S) * z c.
Proof. by rewrite zB !zrM. Qed.
Lemma z_dbl (b S : Z) : z (2 * b - S)%cz = 2%:R * z b - z S.
Proof. by rewrite zB zrM (_ : z 2%cz = 2%:R). Qed.
Lemma dbl_le (a S : Z) : z (2 * a - S)%cz <= z (2 * (a + 1) - S)%cz.
Proof. by apply: zr_le; lia. Qed.
Lemma div_le2 (u v t : F) : 0 < t -> u <= v -> u / t <= v / t.
Proof. by move=> t0 h; rewrite ler_pmul2r // invr_gt0. Qed.
Lemma leg_rec k : P k.+2 = (k.+2%:R)^-1 *: ((2 * k.+1 + 1)%:R *: ('X * P k.+1) - k.+1%:R *: P k).
Proof. by rewrite clasS. Qed.

Lemma legzE (A : Z) (x : F) n : x * sc = z A ->
  z (legz A n).2 = n`!%:R * sc ^+ n * (P n).[x] /\
  ((0 < n)%N -> z (legz A n).1 = n.-1`!%:R * sc ^+ n.-1 * (P n.-1).[x]).
Proof.
move=> hx; have zz k : z (Z.of_nat k) = k%:R by exact: zr_nat.
have zo : z 1%cz = 1 by rewrite /= /posr.
elim: n => [|n [ih1 ih2]].
  split=> //; rewrite [(legz A 0).2]/= zo fact0 expr0 !mul1r.
  by rewrite /clas /= hornerC.
split; last by move=> _; exact: ih1.
rewrite legzS z_leg !zz ih1.
case: n ih1 ih2 => [|n] ih1 ih2.
  rewrite muln0 !mul0r subr0 mul1r fact0 expr0 !mul1r -hx expr1 /clas /= hornerC hornerX mulr1.
  by rewrite mulrC.
rewrite ih2 // -(scE F) leg_rec hornerZ hornerD hornerN !hornerZ hornerM hornerX -hx.
rewrite /= !factS !natrM !exprS.
have n2 : n.+2%:R != 0 :> F by rewrite pnatr_eq0.
move: (P n.+1).[x] (P n).[x] (2 * _ + 1)%:R n.+1%:R n.+2%:R n`!%:R (sc ^+ n) (IntvZ.sc F) n2 => a b c d e f g h n2.
by field.
Qed.

(* the sign of the nodal polynomial *)
Lemma nodzE (lob : bool) (A : Z) (x : F) n : x * sc = z A -> (lob < n)%N ->
  z (nodz lob n A) = n`!%:R * sc ^+ n * ((P n).[x] - (P (if lob then n.-2 else n.-1)).[x]).
Proof.
move=> hx hn; rewrite /nodz; have [e1 e2] := legzE n hx.
case: lob hn => hn.
  have [_ e3] := legzE n.-1 hx.
  have n1 : (0 < n.-1)%N by case: n hn {e1 e2 e3} => [|[]].
  rewrite z_lob e1 e3 // -(scE F) zr_nat; case: n hn {e1 e2 e3 n1} => [|[|n]] // _ /=.
  rewrite !factS !natrM !exprS.
  by move: (_.[x]) (_.[x]) (n.+1%:R) (n.+2%:R) (n`!%:R) (sc ^+ n) (IntvZ.sc F) => a b c d e f g; ring.
rewrite z_rad e1 e2 // -(scE F) zr_nat; case: n hn {e1 e2} => [|n] // _ /=.
rewrite !factS !natrM !exprS.
by move: (_.[x]) (_.[x]) (n.+1%:R) (n`!%:R) (sc ^+ n) (IntvZ.sc F) => a b c e f g; ring.
Qed.

(* a product of linear factors with a sign change has a root in between *)
Lemma sign_change (s : seq F) (a b : F) : a <= b ->
  (\prod_(y <- s) ('X - y%:P)).[a] * (\prod_(y <- s) ('X - y%:P)).[b] <= 0 ->
  exists2 y, y \in s & a <= y <= b.
Proof.
move=> ab; elim: s => [|y s ih]; first by rewrite big_nil !hornerC mulr1 ler10.
rewrite big_cons !hornerM !hornerXsubC mulrACA.
case: (boolP (a <= y <= b)) => [h _|h]; first by exists y; rewrite ?inE ?eqxx.
have p0 : 0 < (a - y) * (b - y).
  move: h; rewrite negb_and -!ltNge => /orP [h|h].
    by rewrite mulr_gt0 // subr_gt0 // (lt_le_trans h).
  by rewrite nmulr_rgt0 // subr_lt0 // (le_lt_trans ab).
rewrite pmulr_rle0 // => /ih [y' ys' h2].
by exists y'; rewrite ?inE ?ys' ?orbT.
Qed.

(* points in a chain of intervals, all of them among as many increasing points *)
Lemma chain_points (g : F -> F) (s : seq F) (T : seq intv) : {homo g : x y / x <= y} ->
  sorted <%O s -> size s = size T -> chain T ->
  (forall i, (i < size T)%N -> exists2 y, y \in s & inI (g y) (nth izero T i)) ->
  forall i, (i < size T)%N -> inI (g (nth 0 s i)) (nth izero T i).
Proof.
move=> gm ss sz ch h.
have [t st ht] : exists2 t, size t = size T & forall i, (i < size T)%N -> nth 0 t i \in s /\ inI (g (nth 0 t i)) (nth izero T i).
  elim: T h {ch sz} => [|I T ih] h; first by exists [::].
  have [y ys yi] := h 0%N isT.
  have [t st ht] := ih (fun i hi => h i.+1 hi).
  exists (y :: t); first by rewrite /= st.
  by case=> [|i] //= hi; exact: ht.
suff -> : s = t by move=> i /ht [].
have sct : sorted <%O t.
  apply/(sortedP 0) => i hi; rewrite st in hi; have [_ [_ h1]] := ht i (ltnW hi); have [_ [h2 _]] := ht i.+1 hi.
  rewrite ltNge; apply/negP => /gm; rewrite -(ler_pmul2r (sc_gt0 F)) => h3.
  have := le_trans (le_trans h2 h3) h1; rewrite leNgt zr_lt //.
  by apply/Z.ltb_lt; move/(sortedP izero): ch => ch; exact: ch.
apply: lt_sorted_eq => // x; apply/esym.
have [||_ -> //] := @uniq_min_size _ t s (lt_sorted_uniq sct).
  by move=> y /(nthP 0) [i hi <-]; have [] := ht i; rewrite -?st.
by rewrite sz st.
Qed.

Lemma leg_one k : (P k).[1] = 1.
Proof.
have [e1 e2] : (P k).[1] = 1 /\ (P k.+1).[1] = 1.
  elim: k => [|k [h1 h2]]; first by rewrite /clas /= hornerC hornerX.
  split=> //; rewrite leg_rec hornerZ hornerD hornerN !hornerZ hornerM hornerX h1 h2 !mulr1.
  have n2 : k.+2%:R != 0 :> F by rewrite pnatr_eq0.
  by apply: (mulfI n2); rewrite mulVKf // mulr1 -natrB; [congr _%:R; lia|lia].
exact: e1.
Qed.
Lemma leg_mone k : (P k).[-1] = (-1) ^+ k.
Proof.
have [e1 e2] : (P k).[-1] = (-1) ^+ k /\ (P k.+1).[-1] = (-1) ^+ k.+1.
  elim: k => [|k [h1 h2]]; first by rewrite /clas /= hornerC hornerX expr0 expr1.
  split=> //; rewrite leg_rec hornerZ hornerD hornerN !hornerZ hornerM hornerX h1 h2.
  have n2 : k.+2%:R != 0 :> F by rewrite pnatr_eq0.
  apply: (mulfI n2); rewrite mulVKf // !exprS.
  have -> : (2 * k.+1 + 1)%:R = k.+2%:R + k.+1%:R :> F by rewrite -natrD; congr _%:R; lia.
  by move: k.+2%:R k.+1%:R ((-1) ^+ k) => a b c; ring.
exact: e1.
Qed.

Definition lob (qt : string) : bool := qt == "LOBATTO"%string.
Section Nodes.
Variables (fpi : F) (eigh : seq F -> seq F -> seq F) (fsqrt : F -> F).
Variables (qt : string) (n : nat) (s : seq F).
Hypothesis hq : qt \in [:: "RADAU-RIGHT"; "LOBATTO"]%string.
Hypothesis hn : (lob qt < n)%N.
Hypothesis ct : eig_contract fpi eigh fsqrt (NodesGen "LEGENDRE" qt) n.
Hypothesis es : getNodes fpi eigh fsqrt (NodesGen "LEGENDRE" qt) n%:Z = Ok s.

Lemma leg_nodal : size s = n /\ sorted <%O s /\ all (fun x => -1 <= x <= 1) s /\
  1 \in s /\ (lob qt -> -1 \in s) /\
  exists2 d, d != 0 & forall x, (\prod_(y <- s) ('X - y%:P)).[x] = d * ((P n).[x] - (P (if lob qt then n.-2 else n.-1)).[x]).
Proof.
have hqt : qt \in QUAD_TYPES by move: hq; rewrite !inE => /orP [] /eqP ->.
have ln : (least_nodes qt <= n)%N by move: hq hn; rewrite !inE => /orP [] /eqP ->.
have [s' es' [d0 [d1 [d2 [dn pr _ hR]]]]] := C62_nodal_polynomial (isT : "LEGENDRE"%string \in ORTHO) hqt ln ct.
have [s2 es2 [z2 ss2 al2 l2 r2]] := C19_nodes (isT : "LEGENDRE"%string \in ORTHO) hqt ln ct.
move: es' es2; rewrite es => -[e] [e2]; subst s' s2.
have hr : has_right qt by move: hq; rewrite !inE => /orP [] /eqP ->.
have lE : has_left qt = lob qt by move: hq; rewrite !inE => /orP [] /eqP ->.
split=> //; split=> //; split=> //; split; first by rewrite r2.
split; first by rewrite l2 lE.
exists d0 => // x.
have m1 : d0 + d1 + d2 = 0.
  have : (\prod_(y <- s) ('X - y%:P)).[1] = 0.
    by apply/rootP; rewrite root_prod_XsubC r2.
  by rewrite pr !hornerD !hornerZ !leg_one !mulr1.
rewrite pr !hornerD !hornerZ; case: ifP => lq.
  have mm : (\prod_(y <- s) ('X - y%:P)).[-1] = 0.
    by apply/rootP; rewrite root_prod_XsubC l2 lE.
  have n2 : (1 < n)%N by move: hn; rewrite lq.
  have d10 : d1 = 0.
    move: mm; rewrite pr !hornerD !hornerZ !leg_mone; case: n n2 => [|[|m]] // _ /=; rewrite !exprS => mm.
    have : (-1) ^+ m * (d0 - d1 + d2) = 0 :> F by rewrite -[RHS]mm; move: ((-1) ^+ m) => t; ring.
    move/eqP; rewrite mulf_eq0 signr_eq0 /= => /eqP h.
    have : 2%:R * d1 = 0 by rewrite -[RHS](subrr 0) -{1}m1 -h; ring.
    by move/eqP; rewrite mulf_eq0 pnatr_eq0 /= => /eqP.
  have -> : d2 = - d0 by apply/eqP; rewrite -addr_eq0; move: m1; rewrite d10 addr0 addrC => ->.
  by rewrite d10 mul0r addr0 mulrBr mulNr.
have qr : qt = "RADAU-RIGHT"%string by move: hq lq; rewrite /lob !inE => /orP [] /eqP ->.
have d20 : d2 = 0 by apply: hR; right.
have -> : d1 = - d0 by apply/eqP; rewrite -addr_eq0; move: m1; rewrite d20 addr0 addrC => ->.
by rewrite d20 mul0r addr0 mulrBr mulNr.
Qed.

Variable lows : seq Z.
Notation T := (leg_encl (lob qt) lows).
Lemma leg_enclP : size T = n -> chain T -> leg_check (lob qt) n lows ->
  forall i, (i < n)%N -> inI (node_in 0 1 (nth 0 s i)) (nth izero T i).
Proof.
move=> sT ch ck; have [sz [ss [_ [m1 [mm [d d0 dE]]]]]] := leg_nodal.
rewrite -{1}sT; apply: chain_points => // [x y xy||i hi].
- by rewrite /node_in !add0r subr0 !mul1r ler_pmul2r ?invr_gt0 ?ltr0n // ler_add2r.
- by rewrite sz sT.
have nd0 : node_in 0 1 (-1) = 0 :> F by rewrite /node_in; field.
have nd1 : node_in 0 1 1 = 1 :> F by rewrite /node_in; field.
move: hi; rewrite /leg_encl.
set A := if lob qt then _ else _; set B := [seq _ | a <- _].
rewrite !size_cat !nth_cat => hi; case: ltnP => hA.
  have lq : lob qt by move: hA; rewrite /A; case: ifP.
  have -> : nth izero A i = izero by move: hA; rewrite /A lq; case: (i).
  by exists (-1); rewrite ?mm // nd0; exact: in_zero.
have : (i - size A < size B + 1)%N by rewrite ltn_subLR.
move: (i - size A)%N => k hk1; case: ltnP => hB; last first.
  have -> : (k - size B)%N = 0%N by apply/eqP; rewrite subn_eq0; move: hk1; rewrite addn1 ltnS.
  by exists 1; rewrite // nd1; exact: in_one.
have hk : (k < size lows)%N by rewrite /B size_map in hB.
rewrite /B (nth_map Z0) //; move: ck => /(all_nthP Z0) /(_ k hk).
move: (nth Z0 lows k) => a /Z.leb_le /(zr_le F); rewrite zrM.
pose x (a : Z) : F := z (2 * a - SC)%cz / sc.
have xE b : x b * sc = z (2 * b - SC)%cz by rewrite /x divfK // sc_neq0.
rewrite (nodzE (xE a) hn) (nodzE (xE (a + 1)%cz) hn).
set c := n`!%:R * sc ^+ n; have c0 : 0 < c.
  by apply: mulr_gt0; [rewrite ltr0n fact_gt0|apply: exprn_gt0; exact: sc_gt0].
move: c c0 => c c0 h; have xx : x a <= x (a + 1)%cz by exact: (div_le2 (sc_gt0 F) (dbl_le a SC)).
have [|y ys /andP [y1 y2]] := @sign_change s _ _ xx.
  rewrite !dE; move: h; set u := _ - _; set v := _ - _; rewrite mulrACA pmulr_rle0 ?mulr_gt0 // => h.
  by rewrite mulrACA pmulr_rle0 // -expr2 exprn_even_gt0.
exists y => //; have s0 := sc_gt0 F.
have e2 (b : Z) : z (2 * b - SC)%cz = 2%:R * z b - sc by rewrite z_dbl (scE F).
have nE : node_in 0 1 y * sc = (y * sc + sc) / 2%:R.
  by rewrite /node_in; move: (IntvZ.sc F) => S; field.
move: y1 y2; rewrite -(ler_pmul2r s0) xE e2 -[y <= _](ler_pmul2r s0) xE e2 => y1 y2.
rewrite /inI nE [(a, _).1]/fst [(a, _).2]/snd; move: y1 y2.
move: (IntvZ.sc F) (z a) (z (a + 1)%cz) => S u v y1 y2; split.
  by rewrite ler_pdivl_mulr ?ltr0n // mulrC -ler_subl_addr.
by rewrite ler_pdivr_mulr ?ltr0n // [v * _]mulrC -ler_subr_addr.
Qed.
End Nodes.
End Encl.
