(* Properties C37-C39: sweeps based on time-stepping. *)
From Coq Require Import ZArith QArith Qcanon.
From Verif.Base Require Import Str.
From mathcomp Require Import all_ssreflect all_algebra ring zify.
From Verif.Base Require Import QcField Outcome Arr Ext PolyInterp PolyInt.
From Verif.Model Require Import Lagrange QGen Nodes Collocation Sweeps.
From Verif.Spec Require Import LagrangeSpec NodesSpec CollSpec SweepSpec.
From Verif.Proofs Require Import LagrangeP LagrangeInit LagrangeThms CollP SweepP SoeP SoeThms.
From Verif.Properties Require Import LagrangeProps RKProps CollProps.
Set Implicit Arguments.
Unset Strict Implicit.
Unset Printing Implicit Defensive.
Import GRing.Theory Num.Theory Order.TTheory.
Local Open Scope ring_scope.

Section TS.
Variable F : realFieldType.
Variable tr : F -> F.

(* the constructor needs at least one node *)
Theorem C37_init int nodes tl :
  (nodes = [::] -> ts_init tr int nodes tl = Raise IndexError) /\
  (nodes <> [::] -> exists2 self, ts_init tr int nodes tl = Ok self &
     ts_nodes self = nodes /\ ts_tLeft self = tl).
Proof. by case: nodes => [|x s]; split=> // _; eexists. Qed.

Section One.
Variables (int : bool) (nodes : seq F) (tl : F) (self : ts F).
Hypothesis e : ts_init tr int nodes tl = Ok self.
(* a first step computed in an integer array is itself an integer *)
Hypothesis intOk : int -> tr (nth 0 nodes 0 - tl) = nth 0 nodes 0 - tl.
Notation M := (size nodes).
Notation delta := (step nodes tl).

Let e' : ts_init tr false nodes tl = Ok self.
Proof.
move: e intOk; rewrite /ts_init; case: nodes => // x s <-; case: int => //= h.
by rewrite h.
Qed.

Theorem C37_entries :
  is_shape (qd_BE self) M M /\ is_shape (qd_FE self) M M /\ is_shape (qd_TRAP self) M M /\
  forall i j, (i < M)%N -> (j < M)%N ->
    ent (qd_BE self) i j = (if (j <= i)%N then delta j else 0) /\
    ent (qd_FE self) i j = (if (j < i)%N then delta j.+1 else 0) /\
    ent (qd_TRAP self) i j = (ent (qd_BE self) i j + ent (qd_FE self) i j) / 2%:R.
Proof.
have [s1 h1] := BE_E e'; have [s2 h2] := FE_E e'; have [s3 h3] := TRAP_E e'.
by split=> //; split=> //; split=> // i j il jl; rewrite h1 // h2 // h3 // h1 // h2.
Qed.

(* node-to-node form: one step between neighbouring nodes *)
Theorem C37_N2N i j : (i < M)%N -> (j < M)%N ->
  ent (smat (qd_BE self)) i j = (if i == j then delta i else 0) /\
  ent (smat (qd_FE self)) i j = (if i == j.+1 then delta i else 0) /\
  ent (smat (qd_TRAP self)) i j =
    (if i == j then delta i / 2%:R else if i == j.+1 then delta i / 2%:R else 0).
Proof.
have [sB [sF [sT en]]] := C37_entries.
have S (Q : seq (seq F)) k l : is_shape Q M M -> (k < M)%N -> (l < M)%N ->
    ent (smat Q) k l = ent Q k l - (if k is i'.+1 then ent Q i' l else 0).
  move=> sh il jl; have [zQ _] := is_shapeP _ _ _ sh.
  have [S _ [_ [h [_ e2]]]] := @C36_N2N_rows F id id (fun _ => false) (Rk Q [::] [::] None) M sh.
  by rewrite /smat zQ [mm _ _ _]e2 h.
have enT k l : (k < M)%N -> (l < M)%N -> ent (qd_TRAP self) k l =
    ((if (l <= k)%N then delta l else 0) + (if (l < k)%N then delta l.+1 else 0)) / 2%:R.
  by move=> kl ll; have [e1 [e2 ->]] := en k l kl ll; rewrite e1 e2.
have enB k l kl ll := (en k l kl ll).1; have enF k l kl ll := (en k l kl ll).2.1.
move=> il jl; rewrite !S //; case: i il => [|i] il.
  rewrite enT // enB // enF // !subr0.
  by case: j jl => [|j] jl //=; rewrite addr0 // mul0r.
have il' := ltnW il; rewrite !enT // !enB // !enF //.
rewrite eqSS !ltnS; case: (ltngtP i j) => ij.
- have -> : (j <= i.+1)%N = (i.+1 == j) by rewrite eq_sym eqn_leq ij andbT.
  by rewrite !addr0 ?mul0r !subr0; case: eqP => [<-|_]; rewrite ?mul0r ?subr0.
- have -> : (j <= i.+1)%N by lia.
  have -> : (i.+1 == j) = false by apply/negbTE/eqP; lia.
  by rewrite !subrr.
have -> : (j <= i.+1)%N by lia.
have -> : (i.+1 == j) = false by apply/negbTE/eqP; lia.
rewrite subrr subr0 ij; split=> //; split=> //.
by rewrite -mulrBl addr0; congr (_ / _); ring.
Qed.

Let sumr (A : seq (seq F)) i : is_shape A M M -> (i < M)%N -> vsum (nth [::] A i) = \sum_(j < M) ent A i j.
Proof. by move=> /is_shapeP [_ h] il; rewrite vsumE h. Qed.

Let BEsum i : (i < M)%N -> \sum_(j < M) ent (qd_BE self) i j = nth 0 nodes i - tl.
Proof.
move=> il; rewrite -(del_sum tl il).
rewrite -[RHS](big_mkord xpredT (fun j => delta j)) (big_nat_widen _ _ M) // big_mkord [RHS]big_mkcond.
by apply: eq_bigr => j _; have [_ [_ [_ h]]] := C37_entries; have [-> _] := h i j il (ltn_ord j).
Qed.
Let FEsum i : (i < M)%N -> \sum_(j < M) ent (qd_FE self) i j = nth 0 nodes i - nth 0 nodes 0.
Proof.
move=> il; have -> : nth 0 nodes i - nth 0 nodes 0 = (nth 0 nodes i - tl) - delta 0 by rewrite /step; ring.
rewrite -(del_sum tl il) big_ord_recl addrC addKr.
rewrite -[RHS](big_mkord xpredT (fun j => delta j.+1)) (big_nat_widen _ _ M) ?(ltnW il) // big_mkord [RHS]big_mkcond.
by apply: eq_bigr => j _; have [_ [_ [_ h]]] := C37_entries; have [_ [-> _]] := h i j il (ltn_ord j).
Qed.

Theorem C37_consistent :
  consistent (qd_BE self) (dTau_zero F M) nodes tl /\
  consistent (qd_FE self) (dTau_FE self) nodes tl /\
  consistent (qd_TRAP self) (dTau_TRAP self) nodes tl.
Proof.
have [sB [sF [sT en]]] := C37_entries; have [nE tE dS M0 dE] := ts_E e'.
have d0 := dE 0%N M0; split; [|split]; split; rewrite ?size_nseq ?size_map ?nE //; split=> // i il.
- by rewrite sumr // BEsum // nth_nseq il addr0.
- rewrite sumr // FEsum // /dTau_FE (nth_map 0) ?nE // d0 /step.
  by ring.
rewrite sumr // /dTau_TRAP (nth_map 0) ?nE // d0.
rewrite (eq_bigr (fun j : 'I_M => (ent (qd_BE self) i j + ent (qd_FE self) i j) / 2%:R)).
  rewrite -mulr_suml big_split /= BEsum // FEsum // /step.
  by move: (nth 0 nodes i) (nth 0 nodes 0) tl => x y t; field.
by move=> j _; have [_ [_ ->]] := en i j il (ltn_ord j).
Qed.

(* C38 *)
Theorem C38_entries i j : (i < M)%N -> (j < M)%N ->
  is_shape (qd_BEPAR self) M M /\ is_shape (qd_TRAPAR self) M M /\
  ent (qd_BEPAR self) i j = (if i == j then nth 0 nodes i else 0) - tl /\
  ent (qd_TRAPAR self) i j = (if i == j then nth 0 nodes i / 2%:R else 0) - tl.
Proof.
have [nE tE _ M0 _] := ts_E e' => il jl; rewrite /qd_BEPAR /qd_TRAPAR nE tE.
have gen (s : seq F) : size s = M -> is_shape [seq [seq x - tl | x <- r] | r <- diagm s] M M /\
    ent [seq [seq x - tl | x <- r] | r <- diagm s] i j = (if i == j then nth 0 s i else 0) - tl.
  move=> zs; have sh := diagm_shape s; rewrite zs in sh; have [z h] := is_shapeP _ _ _ sh.
  split.
    apply/is_shapeP; rewrite size_map z; split=> // k kl.
    by rewrite (nth_map [::]) ?z // size_map h.
  by rewrite /ent (nth_map [::]) ?z // (nth_map 0) ?h // -/(ent _ i j) ent_diagm ?zs.
have [g1 g2] := gen nodes erefl; have [g3 g4] := gen [seq x / 2%:R | x <- nodes] (size_map _ _).
by rewrite g1 g2 g3 g4 (nth_map 0).
Qed.

Let par_sum (A : seq (seq F)) (v : F) i : is_shape A M M -> (i < M)%N ->
  (forall j, (j < M)%N -> ent A i j = (if i == j then v else 0) - tl) ->
  vsum (nth [::] A i) = v - M%:R * tl.
Proof.
move=> sh il h; rewrite sumr // (eq_bigr (fun j : 'I_M => (if j == Ordinal il then v else 0) - tl)).
  by rewrite big_split /= -big_mkcond big_pred1_eq sumrN sumr_const card_ord mulr_natl.
by move=> j _; rewrite h // eq_sym -val_eqE.
Qed.

(* BEPAR and TRAPAR are right exactly when the interval starts at zero (one node: BEPAR only) *)
Theorem C38_consistent :
  (consistent (qd_BEPAR self) (dTau_zero F M) nodes tl <-> tl = 0 \/ M = 1%N) /\
  (consistent (qd_TRAPAR self) (dTau_TRAPAR self) nodes tl <-> tl = 0) /\
  (is_diag (qd_BEPAR self) nodes <-> tl = 0) /\
  (is_diag (qd_TRAPAR self) [seq x / 2%:R | x <- nodes] <-> tl = 0).
Proof.
have [nE tE dS M0 dE] := ts_E e'.
have [sB [sT _]] := C38_entries M0 M0.
have enB i j il jl := (C38_entries (i := i) (j := j) il jl).2.2.1.
have enT i j il jl := (C38_entries (i := i) (j := j) il jl).2.2.2.
have sumB i il := par_sum sB il (fun j jl => enB i j il jl).
have sumT i il := par_sum sT il (fun j jl => enT i j il jl).
split; [|split; [|split]]; split.
- case=> _ [_ /(_ 0%N M0)]; rewrite sumB // nth_nseq M0 addr0 => /addrI /oppr_inj.
  rewrite -[RHS]mul1r => h; case: (tl =P 0) => [|/eqP t0]; first by left.
  by right; apply/eqP; move/(mulIf t0)/eqP: h; rewrite -[1]/(1%:R) eqr_nat.
- move=> h; split; rewrite ?size_nseq //; split=> // i il; rewrite sumB // nth_nseq il addr0.
  by case: h => ->; rewrite ?mulr0 ?mul1r.
- case=> _ [_ /(_ 0%N M0)]; rewrite sumT // (nth_map 0) ?nE // tE.
  set x := nth 0 nodes 0; move=> h; have : (M%:R) * tl = 0.
    have -> : M%:R * tl = (x - tl) - (x / 2%:R - M%:R * tl + (x / 2%:R - tl)) by field.
    by rewrite h subrr.
  by move/eqP; rewrite mulf_eq0 pnatr_eq0 eqn0Ngt M0 => /eqP.
- move=> t0; split; rewrite ?size_map ?nE //; split=> // i il; rewrite sumT // (nth_map 0) ?nE // tE t0.
  by rewrite mulr0 !subr0; move: (nth 0 nodes i) => x; field.
- by case=> _ /(_ 0%N 0%N M0 M0); rewrite enB // => /eqP; rewrite -subr_eq0 addrAC subrr add0r oppr_eq0 => /eqP.
- by move=> t0; split=> // i j il jl; rewrite enB // t0 subr0.
- case=> _; rewrite size_map => /(_ 0%N 0%N M0 M0); rewrite enT // (nth_map 0) //.
  by move/eqP; rewrite -subr_eq0 addrAC subrr add0r oppr_eq0 => /eqP.
- by move=> t0; rewrite /is_diag size_map; split=> // i j il jl; rewrite enT // t0 subr0 (nth_map 0).
Qed.
End One.

(* C39 *)
Section SOE.
Variables (flog fexp : F -> F) (underflow : seq F -> bool).
Hypothesis lg : logs_all flog fexp underflow.
Variables (nodes : seq F) (self : ts F).
Hypothesis nE : ts_nodes self = nodes.
Hypothesis M0 : (0 < size nodes)%N.
Hypothesis srt : sorted <%O nodes.
Notation M := (size nodes).
Notation t := (0 :: nodes).

Let inc i : (i + 1 < M)%N -> nth 0 nodes i < nth 0 nodes i.+1.
Proof. by rewrite addn1 => il; rewrite lt_sorted_ltn_nth // inE ?(ltnW il). Qed.

(* leap-frog: with U the values computed from the right-hand sides f, starting from 0, the
   quadratic through three successive values has the given slope at the middle one *)
Theorem C39_leapfrog : 0 < nth 0 nodes 0 ->
  exists Q, qd_SOE self flog fexp underflow = Ok (fmat Q) /\ is_shape Q M M /\
  (forall i j, (i < M)%N -> (j < M)%N -> (i <= j)%N -> ent Q i j = 0) /\
  forall f : seq F, size f = M -> let U := 0 :: mv Q f in
  forall m, (m + 1 < M)%N -> exists q : {poly F},
    [/\ (size q <= 3)%N, q.[nth 0 t m] = nth 0 U m, q.[nth 0 nodes m] = nth 0 U m.+1,
        q.[nth 0 nodes m.+1] = nth 0 U m.+2 & q^`().[nth 0 nodes m] = nth 0 f m].
Proof.
move=> p0.
have inc0 m : (m < M)%N -> nth 0 t m < nth 0 nodes m by case: m => [|m] ml //=; apply: inc; lia.
have := @soe_matrix F flog fexp underflow self (fun _ => 3%N) (fun m => nth 0 nodes m); rewrite nE.
case=> //.
  move=> m ml; apply: alpha3 => //; first by rewrite -nE triple // nE.
    by apply: inc0; lia.
  exact: inc.
move=> Q [eQ [shQ [low h]]]; exists Q; split=> //; split=> //; split=> // f zf U m ml.
have [a [b [c [c0 e ex]]]] := h f zf m ml.
have l1 : nth 0 t m < nth 0 nodes m by apply: inc0; lia.
have l2 := inc ml.
have [||| q [sq q0 q1 q2]] := @three_points F (nth 0 t m) (nth 0 nodes m) (nth 0 nodes m.+1)
  (nth 0 U m) (nth 0 U m.+1) (nth 0 U m.+2); try by rewrite lt_eqF.
  by rewrite lt_eqF // (lt_trans l1).
exists q; split=> //; rewrite -(ex q sq) -e.
by rewrite -[nth 0 t m.+1]/(nth 0 nodes m) -[nth 0 t m.+2]/(nth 0 nodes m.+1) q0 q1 q2.
Qed.

(* a positive first node: the rows and dTau never integrate the constant *)
Theorem C39_never_consistent tl Q : 0 < nth 0 nodes 0 -> (1 < M)%N ->
  ts_deltas self = [seq step nodes tl j | j <- iota 0 M] ->
  qd_SOE self flog fexp underflow = Ok (fmat Q) ->
  ~ consistent Q (dTau_SOE self) nodes tl.
Proof.
move=> p0 M1 dE; have [Q' [-> [shQ [low h]]]] := C39_leapfrog p0 => -[/fmat_inj <-] [_ [_ cs]].
have := h (nseq M 1); rewrite size_nseq => /(_ erefl 0%N M1) [q [sq q0 q1 q2 q3]].
have rs i : (i < M)%N -> nth 0 (mv Q' (nseq M 1)) i = vsum (nth [::] Q' i).
  move=> il; have [zQ rQ] := is_shapeP _ _ _ shQ.
  rewrite (nth_mv shQ) ?size_nseq // vsumE rQ //; apply: eq_bigr => j _.
  by rewrite nth_nseq ltn_ord mulr1.
have r0 : vsum (nth [::] Q' 0) = 0.
  have [zQ rQ] := is_shapeP _ _ _ shQ; rewrite vsumE rQ // big1 // => j _; exact: low.
move: q1 q2 q3; rewrite nth_nseq M0 -[nth 0 (0 :: _) 1]/(nth 0 (mv Q' (nseq M 1)) 0).
rewrite -[nth 0 (0 :: _) 2]/(nth 0 (mv Q' (nseq M 1)) 1) !rs // r0 => q1 q2 q3.
have := cs 1%N M1; rewrite /dTau_SOE /dTau_FE (nth_map 0) ?nE // dE (nth_map 0%N) ?size_iota // nth_iota //= -q2.
move: q0 q1 q3 (@inc 0%N M1) p0; rewrite /= /step; set x := nth 0 nodes 0; set y := nth 0 nodes 1.
move=> q0 q1 q3 xy x0; rewrite mulr0 add0r addrA => /addIr h2.
have qE (v : F) : q.[v] = q`_0 + q`_1 * v + q`_2 * v ^+ 2.
  by rewrite (horner_coef_wide _ sq) !big_ord_recl big_ord0 /= addr0 addrA expr0 mulr1 expr1.
have dE' : q^`().[x] = q`_1 + 2%:R * q`_2 * x.
  have sd : (size q^`() <= 2)%N by rewrite (leq_trans (size_poly _ _)) //; move: sq; case: (size q) => [|[|[|[]]]].
  by rewrite (horner_coef_wide _ sd) !big_ord_recl big_ord0 /= addr0 !coef_deriv expr0 mulr1 expr1 mulr1n mulr_natl.
move: q0 q1 q3 h2; rewrite dE' !qE; move: q`_0 q`_1 q`_2 => c0 c1 c2.
rewrite mulr0 expr0n mulr0 !addr0 => ->; rewrite !add0r => e1 e2 e3.
have e4 : c1 + c2 * x = 0.
  by apply/eqP; have /eqP := e1; rewrite expr2 mulrA -mulrDl mulf_eq0 (gt_eqF x0) orbF.
have e5 : c2 * x = 1.
  have -> : c2 * x = (c1 + 2%:R * c2 * x) - (c1 + c2 * x) by ring.
  by rewrite e2 e4 subr0.
have e6 : c1 = -1 by apply/eqP; rewrite -addr_eq0 -e5 e4.
have : (y - x) ^+ 2 = 0.
  have -> : (y - x) ^+ 2 = x * (c1 * y + c2 * y ^+ 2 + x - y) - x * y * (c1 + 1) - y ^+ 2 * (c2 * x - 1) by ring.
  by rewrite e3 e5 e6 ?subrr ?addNr ?subrr ?mulr0 ?subrr ?subr0.
by move/eqP; rewrite sqrf_eq0 subr_eq0 gt_eqF.
Qed.

(* first node 0: consistent *)
Theorem C39_zero_first tl : nth 0 nodes 0 = 0 ->
  ts_deltas self = [seq step nodes tl j | j <- iota 0 M] ->
  exists2 Q, qd_SOE self flog fexp underflow = Ok (fmat Q) & consistent Q (dTau_SOE self) nodes tl.
Proof.
move=> n0 dE.
have := @soe_matrix F flog fexp underflow self (fun m => if m == 0%N then 2%N else 3%N)
  (fun m => if m == 0%N then nth 0 nodes 1 else nth 0 nodes m); rewrite nE.
case=> //.
  case=> [|m] ml.
    have := @alpha2 F flog fexp underflow lg t 0%N (nth 0 nodes 1).
    rewrite -{1}nE triple ?nE // -[nth 0 t 1]/(nth 0 nodes 0) n0; apply=> //.
    by rewrite -{1}n0; exact: (@inc 0%N).
  apply: alpha3 => //; first by rewrite -nE triple // nE.
    change (nth 0 nodes m < nth 0 nodes m.+1); apply: inc; lia.
  change (nth 0 nodes m.+1 < nth 0 nodes m.+2); apply: inc; lia.
move=> Q [eQ [shQ [low h]]]; exists Q => //; split; first by rewrite size_map nE.
split=> // i il.
have rs k : (k < M)%N -> nth 0 (mv Q (nseq M 1)) k = vsum (nth [::] Q k).
  move=> kl; have [zQ rQ] := is_shapeP _ _ _ shQ.
  rewrite (nth_mv shQ) ?size_nseq // vsumE rQ //; apply: eq_bigr => j _.
  by rewrite nth_nseq ltn_ord mulr1.
have r0 : vsum (nth [::] Q 0) = 0.
  have [zQ rQ] := is_shapeP _ _ _ shQ; rewrite vsumE rQ // big1 // => j _; exact: low.
suff -> : vsum (nth [::] Q i) = nth 0 nodes i.
  rewrite /dTau_SOE /dTau_FE (nth_map 0) ?nE // dE (nth_map 0%N) ?size_iota // nth_iota //= /step n0.
  by rewrite mulr0 add0r sub0r.
rewrite -rs //; set U := mv Q _.
have step1 m : (m + 1 < M)%N -> nth 0 (0 :: U) m = nth 0 t m -> nth 0 U m = nth 0 nodes m ->
    nth 0 U m.+1 = nth 0 nodes m.+1.
  move=> ml e1 e2; have := h (nseq M 1); rewrite size_nseq => /(_ erefl m ml) [a [b [c [c0 e ex]]]].
  have := ex 'X; rewrite size_polyX; have -> : (2 <= if m == 0 then 2 else 3)%N by case: (m).
  move/(_ isT); rewrite derivX hornerC !hornerX => e3; apply: (mulfI c0).
  move: e; rewrite nth_nseq (_ : (m < M)%N); last by lia.
  rewrite -/U -e3 e1 -[nth 0 (0 :: U) m.+1]/(nth 0 U m) e2; exact: addrI.
suff : nth 0 (0 :: U) i = nth 0 t i /\ nth 0 U i = nth 0 nodes i by case.
elim: i il => [|i ih] il; first by split=> //; rewrite rs // r0 n0.
by have [h1 h2] := ih (ltnW il); split=> //; apply: step1 => //; lia.
Qed.
End SOE.
End TS.

Print Assumptions C37_init.
Print Assumptions C37_entries.
Print Assumptions C37_N2N.
Print Assumptions C37_consistent.
Print Assumptions C38_entries.
Print Assumptions C38_consistent.
Print Assumptions C39_leapfrog.
Print Assumptions C39_never_consistent.
Print Assumptions C39_zero_first.

(* rounding towards zero *)
Definition q_trunc (x : Qf) : Qf := qc (Z.quot (Qnum (this x)) (Zpos (Qden (this x)))) 1.
Definition ts0 : ts Qf := Ts [::] [::] 0%R.
Notation qts int nodes tl := (ok_or ts0 (ts_init q_trunc int nodes tl)).

(* C37, C38: nodes 1/4, 1/2, 1 with tLeft = 0, and with tLeft = 1/8; integer nodes 2, 3 with tLeft = 1 *)
Example C37_nonvacuous :
  let self := qts false [:: qc 1 4; qc 1 2; qc 1 1] (qc 1 8) in
  ts_init q_trunc false [:: qc 1 4; qc 1 2; qc 1 1] (qc 1 8) = Ok self /\
  qd_BE self = [:: [:: qc 1 8; 0; 0]; [:: qc 1 8; qc 1 4; 0]; [:: qc 1 8; qc 1 4; qc 1 2]]%R /\
  qd_FE self = [:: [:: 0; 0; 0]; [:: qc 1 4; 0; 0]; [:: qc 1 4; qc 1 2; 0]]%R /\
  qd_TRAP self = [:: [:: qc 1 16; 0; 0]; [:: qc 3 16; qc 1 8; 0]; [:: qc 3 16; qc 3 8; qc 1 4]]%R /\
  smat (qd_TRAP self) = [:: [:: qc 1 16; 0; 0]; [:: qc 1 8; qc 1 8; 0]; [:: 0; qc 1 4; qc 1 4]]%R /\
  dTau_FE self = nseq 3 (qc 1 8).
Proof. by split; [apply: ok_orE|do ?split; apply/eqP; vm_compute]. Qed.

Example C37_integer_nonvacuous :
  let self := qts true [:: qc 2 1; qc 3 1] (qc 1 1) in
  ts_init q_trunc true [:: qc 2 1; qc 3 1] (qc 1 1) = Ok self /\
  q_trunc (qc 2 1 - qc 1 1)%R = (qc 2 1 - qc 1 1)%R /\
  qd_BE self = [:: [:: qc 1 1; 0]; [:: qc 1 1; qc 1 1]]%R.
Proof. by split; [apply: ok_orE|split; apply/eqP; vm_compute]. Qed.

(* with integer nodes and a fractional left end, the first step is rounded *)
Theorem C37_integer_nodes_refuted : exists (nodes : seq Qf) (tl : Qf) self,
  ts_init q_trunc true nodes tl = Ok self /\ (tl < nth 0 nodes 0)%R /\ sorted <%O nodes /\
  ~ consistent (qd_BE self) (dTau_zero Qf (size nodes)) nodes tl /\
  ~ consistent (qd_FE self) (dTau_FE self) nodes tl /\
  ~ consistent (qd_TRAP self) (dTau_TRAP self) nodes tl.
Proof.
exists [:: qc 1 1; qc 2 1], (qc 1 2), (qts true [:: qc 1 1; qc 2 1] (qc 1 2)).
split; first by apply: ok_orE.
split; first by vm_compute.
split; first by vm_compute.
have gen A d : [exists i : 'I_2, (vsum (nth [::] A i) + nth 0 d i != nth 0 [:: qc 1 1; qc 2 1] i - qc 1 2)%R] ->
    ~ consistent (F := Qf) A d [:: qc 1 1; qc 2 1] (qc 1 2).
  by move=> /existsP [i /eqP h] [_ [_ /(_ i (ltn_ord i))]].
by split; [|split]; apply: gen; apply/existsP; exists ord0; vm_compute.
Qed.
Print Assumptions C37_integer_nodes_refuted.

Example C38_nonvacuous :
  let self := qts false [:: qc 1 2; qc 1 1] 0%R in
  qd_BEPAR self = [:: [:: qc 1 2; 0]; [:: 0; qc 1 1]]%R /\
  qd_TRAPAR self = [:: [:: qc 1 4; 0]; [:: 0; qc 1 2]]%R /\
  (* left end 1/4: full matrices *)
  let self := qts false [:: qc 1 2; qc 1 1] (qc 1 4) in
  qd_BEPAR self = [:: [:: qc 1 4; qc (-1) 4]; [:: qc (-1) 4; qc 3 4]]%R.
Proof. by split; [|split]; apply/eqP; vm_compute. Qed.

(* C39: equidistant nodes: u_{m+1} = u_{m-1} + 2 h f_m; and a first node 0 *)
Example C39_nonvacuous :
  let self := qts false [:: qc 1 3; qc 2 3; qc 1 1] 0%R in
  qd_SOE self q_id q_id q_under = Ok (fmat [:: [:: 0; 0; 0]; [:: qc 2 3; 0; 0]; [:: 0; qc 2 3; 0]]%R) /\
  ts_deltas self = [seq step [:: qc 1 3; qc 2 3; qc 1 1] 0%R j | j <- iota 0 3].
Proof. by split; [apply: ok_eqP; vm_compute|apply/eqP; vm_compute]. Qed.

Example C39_zero_nonvacuous :
  let self := qts false [:: 0; qc 1 2; qc 1 1]%R 0%R in
  qd_SOE self q_id q_id q_under = Ok (fmat [:: [:: 0; 0; 0]; [:: qc 1 2; 0; 0]; [:: 0; qc 1 1; 0]]%R) /\
  ts_deltas self = [seq step [:: 0; qc 1 2; qc 1 1]%R 0%R j | j <- iota 0 3].
Proof. by split; [apply: ok_eqP; vm_compute|apply/eqP; vm_compute]. Qed.
