(* NodesGenerator: recurrence coefficients of the five orthogonal families, Radau/Lobatto changes,
   ordering and end points of the nodes. *)
From Verif.Base Require Import Str.
From mathcomp Require Import all_ssreflect all_algebra ring.
From Verif.Base Require Import Outcome Arr LinSolve.
From Verif.Model Require Import Nodes.
From Verif.Spec Require Import NodesSpec.
From Verif.Proofs Require Import OrthoP.
Set Implicit Arguments.
Unset Strict Implicit.
Unset Printing Implicit Defensive.
Import GRing.Theory Num.Theory Order.TTheory.
Local Open Scope ring_scope.

Section Coef.
Variable F : realFieldType.
Variable fpi : F.
Implicit Types (a b f : nat -> F) (nt qt : string).


Definition afun nt (k : nat) : F :=
  if k == 0%N then (if nt == "CHEBY-3"%string then 1 / 2%:R else if nt == "CHEBY-4"%string then - (1 / 2%:R) else 0)
  else 0.
Definition bfun nt (k : nat) : F :=
  if k == 0%N then (if nt == "LEGENDRE"%string then 2%:R else if nt == "CHEBY-2"%string then fpi / 2%:R else fpi)
  else if nt == "LEGENDRE"%string then k%:R ^+ 2 / (4%:R * k%:R ^+ 2 - 1)
  else if (nt == "CHEBY-1"%string) && (k == 1%N) then 1 / 2%:R else 1 / 4%:R.

Lemma set_nth_mkseq (T : Type) (d v : T) (f : nat -> T) n k : (k < n)%N ->
  set_nth d (mkseq f n) k v = mkseq (fun j => if j == k then v else f j) n.
Proof.
move=> kn; apply: (@eq_from_nth _ d).
  by rewrite size_set_nth !size_mkseq; apply/maxn_idPr.
move=> i; rewrite size_set_nth size_mkseq (maxn_idPr _) // => il.
by rewrite nth_set_nth /= !nth_mkseq.
Qed.

Lemma nseq_mkseq (T : Type) (v : T) n : nseq n v = mkseq (fun=> v) n.
Proof.
apply: (@eq_from_nth _ v); rewrite size_nseq ?size_mkseq // => i il.
by rewrite nth_nseq il nth_mkseq.
Qed.

Lemma orthogE nt qt n : nt \in ORTHO -> (0 < n)%N ->
  getOrthogPolyCoefficients fpi (NodesGen nt qt) n = Ok (mkseq (afun nt) n, mkseq (bfun nt) n).
Proof.
move=> hnt n0.
have ex (f g : nat -> F) : (forall j, f j = g j) -> mkseq f n = mkseq g n by move=> h; apply: eq_map.
move: hnt; rewrite !inE => /or4P [|||/orP []] /eqP ->; rewrite /getOrthogPolyCoefficients ?eqxx /= ?nseq_mkseq.
- rewrite set_nth_mkseq //; congr (Ok (_, _)); apply: ex => -[|j] //=; by rewrite /afun ?mul0r //= mul0r.
- congr (Ok (_, _)); first by apply: ex => -[|j].
  rewrite set_nth_mkseq //; case: ltnP => h; first by rewrite set_nth_mkseq //; apply: ex => -[|[|j]].
  by have -> : n = 1%N by apply/eqP; rewrite eqn_leq h.
- by rewrite set_nth_mkseq //; congr (Ok (_, _)); apply: ex => -[|j].
- by rewrite !set_nth_mkseq //; congr (Ok (_, _)); apply: ex => -[|j].
by rewrite !set_nth_mkseq //; congr (Ok (_, _)); apply: ex => -[|j].
Qed.

(* values at 1 from the ratios *)
Lemma op_pos a b f : f 0%N = 1 - a 0%N ->
  (forall k, f k.+1 * f k = (1 - a k.+1) * f k - b k.+1) -> (forall k, 0 < f k) ->
  forall k, 0 < (op a b k).[1] /\ (op a b k.+1).[1] = f k * (op a b k).[1].
Proof.
move=> f0 fS fp; elim=> [|k [ih1 ih2]].
  by rewrite op1 op0 hornerXsubC hornerC ltr01 f0 mulr1.
have p1 : 0 < (op a b k.+1).[1] by rewrite ih2 mulr_gt0.
split=> //; rewrite hornerS ih2.
have -> : (1 - a k.+1) * (f k * (op a b k).[1]) - b k.+1 * (op a b k).[1]
   = ((1 - a k.+1) * f k - b k.+1) * (op a b k).[1] by ring.
by rewrite -fS mulrA.
Qed.

Definition pos1 a b n := forall k, (k <= n)%N -> 0 < (op a b k).[1].
Definition neg a : nat -> F := fun k => - a k.

Lemma natr1 (k : nat) : k%:R + 1 = k.+1%:R :> F. Proof. by rewrite -addn1 natrD. Qed.
Let nz1 (k : nat) : k.+1%:R != 0 :> F. Proof. by rewrite pnatr_eq0. Qed.
Let nz2 (k : nat) : (2 * k%:R + 1 : F) != 0.
Proof. by rewrite -natrM natr1 pnatr_eq0. Qed.

Lemma bfun_gt0 nt k : (0 < k)%N -> 0 < bfun nt k.
Proof.
case: k => [//|k] _; rewrite /bfun /=; case: ifP => _; last first.
  by case: ifP => _; rewrite divr_gt0 ?ltr01 ?ltr0n.
rewrite divr_gt0 ?exprn_gt0 ?ltr0n // subr_gt0 -natrX -natrM ltr1n.
by rewrite (@leq_trans (4 * 1)) // leq_mul2l /= expn_gt0.
Qed.

Lemma afun_neg nt k : nt \in ORTHO -> neg (afun nt) k =
  afun (if nt == "CHEBY-3"%string then "CHEBY-4"%string else if nt == "CHEBY-4"%string then "CHEBY-3"%string else nt) k.
Proof.
rewrite !inE => /or4P [|||/orP []] /eqP ->; rewrite /neg /afun /=; case: k => [|k] /=; rewrite ?oppr0 ?opprK //.
Qed.
Lemma bfun_neg nt k : nt \in ORTHO -> bfun nt k =
  bfun (if nt == "CHEBY-3"%string then "CHEBY-4"%string else if nt == "CHEBY-4"%string then "CHEBY-3"%string else nt) k.
Proof. by rewrite !inE => /or4P [|||/orP []] /eqP ->. Qed.

Lemma fam_pos nt n : nt \in ORTHO -> pos1 (afun nt) (bfun nt) n.
Proof.
have nat0 (k : nat) : 0 < k.+1%:R :> F by rewrite ltr0n.
have n2 : 0 < 2%:R :> F by rewrite ltr0n.
have go a b f : f 0%N = 1 - a 0%N ->
  (forall k, f k.+1 * f k = (1 - a k.+1) * f k - b k.+1) -> (forall k, 0 < f k) -> pos1 a b n.
  by move=> h1 h2 h3 k _; have [] := op_pos h1 h2 h3 k.
have d21 (k : nat) : 0 < 2 * k%:R + 1 :> F by rewrite -natrM natr1 ltr0n.
have e1 (k : nat) : k.+1%:R = k%:R + 1 :> F by rewrite natr1.
rewrite !inE => /or4P [|||/orP []] /eqP ->.
- apply: (go _ _ (fun k => k.+1%:R / (2 * k%:R + 1))) => [|k|k].
  + by rewrite /afun /=; field.
  + rewrite /afun /bfun /= ?(e1 k.+1) ?(e1 k); have := nz1 k; have := nz2 k; have := nz2 k.+1; rewrite ?(e1 k.+2) ?(e1 k.+1) ?(e1 k).
    have -> : (4%:R * (k%:R + 1) ^+ 2 - 1 : F) = (2 * (k%:R + 1) + 1) * (2 * k%:R + 1) by ring.
    by move: (k%:R) => x h1 h2 h3; field; rewrite ?h1 ?h2 ?h3.
  + by rewrite divr_gt0.
- apply: (go _ _ (fun k => if k == 0%N then 1 else 1 / 2%:R)) => [|k|k].
  + by rewrite /afun /=; ring.
  + by rewrite /afun /bfun /=; case: k => [|k] /=; field.
  + by case: ifP => _; rewrite ?divr_gt0 ?ltr01.
- apply: (go _ _ (fun k => k.+2%:R / (2%:R * k.+1%:R))) => [|k|k].
  + by rewrite /afun /=; field.
  + rewrite /afun /bfun /=; have := nz1 k; have := nz1 k.+1; rewrite ?(e1 k.+2) ?(e1 k.+1) ?(e1 k).
    by move: (k%:R) => x h1 h2; field; rewrite ?h1 ?h2.
  + by rewrite divr_gt0 // mulr_gt0.
- apply: (go _ _ (fun k => 1 / 2%:R)) => [|k|k].
  + by rewrite /afun /=; field.
  + by rewrite /afun /bfun /=; field.
  + by rewrite divr_gt0 ?ltr01.
apply: (go _ _ (fun k => (2 * k%:R + 3%:R) / (2%:R * (2 * k%:R + 1)))) => [|k|k].
+ by rewrite /afun /=; field.
+ rewrite /afun /bfun /=; have := nz2 k; have := nz2 k.+1; rewrite ?(e1 k.+2) ?(e1 k.+1) ?(e1 k).
  by move: (k%:R) => x h1 h2; field; rewrite ?h1 ?h2.
by rewrite divr_gt0 ?mulr_gt0 // ltr_paddl ?ltr0n // mulr_ge0 ?ler0n.
Qed.

Lemma evalLoopE t a b n : evalLoop t (zip (mkseq a n) (mkseq b n)) (0, 1, 1) =
  ((opp a b n).1.[t], (op a b n).[t], (op a b n).[t]).
Proof.
elim: n => [|n ih]; first by rewrite /= horner0 op0 hornerC.
have cat (l m : seq (F * F)) pi : evalLoop t (l ++ m) pi = evalLoop t m (evalLoop t l pi).
  by elim: l pi => [//|[x y] l IH] [[p q] r] /=; rewrite IH.
rewrite /mkseq -addn1 iotaD !map_cat zip_cat ?size_map // cat -!/(mkseq _ n) ih /= add0n addn1.
by rewrite opp1 horner_step [_ * b n]mulrC [_ * (t - _)]mulrC.
Qed.

Lemma but_last_mkseq (f : nat -> F) n : but_last (mkseq f n) = mkseq f n.-1.
Proof.
rewrite /but_last size_mkseq; case: n => [//|n] /=.
by rewrite -[in LHS]addn1 /mkseq iotaD map_cat take_size_cat ?size_map ?size_iota.
Qed.

Definition upd f (k : nat) (v : F) : nat -> F := fun j => if j == k then v else f j.
Lemma set_last_mkseq (f : nat -> F) n v : (0 < n)%N ->
  set_last (mkseq f n) v = mkseq (upd f n.-1 v) n.
Proof. by move=> n0; rewrite /set_last size_mkseq set_nth_mkseq // prednK. Qed.

Lemma last_mkseq (f : nat -> F) n : (0 < n)%N -> last 0 (mkseq f n) = f n.-1.
Proof. by case: n => [//|n] _; rewrite -nth_last size_mkseq nth_mkseq. Qed.

Lemma evalOrthogE t a b n : evalOrthogPoly t (but_last (mkseq a n)) (but_last (mkseq b n)) =
  ((opp a b n.-1).1.[t], (op a b n.-1).[t]).
Proof. by rewrite !but_last_mkseq /evalOrthogPoly evalLoopE. Qed.

Lemma solve2 (a1 a2 b1 b2 u v : F) : a1 != 0 -> a1 * b2 - b1 * a2 != 0 ->
  solve [:: [:: a1; a2]; [:: b1; b2]] [:: u; v] =
  Some [:: (u * b2 - v * a2) / (a1 * b2 - b1 * a2); (a1 * v - b1 * u) / (a1 * b2 - b1 * a2)].
Proof.
move=> n1 nd; rewrite /solve /= n1 /=.
have nd' : b2 - b1 / a1 * a2 != 0.
  have -> : b2 - b1 / a1 * a2 = (a1 * b2 - b1 * a2) / a1 by field.
  by rewrite mulf_neq0 ?invr_eq0.
rewrite nd' /=; congr (Some [:: _; _]); rewrite /dot /=; field; rewrite ?n1 ?nd ?nd' //.
Qed.

(* what the recurrence handed to the eigenvalue solver satisfies *)
Record rec_ok nt qt n a b : Prop := RecOk {
  rok_b : forall k, (0 < k < n)%N -> 0 < b k;
  rok_r : forall k, (k < n)%N -> 0 < (op a b k).[1];
  rok_l : forall k, (k < n)%N -> 0 < (op (neg a) b k).[1];
  rok_R : if has_right qt then (op a b n).[1] = 0 else 0 < (op a b n).[1];
  rok_L : if has_left qt then (op (neg a) b n).[1] = 0 else 0 < (op (neg a) b n).[1];
  rok_ab : forall k, (k < n.-1)%N -> a k = afun nt k /\ b k = bfun nt k;
  rok_G : qt = "GAUSS"%string -> a n.-1 = afun nt n.-1 /\ b n.-1 = bfun nt n.-1;
  rok_RD : is_radau qt -> b n.-1 = bfun nt n.-1 }.


Lemma op_upd a b m k x y : (k <= m)%N -> opp (upd a m x) (upd b m y) k = opp a b k.
Proof. by move=> km; apply: op_ext => j jk; rewrite /upd ltn_eqF // (leq_trans jk). Qed.
Lemma neg_upd a m x k : neg (upd a m x) k = upd (neg a) m (- x) k.
Proof. by rewrite /neg /upd; case: eqP. Qed.
Lemma op_neg_upd a b m k x y : (k <= m)%N -> opp (neg (upd a m x)) (upd b m y) k = opp (neg a) b k.
Proof. by move=> km; rewrite -(op_upd (neg a) b (- x) y km); apply: op_ext => j _ //; apply: neg_upd. Qed.

Lemma op_updn a b m x y t : (op (upd a m x) (upd b m y) m.+1).[t] =
  (t - x) * (op a b m).[t] - y * (opp a b m).1.[t].
Proof. by rewrite horner_step /op op_upd // /upd eqxx. Qed.
Lemma op_neg_updn a b m x y t : (op (neg (upd a m x)) (upd b m y) m.+1).[t] =
  (t + x) * (op (neg a) b m).[t] - y * (opp (neg a) b m).1.[t].
Proof. by rewrite horner_step /op op_neg_upd // /upd /neg eqxx opprK. Qed.

(* values at -1 through the reflected recurrence *)
Lemma op_m1 a b k : (op a b k).[-1] = (-1) ^+ k * (op (neg a) b k).[1].
Proof. by rewrite op_refl mulrA -exprMn mulrNN mulr1 expr1n mul1r. Qed.

Lemma opp1_m1 a b k : (opp a b k).1.[-1] = - ((-1) ^+ k * (opp (neg a) b k).1.[1]).
Proof.
case: k => [|k]; first by rewrite /= !horner0 mulr0 oppr0.
by rewrite !opp1 op_m1 exprS mulN1r mulNr opprK.
Qed.

Lemma family nt n : nt \in ORTHO ->
  (forall k, (k <= n)%N -> 0 < (op (afun nt) (bfun nt) k).[1]) /\
  (forall k, (k <= n)%N -> 0 < (op (neg (afun nt)) (bfun nt) k).[1]).
Proof.
move=> hnt; split; first exact: fam_pos.
move=> k kn.
have -> : op (neg (afun nt)) (bfun nt) k =
  op (afun (if nt == "CHEBY-3"%string then "CHEBY-4"%string else if nt == "CHEBY-4"%string then "CHEBY-3"%string else nt))
     (bfun (if nt == "CHEBY-3"%string then "CHEBY-4"%string else if nt == "CHEBY-4"%string then "CHEBY-3"%string else nt)) k.
  by rewrite /op; congr (_.2); apply: op_ext => j _; [apply: afun_neg|apply: bfun_neg].
apply: (@fam_pos _ k) => //; move: hnt.
by rewrite !inE => /or4P [|||/orP []] /eqP ->.
Qed.

Lemma opp1_ge0 a b m : pos1 a b m -> 0 <= (opp a b m).1.[1].
Proof. by case: m => [|m] h; rewrite ?horner0 // opp1 ltW // h. Qed.

Lemma radau_aux (a Q P b q p : F) : 0 < Q -> 0 < q -> 0 < (1 - a) * Q - b * P ->
  0 < (1 + a) * q - b * p -> 0 < (1 - (- 1 + b * p / q)) * Q - b * P.
Proof.
move=> Q0 q0 h1 h2.
have -> : (1 - (- 1 + b * p / q)) * Q - b * P = ((1 + a) * q - b * p) * (Q / q) + ((1 - a) * Q - b * P).
  by field; rewrite gt_eqF.
by rewrite addr_gt0 // mulr_gt0 // divr_gt0.
Qed.

Lemma tridiagE nt qt n : nt \in ORTHO -> qt \in QUAD_TYPES -> (0 < n)%N ->
  (has_left qt -> (1 < n)%N) ->
  exists a b, getTridiagCoefficients fpi (NodesGen nt qt) n = Ok (mkseq a n, mkseq b n) /\
    rec_ok nt qt n a b.
Proof.
move=> hnt hqt n0 hn; rewrite /getTridiagCoefficients orthogE //.
case: n n0 hn => [//|m] _ hn.
have [pr pl] := family m.+1 hnt; set A := afun nt in pr pl *; set B := bfun nt in pr pl *.
set la := mkseq A m.+1; set lb := mkseq B m.+1.
have Bp k : (0 < k)%N -> 0 < B k by apply: bfun_gt0.
have Q1 := pr m (leqnSn m); have q1 := pl m (leqnSn m).
have Qn := pr m.+1 (leqnn _); have qn := pl m.+1 (leqnn _).
rewrite !horner_step in Qn qn; rewrite [neg A m]/neg opprK in qn.
have P0 : 0 <= (opp A B m).1.[1] by apply: opp1_ge0 => k km; apply: pr; apply: leqW.
have p0 : 0 <= (opp (neg A) B m).1.[1] by apply: opp1_ge0 => k km; apply: pl; apply: leqW.
have updid f k v : f k = v -> forall j, upd f k v j = f j by move=> e j; rewrite /upd; case: eqP => [->|].
have main x y : ((0 < m)%N -> 0 < y) ->
  (if has_right qt then (1 - x) * (op A B m).[1] - y * (opp A B m).1.[1] = 0
     else 0 < (1 - x) * (op A B m).[1] - y * (opp A B m).1.[1]) ->
  (if has_left qt then (1 + x) * (op (neg A) B m).[1] - y * (opp (neg A) B m).1.[1] = 0
     else 0 < (1 + x) * (op (neg A) B m).[1] - y * (opp (neg A) B m).1.[1]) ->
  (qt = "GAUSS"%string -> x = A m /\ y = B m) -> (is_radau qt -> y = B m) ->
  rec_ok nt qt m.+1 (upd A m x) (upd B m y).
  move=> yp hR hL hG hRD; split.
  + move=> k /andP [k0 km]; rewrite /upd; case: eqP => [ek|_]; last exact: Bp.
    by apply: yp; rewrite -ek.
  + by move=> k km; rewrite /op op_upd // -/(op A B k); apply: pr; apply: ltnW.
  + by move=> k km; rewrite /op op_neg_upd // -/(op (neg A) B k); apply: pl; apply: ltnW.
  + by rewrite op_updn.
  + by rewrite op_neg_updn.
  + by move=> k /= km; rewrite /upd ltn_eqF.
  + by move=> /= e; rewrite /upd eqxx; exact: hG.
  by move=> /= e; rewrite /upd eqxx; exact: hRD.
have go x y : rec_ok nt qt m.+1 (upd A m x) (upd B m y) ->
  exists a b, Ok (mkseq (upd A m x) m.+1, mkseq (upd B m y) m.+1) = Ok (mkseq a m.+1, mkseq b m.+1) /\
    rec_ok nt qt m.+1 a b.
  by move=> h; exists (upd A m x), (upd B m y).
have mkid f : mkseq f m.+1 = mkseq (upd f m (f m)) m.+1 by apply: eq_map => j; rewrite updid.
move: hqt; rewrite !inE => /or4P [] /eqP eq; subst qt.
- rewrite /= /la /lb (mkid A) (mkid B); apply: go; apply: main; rewrite //=.
  by move=> h; apply: Bp.
- rewrite /= evalOrthogE [m.+1.-1]/= -[last (B 0%N) _]/(last 0 lb) last_mkseq // [m.+1.-1]/= set_last_mkseq // /lb (mkid B) [m.+1.-1]/=.
  set x := (X in upd A m X).
  have xE : x = - 1 + B m * (opp (neg A) B m).1.[1] / (op (neg A) B m).[1].
    rewrite /x op_m1 opp1_m1; have sn : (-1) ^+ m != 0 :> F by rewrite signr_eq0.
    by move: ((-1) ^+ m) sn (B m) (_.[_]) (_.[_]) (gt_eqF q1) => s sn y u v /negbT vn; field; rewrite vn.
  apply: go; apply: main; rewrite //=; first by move=> h; apply: Bp.
  + by rewrite xE; apply: (@radau_aux (A m)).
  + by rewrite xE; move: (_.[_]) (_.[_]) (gt_eqF q1) (B m) => u v /negbT vn y; field.
- rewrite /= evalOrthogE [m.+1.-1]/= -[last (B 0%N) _]/(last 0 lb) last_mkseq // [m.+1.-1]/= set_last_mkseq // /lb (mkid B) [m.+1.-1]/=.
  set x := (X in upd A m X).
  apply: go; apply: main; rewrite //=; first by move=> h; apply: Bp.
  + by rewrite /x; move: (_.[_]) (_.[_]) (gt_eqF Q1) (B m) => u v /negbT vn y; field.
  + have -> : 1 + x = 1 - (- 1 + B m * (opp A B m).1.[1] / (op A B m).[1]) by rewrite /x; move: (_ / _) => z; ring.
    by apply: (@radau_aux (- A m)); rewrite ?opprK.
have m0 : (0 < m)%N by apply: hn.
have P1 : 0 < (opp A B m).1.[1].
  by move: (m) m0 pr => -[//|k] _ pr'; rewrite opp1; apply: pr'; rewrite (leq_trans (leqnSn k)).
have p1 : 0 < (opp (neg A) B m).1.[1].
  by move: (m) m0 pl => -[//|k] _ pr'; rewrite opp1; apply: pr'; rewrite (leq_trans (leqnSn k)).
rewrite /= !evalOrthogE [m.+1.-1]/= op_m1 opp1_m1.
have sn : (-1) ^+ m != 0 :> F by rewrite signr_eq0.
have cp : 0 < (op (neg A) B m).[1] * (opp A B m).1.[1] + (op A B m).[1] * (opp (neg A) B m).1.[1].
  by rewrite addr_gt0 // mulr_gt0.
have dE : (-1) ^+ m * (op (neg A) B m).[1] * (opp A B m).1.[1] - (op A B m).[1] * - ((-1) ^+ m * (opp (neg A) B m).1.[1])
  = (-1) ^+ m * ((op (neg A) B m).[1] * (opp A B m).1.[1] + (op A B m).[1] * (opp (neg A) B m).1.[1]) by ring.
rewrite solve2; last 2 first.
- by rewrite mulf_neq0 // gt_eqF.
- by rewrite dE mulf_neq0 // gt_eqF.
rewrite dE !set_last_mkseq // [m.+1.-1]/=.
set x := (X in upd A m X).
set y := (X in upd B m X).
have xE : x = ((op A B m).[1] * (opp (neg A) B m).1.[1] - (op (neg A) B m).[1] * (opp A B m).1.[1]) /
   ((op (neg A) B m).[1] * (opp A B m).1.[1] + (op A B m).[1] * (opp (neg A) B m).1.[1]).
  by rewrite /x; move: ((-1) ^+ m) sn (op A B m).[1] (op (neg A) B m).[1] (opp A B m).1.[1] (opp (neg A) B m).1.[1] (gt_eqF cp) => s sn u v w z /negbT cn; field; rewrite sn cn.
have yE : y = (2 * (op (neg A) B m).[1] * (op A B m).[1]) /
   ((op (neg A) B m).[1] * (opp A B m).1.[1] + (op A B m).[1] * (opp (neg A) B m).1.[1]).
  by rewrite /y; move: ((-1) ^+ m) sn (op A B m).[1] (op (neg A) B m).[1] (opp A B m).1.[1] (opp (neg A) B m).1.[1] (gt_eqF cp) => s sn u v w z /negbT cn; field; rewrite sn cn.
apply: go; apply: main; rewrite //=.
+ by move=> _; rewrite yE divr_gt0 // mulr_gt0 // mulr_gt0 // ltr0n.
+ by rewrite xE yE; move: (op A B m).[1] (op (neg A) B m).[1] (opp A B m).1.[1] (opp (neg A) B m).1.[1] (gt_eqF cp) => u v w z /negbT cn; field.
by rewrite xE yE; move: (op A B m).[1] (op (neg A) B m).[1] (opp A B m).1.[1] (opp (neg A) B m).1.[1] (gt_eqF cp) => u v w z /negbT cn; field.
Qed.
End Coef.
