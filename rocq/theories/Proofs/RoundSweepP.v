(* Entries of the time-stepping matrices in rounded arithmetic. *)
From Verif.Base Require Import Str.
From mathcomp Require Import all_ssreflect all_algebra ring zify.
From Verif.Base Require Import Outcome Arr.
From Verif.Model Require Import Sweeps RoundedSweeps.
From Verif.Spec Require Import SweepSpec RoundSpec.
From Verif.Proofs Require Import SweepP RoundP.
Set Implicit Arguments.
Unset Strict Implicit.
Unset Printing Implicit Defensive.
Import GRing.Theory Num.Theory Order.TTheory.
Local Open Scope ring_scope.

Section Round.
Variables (F : realFieldType) (u : F) (rnd : F -> F).
Hypothesis std : std_model u rnd.

Lemma rnd0 : rnd 0 = 0. Proof. by apply/eqP; rewrite (rnd_eq0 std). Qed.

Lemma foldl_rdiag n (f : nat -> seq F) a k Q0 : is_shape Q0 n n ->
  (forall r c, (r < n)%N -> (c < n)%N -> rnd (ent Q0 r c) = ent Q0 r c) ->
  let Q := foldl (fun Q i => r_add_diag rnd n i (f i) Q) Q0 (iota a k) in
  is_shape Q n n /\ forall r c, (r < n)%N -> (c < n)%N -> ent Q r c =
    if [&& c <= r, a <= r - c & r - c < a + k]%N then rnd (ent Q0 r c + nth 0 (f (r - c)%N) c)
    else ent Q0 r c.
Proof.
have [_ _ _ idem] := std; move=> sh fx; elim: k => [|k [ih1 ih2]].
  rewrite /=; split=> // r c rl cl; have -> : [&& c <= r, a <= r - c & r - c < a + 0]%N = false by lia.
  by [].
rewrite -[k.+1]addn1 iotaD foldl_cat /=; set Q := foldl _ _ _ in ih1 ih2 *.
split; first exact: mkmat_shape.
move=> r c rl cl; rewrite /r_add_diag ent_mkmat // ih2 //.
case: ifP => [/andP [h1 h2]|h].
  case: eqP => [e|ne].
    have -> : [&& c <= r, a <= r - c & r - c < a + k]%N = false by lia.
    have -> : [&& c <= r, a <= r - c & r - c < a + (k + 1)]%N = true by lia.
    by have -> : (a + k = r - c)%N by lia.
  rewrite addr0; case: ifP => g1; case: ifP => g2; rewrite ?idem ?fx //; lia.
case: ifP => g1; case: ifP => g2 //; lia.
Qed.

Section TS.
Variables (nodes : seq F) (tl : F) (self : ts F).
Hypothesis e : r_ts_init rnd nodes tl = Ok self.
Notation M := (size nodes).
Notation del j := (rnd (step nodes tl j)).

Lemma r_ts_E : [/\ ts_nodes self = nodes, ts_tLeft self = tl, size (ts_deltas self) = M, (0 < M)%N &
  forall j, (j < M)%N -> nth 0 (ts_deltas self) j = del j].
Proof.
move: e; rewrite /r_ts_init /step; case: nodes => // x s [<-] /=; split=> //.
  by rewrite size_map size_mkseq.
by case=> [|j] // jl; rewrite /= (nth_map 0) ?size_mkseq // nth_mkseq.
Qed.

Lemma fx0 n r c : (r < n)%N -> (c < n)%N -> rnd (ent (zeros F n) r c) = ent (zeros F n) r c.
Proof. by move=> rl cl; rewrite ent_mkmat // rnd0. Qed.

Lemma r_BE_E : is_shape (r_qd_BE rnd self) M M /\ forall r c, (r < M)%N -> (c < M)%N ->
  ent (r_qd_BE rnd self) r c = if (c <= r)%N then del c else 0.
Proof.
have [nE tE sE M0 dE] := r_ts_E; have [_ _ _ idem] := std; rewrite /r_qd_BE nE.
have [h1 h2] := foldl_rdiag (fun i => slice 0 (M - i) (ts_deltas self)) 0 M (mkmat_shape M M (fun _ _ => 0)) (@fx0 M).
split=> // r c rl cl; rewrite h2 // ent_mkmat // add0r.
have -> : [&& c <= r, 0 <= r - c & r - c < 0 + M]%N = (c <= r)%N by lia.
case: leqP => // cr; rewrite /slice drop0 nth_take ?dE ?idem //; lia.
Qed.

Lemma r_FE_E : is_shape (r_qd_FE rnd self) M M /\ forall r c, (r < M)%N -> (c < M)%N ->
  ent (r_qd_FE rnd self) r c = if (c < r)%N then del c.+1 else 0.
Proof.
have [nE tE sE M0 dE] := r_ts_E; have [_ _ _ idem] := std; rewrite /r_qd_FE nE.
have [h1 h2] := foldl_rdiag (fun i => slice 1 (M - i + 1) (ts_deltas self)) 1 (M - 1) (mkmat_shape M M (fun _ _ => 0)) (@fx0 M).
split=> // r c rl cl; rewrite h2 // ent_mkmat // add0r.
have -> : [&& c <= r, 1 <= r - c & r - c < 1 + (M - 1)]%N = (c < r)%N by lia.
case: ltnP => // cr; rewrite /slice nth_drop add1n nth_take ?dE ?idem //; lia.
Qed.

Lemma r_TRAP_E : is_shape (r_qd_TRAP rnd self) M M /\ forall r c, (r < M)%N -> (c < M)%N ->
  ent (r_qd_TRAP rnd self) r c =
    if (c < r)%N then rnd (rnd (del c + del c.+1) / 2%:R) else if c == r then rnd (del c / 2%:R) else 0.
Proof.
have [nE tE sE M0 dE] := r_ts_E; have [_ _ _ idem] := std; have [b1 b2] := r_BE_E.
rewrite /r_qd_TRAP nE; move: b1 b2; rewrite /r_qd_BE nE; set Q1 := foldl _ _ (iota 0 M) => b1 b2.
have fx r c : (r < M)%N -> (c < M)%N -> rnd (ent Q1 r c) = ent Q1 r c.
  by move=> rl cl; rewrite b2 //; case: ifP; rewrite ?idem ?rnd0.
have [h1 h2] := foldl_rdiag (fun i => slice 1 (M - i + 1) (ts_deltas self)) 1 (M - 1) b1 fx.
set Q2 := foldl _ _ (iota 1 _) in h1 h2 *; have [z2 r2] := is_shapeP _ _ _ h1.
split.
  apply/is_shapeP; rewrite size_map; split=> // i il.
  by rewrite (nth_map [::]) ?z2 // size_map r2.
move=> r c rl cl; rewrite /ent (nth_map [::]) ?z2 // (nth_map 0) ?r2 // -/(ent Q2 r c) h2 // b2 //.
have -> : [&& c <= r, 1 <= r - c & r - c < 1 + (M - 1)]%N = (c < r)%N by lia.
case: ltnP => cr.
  rewrite (ltnW cr) /slice nth_drop add1n nth_take ?dE //; lia.
by rewrite leq_eqVlt ltnNge cr orbF; case: eqP => // _; rewrite mul0r rnd0.
Qed.
End TS.
End Round.
