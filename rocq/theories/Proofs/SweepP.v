(* Entries of the time-stepping, algebraic and diagonal sweeps. *)
From Verif.Base Require Import Str.
From mathcomp Require Import all_ssreflect all_algebra ring zify.
From Verif.Base Require Import Outcome Arr Ext PolyInterp PolyInt.
From Verif.Model Require Import Lagrange QGen Nodes Collocation Sweeps.
From Verif.Spec Require Import SweepSpec.
Set Implicit Arguments.
Unset Strict Implicit.
Unset Printing Implicit Defensive.
Import GRing.Theory Num.Theory Order.TTheory.
Local Open Scope ring_scope.

Section TS.
Variable F : realFieldType.
Implicit Types (Q : seq (seq F)) (d : nat -> seq F).

Lemma foldl_diag n d l Q : is_shape Q n n ->
  let R := foldl (fun Q i => add_diag n i (d i) Q) Q l in
  is_shape R n n /\ forall r c, (r < n)%N -> (c < n)%N ->
  ent R r c = ent Q r c + \sum_(i <- l) (if (i <= r)%N && (c < n - i)%N then
                 (if (r - i)%N == c then nth 0 (d i) c else 0) else 0).
Proof.
elim: l Q => [|i l ih] Q sh /=; first by split=> // r c rl cl; rewrite big_nil addr0.
have sh' : is_shape (add_diag n i (d i) Q) n n by exact: mkmat_shape.
have [h1 h2] := ih _ sh'; split=> // r c rl cl.
by rewrite h2 // ent_mkmat // big_cons addrA.
Qed.

Lemma sum_one (l : seq nat) n (f : nat -> F) r c : uniq l -> (r < n)%N -> (c < n)%N ->
  \sum_(i <- l) (if (i <= r)%N && (c < n - i)%N then (if (r - i)%N == c then f i else 0) else 0)
  = (if (c <= r)%N && ((r - c)%N \in l) then f (r - c)%N else 0).
Proof.
move=> ul rl cl; rewrite (eq_bigr (fun i => if i == (r - c)%N then (if (c <= r)%N then f i else 0) else 0)); last first.
  move=> i _; case: (i =P (r - c)%N) => [->|ne].
    case: (leqP c r) => cr; last by case: ifP => // _; rewrite ifF //; apply/negbTE/eqP; lia.
    by rewrite ifT ?ifT //; [rewrite subKn|apply/andP; split; lia].
  by case: ifP => // /andP [h1 h2]; rewrite ifF //; apply/negbTE/eqP; lia.
rewrite -big_mkcond /=; case: (boolP ((r - c)%N \in l)) => il.
  by rewrite andbT -big_filter filter_pred1_uniq // big_seq1.
rewrite andbF big1_seq // => i /andP [/eqP -> h]; by rewrite h in il.
Qed.

Variables (tr : F -> F) (nodes : seq F) (tl : F) (self : ts F).
Hypothesis e : ts_init tr false nodes tl = Ok self.
Let M := size nodes.
(* differences between successive nodes, the first one from tl *)
Notation del := (step nodes tl).

Lemma ts_E : [/\ ts_nodes self = nodes, ts_tLeft self = tl, size (ts_deltas self) = M, (0 < M)%N &
  forall j, (j < M)%N -> nth 0 (ts_deltas self) j = del j].
Proof.
rewrite /M; move: e; rewrite /ts_init /step; case: nodes => // x s [<-] /=; split=> //.
  by rewrite size_mkseq.
by case=> [|j] // jl; rewrite /= nth_mkseq.
Qed.

Lemma BE_E : is_shape (qd_BE self) M M /\ forall r c, (r < M)%N -> (c < M)%N ->
  ent (qd_BE self) r c = if (c <= r)%N then del c else 0.
Proof.
have [nE tE sE M0 dE] := ts_E; rewrite /qd_BE nE -/M.
have [h1 h2] := foldl_diag (fun i => slice 0 (M - i) (ts_deltas self)) (iota 0 M) (mkmat_shape M M (fun _ _ => 0 : F)).
split=> // r c rl cl; rewrite h2 // ent_mkmat // add0r.
rewrite (sum_one (fun i => nth 0 (slice 0 (M - i) (ts_deltas self)) c)) ?iota_uniq // mem_iota add0n leq0n /=.
have -> : (r - c < M)%N by lia.
rewrite andbT; case: leqP => // cr; rewrite /slice drop0 nth_take ?dE //; lia.
Qed.

Lemma FE_E : is_shape (qd_FE self) M M /\ forall r c, (r < M)%N -> (c < M)%N ->
  ent (qd_FE self) r c = if (c < r)%N then del c.+1 else 0.
Proof.
have [nE tE sE M0 dE] := ts_E; rewrite /qd_FE nE -/M.
have [h1 h2] := foldl_diag (fun i => slice 1 (M - i + 1) (ts_deltas self)) (iota 1 (M - 1)) (mkmat_shape M M (fun _ _ => 0 : F)).
split=> // r c rl cl; rewrite h2 // ent_mkmat // add0r.
rewrite (sum_one (fun i => nth 0 (slice 1 (M - i + 1) (ts_deltas self)) c)) ?iota_uniq // mem_iota.
have -> : (c <= r)%N && ((0 < r - c)%N && (r - c < 1 + (M - 1))%N) = (c < r)%N by lia.
case: ltnP => // cr; rewrite /slice nth_drop add1n nth_take ?dE //; lia.
Qed.

Lemma TRAP_E : is_shape (qd_TRAP self) M M /\ forall r c, (r < M)%N -> (c < M)%N ->
  ent (qd_TRAP self) r c = (ent (qd_BE self) r c + ent (qd_FE self) r c) / 2%:R.
Proof.
have [nE tE sE M0 dE] := ts_E; rewrite /qd_TRAP nE -/M.
have [h1 h2] := foldl_diag (fun i => slice 0 (M - i) (ts_deltas self)) (iota 0 M) (mkmat_shape M M (fun _ _ => 0 : F)).
set Q1 := foldl _ _ (iota 0 M) in h1 h2 *.
have [h3 h4] := foldl_diag (fun i => slice 1 (M - i + 1) (ts_deltas self)) (iota 1 (M - 1)) h1.
set Q2 := foldl _ _ (iota 1 _) in h3 h4 *.
have [h5 h6] := foldl_diag (fun i => slice 1 (M - i + 1) (ts_deltas self)) (iota 1 (M - 1)) (mkmat_shape M M (fun _ _ => 0 : F)).
have [z2 r2] := is_shapeP _ _ _ h3.
split.
  apply/is_shapeP; rewrite size_map; split=> // i il.
  by rewrite (nth_map [::]) ?z2 // size_map r2.
move=> r c rl cl; rewrite /ent (nth_map [::]) ?z2 // (nth_map 0) ?r2 // -/(ent Q2 r c) h4 //.
congr (_ / _); rewrite [in RHS]/qd_BE [in RHS]/qd_FE nE -/M -/Q1 -/(ent Q1 r c); congr (_ + _).
by rewrite -/(ent _ r c) h6 // ent_mkmat // add0r.
Qed.

Lemma del_sum i : (i < M)%N -> \sum_(j < i.+1) del j = nth 0 nodes i - tl.
Proof.
elim: i => [|i ih] il; first by rewrite big_ord_recl big_ord0 addr0.
by rewrite big_ord_recr /= ih ?(ltnW il) // /step addrC subrKA.
Qed.
End TS.
