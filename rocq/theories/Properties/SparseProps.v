(* Properties C12, C13: getSparseInterpolationMatrix (qmat/lagrange.py). *)
From Coq Require Import ZArith QArith Qcanon Qround.
From Verif.Base Require Import Str.
From mathcomp Require Import all_ssreflect all_algebra ring zify.
From Verif.Base Require Import QcField Outcome Arr Ext PolyInterp.
From Verif.Model Require Import Lagrange Sparse.
From Verif.Spec Require Import LagrangeSpec SparseSpec.
From Verif.Proofs Require Import LagrangeP LagrangeThms SparseP.
Set Implicit Arguments.
Unset Strict Implicit.
Unset Printing Implicit Defensive.
Import GRing.Theory Num.Theory Order.TTheory.
Local Open Scope ring_scope.

Section Props.
Variable F : realFieldType.
Variables (flog fexp : F -> F) (underflow : seq F -> bool).
Variables (argsort : seq F -> seq nat) (fmod : F -> F -> F).
Let logs := (forall s, underflow s = false) \/ exp_log flog fexp.
Let M := getSparseInterpolationMatrix flog fexp underflow argsort fmod.
Let shift (grid : seq F) (t : F) (idx : seq nat) : seq F := [seq nth 0 grid j - t | j <- idx].
Let img (grid : seq F) (P : F) (e : nat * int) : F := nth 0 grid e.1 + e.2%:~R * P.
Let shift_im grid P t im : seq F := [seq img grid P e - t | e <- im].

(* more points asked for than there are *)
Theorem C12_order_too_large grid outs (order : int) P : (size grid)%:Z < order ->
  M grid outs order P = Raise AssertionError.
Proof. by move=> h; rewrite /M /getSparseInterpolationMatrix leNgt h. Qed.

(* a negative order is not refused: it counts from the end, like in a slice.  Without period the
   farthest points are dropped; with a period the images are counted three times *)
Lemma rows_order grid P o o' last outs :
  (forall t, closest argsort fmod grid o P t = closest argsort fmod grid o' P t) ->
  sparse_rows flog fexp underflow argsort fmod grid o P last outs =
  sparse_rows flog fexp underflow argsort fmod grid o' P last outs.
Proof.
move=> h; elim: outs last => //= t ts IH last; rewrite h; case: (closest _ _ _ _ _ _) => idx pts.
by case: (match last with Some _ => _ | None => _ end) => //= new; rewrite IH.
Qed.
Theorem C12_negative_order grid outs m P : argsort_ok argsort -> ~~ (0 < P) -> (0 < m <= size grid)%N ->
  M grid outs (- m%:Z) P = M grid outs (size grid - m)%N P.
Proof.
move=> hs np /andP [m0 mn]; rewrite /M /getSparseInterpolationMatrix.
have -> : - m%:Z <= (size grid)%:Z by lia.
have -> : (size grid - m)%N%:Z <= (size grid)%:Z by lia.
apply: rows_order => t; rewrite /closest (negPf np).
case: m m0 mn => // m _ mn; rewrite -NegzE /py_take.
by rewrite (perm_size (hs _).1) size_iota size_map.
Qed.
Theorem C13_negative_order grid outs m P : argsort_ok argsort -> 0 < P -> (0 < m)%N ->
  (2 * size grid <= m <= 3 * size grid)%N ->
  M grid outs (- m%:Z) P = M grid outs (3 * size grid - m)%N P.
Proof.
move=> hs np m0 /andP [ml mu]; rewrite /M /getSparseInterpolationMatrix.
have -> : - m%:Z <= (size grid)%:Z by lia.
have -> : (3 * size grid - m)%N%:Z <= (size grid)%:Z by lia.
apply: rows_order => t; rewrite /closest np.
case: m m0 ml mu => // m _ ml mu; rewrite -NegzE /py_take.
rewrite (perm_size (hs _).1) size_iota size_map !size_cat !size_map.
by have -> : (size grid + size grid + size grid = 3 * size grid)%N by lia.
Qed.

(* the sum of a row against data *)
Lemma row_dot n (idx : seq nat) (r v : seq F) : uniq idx -> all (fun j => j < n)%N idx ->
  size r = n -> size v = n -> (forall j, j \notin idx -> nth 0 r j = 0) ->
  dot r v = \sum_(k < size idx) nth 0 r (nth 0%N idx k) * nth 0 v (nth 0%N idx k).
Proof.
move=> u al sr sv z; rewrite (@dotE _ _ _ n) //.
rewrite -(big_mkord xpredT (fun j => nth 0 r j * nth 0 v j)) /=.
rewrite -(big_mkord xpredT (fun k => nth 0 r (nth 0%N idx k) * nth 0 v (nth 0%N idx k))) /=.
rewrite (bigID (fun j => j \in idx)) /= [X in _ + X]big1 ?addr0; last first.
  by move=> j ji; rewrite z // mul0r.
rewrite -(big_nth 0%N xpredT (fun j => nth 0 r j * nth 0 v j)) /= -big_filter; apply: perm_big.
apply: uniq_perm => //; first by rewrite filter_uniq ?iota_uniq.
move=> j; rewrite mem_filter mem_index_iota andb_idr // => ji; exact: (allP al).
Qed.

(* C12: each row uses the `order` nearest points; its coefficients interpolate through these points
   relative to the output point, or through those of an earlier output point that np.allclose
   does not tell apart *)
Theorem C12_rows grid outs k P : argsort_ok argsort -> logs -> ~~ (0 < P) -> sorted <%O grid ->
  (0 < k <= size grid)%N ->
  exists2 A, M grid outs k P = Ok (fmat A) & is_shape A (size outs) (size grid) /\
    forall i, (i < size outs)%N ->
      let t := nth 0 outs i in
      exists2 idx, nearest grid t k idx & exists2 y, interpolates (nth [::] A i) idx y &
        y = shift grid t idx \/ close (shift grid t idx) y /\
          exists s idx', [/\ s \in take i outs, nearest grid s k idx' & y = shift grid s idx'].
Proof.
move=> hs hl np so /andP [k0 kn].
have cg t := @closest_grid _ _ fmod hs grid t k P np so kn.
have ok t : t \in [::] ++ outs -> [/\ uniq (closest argsort fmod grid k P t).1,
    size (closest argsort fmod grid k P t).1 = k,
    all (fun j => j < size grid)%N (closest argsort fmod grid k P t).1,
    size (closest argsort fmod grid k P t).2 = k & sorted <%O (closest argsort fmod grid k P t).2].
  move=> _; have [[h1 h2 h3 _] ->] := cg t; split=> //.
  - by move: h1; rewrite ltn_sorted_uniq_leq => /andP [].
  - by rewrite size_map.
  exact: closest_sorted.
have [A eA [sA hA]] := rows_ok hl k0 (last := None) ok (erefl _).
exists A; first by rewrite /M /getSparseInterpolationMatrix lez_nat kn.
split.
  rewrite /is_shape sA eqxx /=; apply/(all_nthP [::]) => i il.
  by have [y [-> _]] := hA i (eq_ind _ (fun m => (i < m)%N) il _ sA).
move=> i il t; have [y [_ hy] cy] := hA i il; have [nt pt] := cg t.
exists (closest argsort fmod grid k P t).1 => //; exists y; first exact: hy.
case: cy => [->|[c [s sin yE]]]; first by left.
right; split; first by rewrite /shift -pt.
have [ns ps] := cg s.
by exists s, (closest argsort fmod grid k P s).1; split=> //; rewrite yE ps.
Qed.

(* what a row does to data that come from a polynomial through the selected points *)
Lemma interpolates_dot n r idx (y v : seq F) (p : {poly F}) (t : F) : size r = n -> size v = n ->
  uniq idx -> all (fun j => j < n)%N idx -> size y = size idx -> interpolates r idx y ->
  (size p <= size idx)%N ->
  (forall k, (k < size idx)%N -> nth 0 v (nth 0%N idx k) = p.[nth 0 y k + t]) ->
  dot r v = p.[t].
Proof.
move=> sr sv u al sy [z ex] sp hv; rewrite (row_dot u al) //.
have := ex (p \Po ('X + t%:P)); rewrite sy horner_comp hornerD hornerX hornerC add0r => <-.
  by apply: eq_bigr => k _; rewrite hv // horner_comp hornerD hornerX hornerC.
by rewrite (leq_trans _ sp) // size_comp_poly2 // size_XaddC.
Qed.

(* rows sum to one, whether a line was reused or not *)
Lemma interpolates_one n r idx (y : seq F) : size r = n -> uniq idx -> all (fun j => j < n)%N idx ->
  size y = size idx -> (0 < size idx)%N -> interpolates r idx y -> vsum r = 1.
Proof.
move=> sr u al sy s0 h.
have <- : dot r (nseq n 1) = 1.
  rewrite -[RHS](hornerC 1 0); apply: (interpolates_dot sr _ u al sy h).
  - by rewrite size_nseq.
  - by rewrite size_polyC oner_eq0.
  move=> k kl; rewrite hornerC nth_nseq (allP al) //; exact: mem_nth.
rewrite (@dotE _ _ _ n) ?size_nseq // vsumE sr; apply: eq_bigr => i _.
by rewrite nth_nseq ltn_ord mulr1.
Qed.

Lemma nearest_uniq grid (t : F) k idx : nearest grid t k idx -> uniq idx.
Proof. by case; rewrite ltn_sorted_uniq_leq => /andP []. Qed.

Theorem C12_sums_and_support grid outs k P : argsort_ok argsort -> logs -> ~~ (0 < P) ->
  sorted <%O grid -> (0 < k <= size grid)%N ->
  exists2 A, M grid outs k P = Ok (fmat A) & size A = size outs /\
    forall i, (i < size outs)%N -> vsum (nth [::] A i) = 1 /\
      (size [seq j <- iota 0 (size grid) | nth 0%R (nth [::] A i) j != 0%R] <= k)%N.
Proof.
move=> hs hl np so kk; have [A eA [/is_shapeP [sA rA] hA]] := C12_rows outs hs hl np so kk.
exists A => //; split=> // i il; have [idx nt [y hy cy]] := hA i il.
have [h1 h2 h3 _] := nt; have u := nearest_uniq nt.
have sy : size y = size idx by case: cy => [->|[[<- _] _]]; rewrite size_map.
have sr : size (nth [::] A i) = size grid by apply: rA.
split; first by apply: (interpolates_one sr u h3 sy _ hy); rewrite h2; case/andP: kk.
rewrite -h2; apply: uniq_leq_size; first by rewrite filter_uniq ?iota_uniq.
move=> j; rewrite mem_filter => /andP [nz _]; apply/negPn/negP => ji.
by rewrite hy.1 ?eqxx in nz.
Qed.

(* exactness, provided np.allclose only identifies equal lists of relative points *)
Theorem C12_exact grid (outs : seq F) k P : argsort_ok argsort -> logs -> ~~ (0 < P) ->
  sorted <%O grid -> (0 < k <= size grid)%N ->
  (forall i j idx idx', (j < i < size outs)%N ->
     nearest grid (nth 0 outs i) k idx -> nearest grid (nth 0 outs j) k idx' ->
     close (shift grid (nth 0 outs i) idx) (shift grid (nth 0 outs j) idx') ->
     shift grid (nth 0 outs i) idx = shift grid (nth 0 outs j) idx') ->
  exists2 A, M grid outs k P = Ok (fmat A) & is_shape A (size outs) (size grid) /\
    forall p : {poly F}, (size p <= k)%N -> mv A (pvals p grid) = pvals p outs.
Proof.
move=> hs hl np so kk tell; have [A eA [shA hA]] := C12_rows outs hs hl np so kk.
have [sA rA] := is_shapeP _ _ _ shA.
exists A => //; split=> // p sp; apply: (@eq_from_nth _ 0); rewrite size_map ?sA ?size_map // => i il.
rewrite (nth_map [::]) ?sA // [RHS](nth_map 0) //.
have [idx nt [y hy cy]] := hA i il.
have [h1 h2 h3 _] := nt; have u := nearest_uniq nt.
have {cy} cy : y = shift grid (nth 0 outs i) idx.
  case: cy => // [[c [s [idx' [sin ns yE]]]]]; rewrite yE in c *; apply/esym.
  have /(nthP 0) [j jl sE] := sin.
  have ji : (j < i)%N by move: jl; rewrite size_take il.
  move: sE; rewrite nth_take // => sE; rewrite -sE in c ns *.
  by apply: tell => //; rewrite ji.
apply: (interpolates_dot (rA i il) _ u h3 _ hy); rewrite ?size_map ?cy ?size_map ?h2 //.
move=> j jl; have jn : (nth 0%N idx j < size grid)%N by apply: (allP h3); apply: mem_nth; rewrite h2.
by rewrite (nth_map 0) // (nth_map 0%N) ?h2 // subrK.
Qed.

(* one output point: always exact *)
Corollary C12_one_point grid t k P : argsort_ok argsort -> logs -> ~~ (0 < P) -> sorted <%O grid ->
  (0 < k <= size grid)%N ->
  exists2 r, M grid [:: t] k P = Ok (fmat [:: r]) & forall p : {poly F}, (size p <= k)%N ->
    dot r (pvals p grid) = p.[t].
Proof.
move=> hs hl np so kk; have [|A eA [shA hA]] := C12_exact (outs := [:: t]) hs hl np so kk.
  by move=> i j idx idx' /andP [ji]; rewrite ltnS leqn0 => /eqP i0; rewrite i0 in ji.
have [sA _] := is_shapeP _ _ _ shA.
by case: A eA sA shA hA => [|r [|//]] // eA _ _ hA; exists r => // p sp; case: (hA p sp).
Qed.

(* C13 *)
Theorem C13_rows grid outs k P : argsort_ok argsort -> fmod_ok fmod -> logs -> 0 < P ->
  period_ok grid P -> (0 < k <= size grid)%N ->
  exists2 A, M grid outs k P = Ok (fmat A) & is_shape A (size outs) (size grid) /\
    forall i, (i < size outs)%N ->
      let t := nth 0 outs i in
      exists2 im, nearest_images grid P t k im &
      exists2 y, interpolates (nth [::] A i) [seq e.1 | e <- im] y &
        y = shift_im grid P t im \/ close (shift_im grid P t im) y /\
          exists s im', [/\ s \in take i outs, nearest_images grid P s k im' & y = shift_im grid P s im'].
Proof.
move=> hs hm hl P0 pk /andP [k0 kn].
have n0 : (0 < size grid)%N := leq_trans k0 kn.
have cg t := @closest_period _ _ _ hs hm grid P t k P0 pk kn n0.
have ok t : t \in [::] ++ outs -> [/\ uniq (closest argsort fmod grid k P t).1,
    size (closest argsort fmod grid k P t).1 = k,
    all (fun j => j < size grid)%N (closest argsort fmod grid k P t).1,
    size (closest argsort fmod grid k P t).2 = k & sorted <%O (closest argsort fmod grid k P t).2].
  move=> _; have [im [h1 h2 h3 h4 _] [-> ->]] := cg t; split=> //; rewrite ?size_map ?all_map //.
  rewrite (map_comp (fun x => x - t) (fun e => nth 0 grid e.1 + e.2%:~R * P)) sorted_map.
  by apply: sub_sorted h4 => a b /=; rewrite ltr_add2r.
have [A eA [sA hA]] := rows_ok hl k0 (last := None) ok (erefl _).
exists A; first by rewrite /M /getSparseInterpolationMatrix lez_nat kn.
split.
  rewrite /is_shape sA eqxx /=; apply/(all_nthP [::]) => i il.
  by have [y [-> _]] := hA i (eq_ind _ (fun m => (i < m)%N) il _ sA).
move=> i il t; have [y [_ hy] cy] := hA i il; have [im nt [c1 c2]] := cg t.
exists im => //; exists y; first by rewrite -c1.
case: cy => [->|[c [s sin yE]]]; first by left.
right; split; first by rewrite /shift_im -c2.
have [im' ns [c1' c2']] := cg s.
by exists s, im'; split=> //; rewrite yE c2'.
Qed.

Theorem C13_sums_and_support grid outs k P : argsort_ok argsort -> fmod_ok fmod -> logs -> 0 < P ->
  period_ok grid P -> (0 < k <= size grid)%N ->
  exists2 A, M grid outs k P = Ok (fmat A) & size A = size outs /\
    forall i, (i < size outs)%N -> vsum (nth [::] A i) = 1 /\
      (size [seq j <- iota 0 (size grid) | nth 0%R (nth [::] A i) j != 0%R] <= k)%N.
Proof.
move=> hs hm hl P0 pk kk; have [A eA [/is_shapeP [sA rA] hA]] := C13_rows outs hs hm hl P0 pk kk.
exists A => //; split=> // i il; have [im [h1 h2 h3 _ _] [y hy cy]] := hA i il.
have sy : size y = size [seq e.1 | e <- im] by case: cy => [->|[[<- _] _]]; rewrite !size_map.
have sr : size (nth [::] A i) = size grid by apply: rA.
split.
  by apply: (interpolates_one sr h1 _ sy _ hy); rewrite ?all_map ?size_map ?h2 //; case/andP: kk.
rewrite -h2 -(size_map (fun e => e.1)); apply: uniq_leq_size; first by rewrite filter_uniq ?iota_uniq.
move=> j; rewrite mem_filter => /andP [nz _]; apply/negPn/negP => ji.
by rewrite hy.1 ?eqxx in nz.
Qed.

(* a periodic function that is a polynomial of degree < order on the selected images is interpolated
   exactly, provided np.allclose only identifies equal lists of relative points *)
Theorem C13_exact grid (outs : seq F) k P : argsort_ok argsort -> fmod_ok fmod -> logs -> 0 < P ->
  period_ok grid P -> (0 < k <= size grid)%N ->
  (forall i j im im', (j < i < size outs)%N ->
     nearest_images grid P (nth 0 outs i) k im -> nearest_images grid P (nth 0 outs j) k im' ->
     close (shift_im grid P (nth 0 outs i) im) (shift_im grid P (nth 0 outs j) im') ->
     shift_im grid P (nth 0 outs i) im = shift_im grid P (nth 0 outs j) im') ->
  exists2 A, M grid outs k P = Ok (fmat A) & is_shape A (size outs) (size grid) /\
    forall i, (i < size outs)%N -> exists2 im, nearest_images grid P (nth 0 outs i) k im &
      forall (f : F -> F) (p : {poly F}), (forall x (m : int), f (x + m%:~R * P) = f x) ->
        (size p <= k)%N -> (forall e, e \in im -> f (img grid P e) = p.[img grid P e]) ->
        dot (nth [::] A i) (map f grid) = p.[nth 0 outs i].
Proof.
move=> hs hm hl P0 pk kk tell; have [A eA [shA hA]] := C13_rows outs hs hm hl P0 pk kk.
have [sA rA] := is_shapeP _ _ _ shA.
exists A => //; split=> // i il; have [im nt [y hy cy]] := hA i il.
exists im => // f p per sp fp; have [h1 h2 h3 h4 _] := nt.
have {cy} cy : y = shift_im grid P (nth 0 outs i) im.
  case: cy => // [[c [s [im' [sin ns yE]]]]]; rewrite yE in c *; apply/esym.
  have /(nthP 0) [j jl sE] := sin.
  have ji : (j < i)%N by move: jl; rewrite size_take il.
  move: sE; rewrite nth_take // => sE; rewrite -sE in c ns *.
  by apply: tell => //; rewrite ji.
apply: (interpolates_dot (rA i il) _ h1 _ _ hy); rewrite ?size_map ?all_map ?cy ?size_map ?h2 //.
move=> j jl; have ein : nth (0%N, 0 : int) im j \in im by apply: mem_nth; rewrite h2.
have jn := allP h3 _ ein; rewrite (nth_map (0%N, 0 : int)) ?h2 // (nth_map 0) // (nth_map (0%N, 0 : int)) ?h2 //.
by rewrite subrK -fp // per.
Qed.

Lemma eq_obind (A B : Type) (o : outcome A) (f g : A -> outcome B) : (forall x, f x = g x) ->
  obind o f = obind o g.
Proof. by move=> h; case: o => //= x; apply: h. Qed.

(* the matrix does not change when output points are moved by whole periods *)
Theorem C13_output_shift grid (outs : seq F) (order : int) P (m : nat -> int) : fmod_ok fmod -> 0 < P ->
  M grid (mkseq (fun i => nth 0 outs i + (m i)%:~R * P) (size outs)) order P = M grid outs order P.
Proof.
move=> hm P0; rewrite /M /getSparseInterpolationMatrix; case: ifP => // _.
have mod_shift t (q : int) : fmod (t + q%:~R * P) P = fmod t P.
  have [/andP [a1 a2] [u eu]] := hm t _ P0; have [/andP [b1 b2] [v ev]] := hm (t + q%:~R * P) _ P0.
  have d : fmod (t + q%:~R * P) P - fmod t P = (u + q - v)%:~R * P.
    have -> : fmod (t + q%:~R * P) P = t + q%:~R * P - v%:~R * P by rewrite {2}ev addrK.
    by rewrite {1}eu rmorphB rmorphD /=; move: (fmod t P) => w; ring.
  have lt1 : `|fmod (t + q%:~R * P) P - fmod t P| < P.
    rewrite ltr_norml; apply/andP; split.
      by rewrite ltr_oppl opprB ltr_subl_addl (lt_le_trans a2) // ler_addr.
    by rewrite ltr_subl_addl (lt_le_trans b2) // ler_addr.
  have z : u + q - v = 0.
    apply/eqP; rewrite -[_ == 0]negbK; apply/negP => nz.
    move: lt1; rewrite d normrM (gtr0_norm P0) -intr_norm -ltr_pdivl_mulr // divff ?lt0r_neq0 //.
    by rewrite ltrz1 ltNge -gtz0_ge1 normr_gt0 nz.
  by apply/eqP; rewrite -subr_eq0 d z mul0r.
have cl t q : closest argsort fmod grid order P (t + q%:~R * P) = closest argsort fmod grid order P t.
  by rewrite /closest mod_shift P0.
elim: outs m None => [|t outs ih] m last //=; rewrite cl.
case: (closest _ _ _ _ _ t) => idx pts; apply: eq_obind => new.
rewrite (_ : sparse_rows _ _ _ _ _ _ _ _ _ _ = sparse_rows flog fexp underflow argsort fmod grid order P (Some new) outs) //.
rewrite -[RHS](ih (fun i => m i.+1)); congr sparse_rows.
by rewrite -[1%N]addn0 iotaDl -map_comp; apply: eq_map.
Qed.
End Props.

(* an argsort and a float modulo that meet the contracts *)
Definition asort (F : realFieldType) (d : seq F) : seq nat :=
  sort (fun i j => nth 0 d i <= nth 0 d j) (iota 0 (size d)).
Lemma asort_ok (F : realFieldType) : argsort_ok (@asort F).
Proof.
move=> d; split; first by rewrite perm_sort.
by apply: sort_sorted => i j; apply: le_total.
Qed.

Definition z_int (z : Z) : int :=
  match z with Z0 => 0 | Zpos p => Posz (Pos.to_nat p) | Zneg p => - Posz (Pos.to_nat p) end.
Definition qfmod (t P : Qc) : Qc := t - (z_int (Qfloor (this (t / P)%R)))%:~R * P.

Lemma Q2QcD a b : Q2Qc (a + b) = (Q2Qc a + Q2Qc b)%R :> Qc.
Proof.
apply: Qc_is_canon; rewrite [(Q2Qc a + Q2Qc b)%R]/(Qcplus (Q2Qc a) (Q2Qc b)) /Qcplus.
by rewrite /Q2Qc /this !Qred_correct.
Qed.

Lemma natQc n : n%:R = Q2Qc (inject_Z (Z.of_nat n)) :> Qc.
Proof. by elim: n => // n ih; rewrite mulrS ih Nat2Z.inj_succ -Z.add_1_l inject_Z_plus Q2QcD. Qed.

Lemma z_intE z : (z_int z)%:~R = Q2Qc (inject_Z z) :> Qc.
Proof.
case: z => [|p|p] //=; first by rewrite -pmulrn natQc positive_nat_Z.
rewrite mulrNz -pmulrn natQc positive_nat_Z; apply/eqP; rewrite eq_sym -subr_eq0 opprK -Q2QcD.
by rewrite -inject_Z_plus -Pos2Z.opp_pos Z.add_opp_diag_l.
Qed.

Lemma Q2QcK (x : Qc) : Q2Qc (this x) = x.
Proof. by apply: Qc_is_canon; rewrite /Q2Qc /this Qred_correct. Qed.
Lemma Q2Qc_le a b : Qle a b -> (Q2Qc a <= Q2Qc b)%R.
Proof. by move=> h; apply/Qle_bool_iff; rewrite /Q2Qc /this !Qred_correct. Qed.
Lemma Q2Qc_lt a b : Qlt a b -> (Q2Qc a < Q2Qc b)%R.
Proof.
move=> h; rewrite lt_neqAle Q2Qc_le ?andbT; last exact: Qlt_le_weak.
apply/eqP => /(congr1 this) e; have : Qeq a b by rewrite -(Qred_correct a) -(Qred_correct b) -[Qred a]/(this (Q2Qc a)) e.
by move=> e'; rewrite e' in h; exact: (Qlt_irrefl b).
Qed.

Lemma floorP (x : Qc) : (z_int (Qfloor (this x)))%:~R <= x < (z_int (Qfloor (this x)))%:~R + 1.
Proof.
rewrite z_intE; apply/andP; split.
  rewrite -[X in _ <= X]Q2QcK; apply: Q2Qc_le; exact: Qfloor_le.
rewrite -[X in X < _]Q2QcK -[1]/(Q2Qc (inject_Z 1)) -Q2QcD -inject_Z_plus; apply: Q2Qc_lt.
exact: Qlt_floor.
Qed.

Lemma qfmod_ok : fmod_ok qfmod.
Proof.
move=> t P P0; have /andP [] := floorP (t / P); set k := z_int _ => k1 k2.
split; last by exists k; rewrite subrK.
rewrite subr_ge0 ltr_subl_addl -ler_pdivl_mulr // k1 /=.
by move: k2; rewrite ltr_pdivr_mulr // mulrDl mul1r.
Qed.

(* the function on rationals *)
Definition no_log (x : Qc) : Qc := x.
Definition never (s : seq Qc) := false.
Definition qsparse := getSparseInterpolationMatrix (F := qc_realFieldType) no_log no_log never
  (@asort qc_realFieldType) qfmod.
Lemma never_ok : (forall s, never s = false) \/ exp_log (F := qc_realFieldType) no_log no_log.
Proof. by left. Qed.
Definition efm (M : outcome (seq (seq (ext qc_realFieldType)))) (A : seq (seq Qc)) : bool :=
  if M is Ok M' then M' == fmat (F := qc_realFieldType) A else false.
Lemma efmP M A : efm M A -> M = Ok (fmat (F := qc_realFieldType) A).
Proof. by case: M => //= M /eqP ->. Qed.

(* linear interpolation on 0, 1, 2, 3 at 1/2 and 9/4 *)
Definition g4 : seq Qc := [:: qc 0 1; qc 1 1; qc 2 1; qc 3 1].
Example C12_instance : sorted <%O g4 /\ (0 < 2 <= size g4)%N /\
  qsparse g4 [:: qc 1 2; qc 9 4] 2 (qc (-1) 1) =
  Ok (fmat (F := qc_realFieldType) [:: [:: qc 1 2; qc 1 2; qc 0 1; qc 0 1]; [:: qc 0 1; qc 0 1; qc 3 4; qc 1 4]]).
Proof.
split; first by vm_compute.
split; first by [].
by apply: efmP; vm_compute.
Qed.

Example C12_too_large_instance : qsparse g4 [:: qc 1 2] 5 (qc (-1) 1) = Raise AssertionError.
Proof. exact: C12_order_too_large. Qed.

(* the line of 1000000 is reused for 1000005: the row gives the wrong value 10^6 for p = X *)
Theorem C12_reuse_refuted : exists (grid outs : seq Qc) A,
  [/\ sorted <%O grid, qsparse grid outs 2 (qc (-1) 1) = Ok (fmat (F := qc_realFieldType) A) &
     mv A (pvals ('X : {poly qc_realFieldType}) grid) != pvals 'X outs].
Proof.
exists [:: qc 0 1; qc 1 1], [:: qc 1000000 1; qc 1000005 1].
exists [:: [:: qc (-999999) 1; qc 1000000 1]; [:: qc (-999999) 1; qc 1000000 1]]; split.
- by vm_compute.
- by apply: efmP; vm_compute.
by rewrite /pvals /= !hornerX; vm_compute.
Qed.

(* ... or whenever the grid is finer than the absolute tolerance: at the points 0 and h of the grid
   0, h, 2h, 3h with h = 10^-9 both rows are the row of the point 0 *)
Theorem C12_fine_grid_refuted : exists (grid : seq Qc) A,
  [/\ sorted <%O grid, qsparse grid grid 2 (qc (-1) 1) = Ok (fmat (F := qc_realFieldType) A) &
     mv A (pvals ('X : {poly qc_realFieldType}) grid) != pvals 'X grid].
Proof.
exists [:: qc 0 1; qc 1 1000000000; qc 2 1000000000; qc 3 1000000000].
exists [:: [:: qc 1 1; qc 0 1; qc 0 1; qc 0 1]; [:: qc 1 1; qc 0 1; qc 0 1; qc 0 1];
  [:: qc 0 1; qc 1 1; qc 0 1; qc 0 1]; [:: qc 0 1; qc 0 1; qc 1 1; qc 0 1]]; split.
- by vm_compute.
- by apply: efmP; vm_compute.
by rewrite /pvals /= !hornerX; vm_compute.
Qed.

(* the periodic grid 0, 1/4, 1/2, 3/4 of period 1 at 15/8: images 3/4 + 1 and 0 + 2 *)
Definition gp : seq Qc := [:: qc 0 1; qc 1 4; qc 1 2; qc 3 4].
Example C13_instance : (0%R < qc 1 1)%R /\ period_ok (F := qc_realFieldType) gp (qc 1 1) /\
  (0 < 2 <= size gp)%N /\
  qsparse gp [:: qc 15 8] 2 (qc 1 1) =
  Ok (fmat (F := qc_realFieldType) [:: [:: qc 1 2; qc 0 1; qc 0 1; qc 1 2]]).
Proof.
split; first by vm_compute.
split.
  split; first by vm_compute.
  by exists (qc 0 1); split; vm_compute.
split; first by [].
by apply: efmP; vm_compute.
Qed.

(* a grid in [2, 3) with period 1: the images considered are those of periods 1, 2 and 3 only, the
   output point 2 is brought to 0, and its row is not the first unit vector *)
Theorem C13_far_grid_refuted : exists (grid outs : seq Qc) A,
  [/\ sorted <%O grid /\ all (fun x => qc 2 1 <= x < qc 3 1)%R grid, nth 0 outs 0 = nth 0 grid 0,
     qsparse grid outs 2 (qc 1 1) = Ok (fmat (F := qc_realFieldType) A) &
     exists v, size v = size grid /\ nth 0 (mv A v) 0 != nth 0 v 0].
Proof.
exists [:: qc 2 1; qc 5 2], [:: qc 2 1], [:: [:: qc 3 1; qc (-2) 1]]; split.
- by split; vm_compute.
- by [].
- by apply: efmP; vm_compute.
by exists [:: qc 1 1; qc 0 1]; split=> //; vm_compute.
Qed.

(* a grid that contains both ends of the period: at 1/16 the interpolation of order 3 uses two points *)
Theorem C13_both_ends_refuted : exists (grid outs : seq Qc) A,
  [/\ sorted <%O grid /\ all (fun x => qc 0 1 <= x <= qc 1 1)%R grid,
     qsparse grid outs 3 (qc 1 1) = Ok (fmat (F := qc_realFieldType) A) &
     (size [seq j <- iota 0 (size grid) | nth 0%R (nth [::] A 0) j != 0%R] < 3)%N].
Proof.
exists [:: qc 0 1; qc 1 4; qc 1 2; qc 3 4; qc 1 1], [:: qc 1 16].
exists [:: [:: qc 0 1; qc 1 4; qc 0 1; qc 0 1; qc 3 4]]; split.
- by split; vm_compute.
- by apply: efmP; vm_compute.
by vm_compute.
Qed.

(* the contracts and the theorems apply to this instance *)
Example C13_contracts_instance : exists2 A,
  qsparse gp [:: qc 15 8] 2 (qc 1 1) = Ok (fmat (F := qc_realFieldType) A) & vsum (nth [::] A 0) = 1.
Proof.
have [P0 [pk [kk _]]] := C13_instance.
have [A eA [_ hA]] := C13_sums_and_support [:: qc 15 8] (@asort_ok qc_realFieldType) qfmod_ok never_ok P0 pk kk.
exists A; first exact: eA.
have [e _] := hA 0%N isT; exact: e.
Qed.

Print Assumptions C12_order_too_large.
Print Assumptions C12_negative_order.
Print Assumptions C13_negative_order.
Print Assumptions C12_rows.
Print Assumptions C12_sums_and_support.
Print Assumptions C12_exact.
Print Assumptions C12_one_point.
Print Assumptions C12_reuse_refuted.
Print Assumptions C12_fine_grid_refuted.
Print Assumptions C13_rows.
Print Assumptions C13_sums_and_support.
Print Assumptions C13_exact.
Print Assumptions C13_output_shift.
Print Assumptions C13_far_grid_refuted.
Print Assumptions C13_both_ends_refuted.
