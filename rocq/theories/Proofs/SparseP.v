(* Proofs about getSparseInterpolationMatrix. *)
From Verif.Base Require Import Str.
From mathcomp Require Import all_ssreflect all_algebra ring zify.
From Verif.Base Require Import Outcome Arr Ext PolyInterp PolyInt.
From Verif.Model Require Import Lagrange Sparse.
From Verif.Spec Require Import LagrangeSpec SparseSpec.
From Verif.Proofs Require Import LagrangeP LagrangeInit LagrangeThms.
From Verif.Properties Require Import LagrangeProps.
Set Implicit Arguments.
Unset Strict Implicit.
Unset Printing Implicit Defensive.
Import GRing.Theory Num.Theory Order.TTheory.
Local Open Scope ring_scope.

Section Sparse.
Variable F : realFieldType.
Variables (flog fexp : F -> F).
Variable underflow : seq F -> bool.
Variable argsort : seq F -> seq nat.
Variable fmod : F -> F -> F.
Hypothesis hsort : argsort_ok argsort.
Hypothesis hmod : fmod_ok fmod.
(* either the direct formula is used, or the logarithm and exponential are right *)
Hypothesis hlog : (forall s, underflow s = false) \/ exp_log flog fexp.

Lemma take_near (d : seq F) k : (k <= size d)%N ->
  let s := take k (argsort d) in
  [/\ uniq s, size s = k, all (fun j => j < size d)%N s &
     forall i j, i \in s -> (j < size d)%N -> j \notin s -> nth 0 d i <= nth 0 d j].
Proof.
move=> kd s; have [pm so] := hsort d; have up : uniq (argsort d).
  by rewrite (perm_uniq pm) iota_uniq.
have sz : size (argsort d) = size d by rewrite (perm_size pm) size_iota.
have mem j : (j \in argsort d) = (j < size d)%N by rewrite (perm_mem pm) mem_iota.
split.
- exact: take_uniq.
- by rewrite size_take sz; case: ltngtP kd.
- by apply/allP => j /mem_take; rewrite mem.
move=> i j ii jd ji; move: so; rewrite sorted_pairwise; last first.
  by move=> a b c; apply: le_trans.
rewrite -(cat_take_drop k (argsort d)) pairwise_cat => /and3P [/allrelP h _ _].
apply: h => //; have : j \in argsort d by rewrite mem.
by rewrite -{1}(cat_take_drop k (argsort d)) mem_cat (negPf ji).
Qed.

Lemma sort_near (d : seq F) k : (k <= size d)%N ->
  let s := sort leq (take k (argsort d)) in
  [/\ sorted ltn s, size s = k, all (fun j => j < size d)%N s &
     forall i j, i \in s -> (j < size d)%N -> j \notin s -> nth 0 d i <= nth 0 d j].
Proof.
move=> kd; have [h1 h2 h3 h4] := take_near kd; split.
- by rewrite ltn_sorted_uniq_leq sort_uniq h1 sort_sorted //; apply: leq_total.
- by rewrite size_sort.
- by rewrite all_sort.
by move=> i j; rewrite !mem_sort; apply: h4.
Qed.

(* writing a line into a row *)
Lemma scatterE n (idx : seq nat) (l : seq F) : uniq idx -> all (fun j => j < n)%N idx ->
  size l = size idx ->
  scatter n idx (map (@Fin F) l) =
  map (@Fin F) (mkseq (fun j => if j \in idx then nth 0 l (index j idx) else 0) n).
Proof.
move=> u a sl; rewrite /scatter.
suff gen (g : nat -> F) : foldl (fun row (p : nat * ext F) => set_nth (Fin 0) row p.1 p.2)
    (map (@Fin F) (mkseq g n)) (zip idx (map (@Fin F) l)) =
    map (@Fin F) (mkseq (fun j => if j \in idx then nth 0 l (index j idx) else g j) n).
  have := gen (fun _ => 0).
  rewrite (_ : map (@Fin F) (mkseq (fun _ => 0) n) = nseq n (Fin 0)) //.
  apply: (@eq_from_nth _ (Fin 0)); rewrite size_map size_mkseq ?size_nseq // => i il.
  by rewrite (nth_map 0) ?size_mkseq // nth_mkseq // nth_nseq il.
elim: idx l u a sl g => [|j idx ih] [|v l] //= /andP [nj u] /andP [jn a] [sl] g.
have -> : set_nth (Fin 0) (map (@Fin F) (mkseq g n)) j (Fin v) =
    map (@Fin F) (mkseq (fun i => if i == j then v else g i) n).
  apply: (@eq_from_nth _ (Fin 0)).
    by rewrite size_set_nth !size_map size_iota; apply/maxn_idPr.
  move=> i; rewrite size_set_nth !size_map size_iota (maxn_idPr jn) => il.
  rewrite nth_set_nth /= !(nth_map 0) ?size_mkseq // !nth_mkseq //.
  by case: eqP.
rewrite ih //; congr map; apply: eq_mkseq_in => i il; rewrite inE eq_sym.
case: (i =P j) => [->|/eqP ne] /=.
  by rewrite eqxx (negPf nj).
by rewrite [j == i]eq_sym (negPf ne).
Qed.

Definition good_line (pts : seq F) (line : seq (ext F)) : Prop :=
  exists l, [/\ line = map (@Fin F) l, size l = size pts &
    forall p : {poly F}, (size p <= size pts)%N ->
      \sum_(k < size pts) nth 0 l k * p.[nth 0 pts k] = p.[0]].

Lemma line_good pts : sorted <%O pts -> (0 < size pts)%N ->
  exists2 line, line_at0 flog fexp underflow pts = Ok line & good_line pts line.
Proof.
move=> so s0.
have ok : points_ok pts "USE_LEFT" /\ setting_ok pts "AUTO" "MAX" /\ logs_ok flog fexp underflow pts "AUTO".
  split; first by split=> //; left.
  split; first by right; left; split; [left|right].
  by case: hlog => h; right; [left; split|right].
have [self e [M eM [shM exM]]] := @C01_interpolation_exact F flog fexp underflow pts "AUTO" false "MAX" "USE_LEFT" [:: 0] ok.
rewrite /line_at0 e; exists (head [::] (getInterpolationMatrix self [:: 0] true)); first reflexivity.
rewrite eM.
have [sM hM] := is_shapeP _ _ _ shM.
case: M sM hM eM exM shM => [//|r [|//]] _ hM _ exM _ /=.
have sr : size r = size pts by apply: (hM 0%N).
exists r; split=> // p sp.
have nd : ndist pts = size pts by rewrite /ndist undup_id // lt_sorted_uniq.
have := exM p; rewrite nd => /(_ sp) [] <-.
rewrite (@dotE _ _ _ (size pts)) ?size_map //; apply: eq_bigr => k _.
by rewrite (nth_map 0).
Qed.

(* the loop *)
Section Loop.
Variables (grid : seq F) (order : int) (period : F) (k : nat).
Let n := size grid.
Hypothesis k0 : (0 < k)%N.
Let cl := closest argsort fmod grid order period.
Let okc (t : F) := [/\ uniq (cl t).1, size (cl t).1 = k, all (fun j => j < n)%N (cl t).1,
    size (cl t).2 = k & sorted <%O (cl t).2].

Lemma allcloseP (u v : seq F) : reflect (close u v) ((size u == size v) && allclose u v).
Proof.
apply: (iffP andP) => [[/eqP s /allP h]|[s h]]; split=> //.
- move=> i il; have := h (nth 0 u i, nth 0 v i); apply.
  by rewrite -nth_zip // mem_nth // size_zip s minnn -s.
- by rewrite s.
apply/allP => q /(nthP (0, 0)) [i]; rewrite size_zip s minnn -s => il <-.
by rewrite nth_zip //=; apply: h.
Qed.

(* row of one output point, from the line of the points [y] *)
Definition row_ok (t : F) (y : seq F) (row : seq F) : Prop :=
  size row = n /\ interpolates row (cl t).1 y.

Lemma row_of t y line : okc t -> good_line y line -> y = (cl t).2 \/ close (cl t).2 y ->
  exists2 row, scatter n (cl t).1 line = map (@Fin F) row & row_ok t y row.
Proof.
move=> [u s a s2 so] [l [-> sl ex]] cy.
have sy : size y = k by case: cy => [->|[<- _]].
have sli : size l = size (cl t).1 by rewrite s sl.
rewrite scatterE //; eexists; first reflexivity; split=> //.
  by rewrite size_mkseq.
split.
  move=> j ji; case: (ltnP j n) => jn; last by rewrite nth_default ?size_mkseq.
  by rewrite nth_mkseq // (negPf ji).
move=> p sp; rewrite -(ex p sp); apply: eq_bigr => i _; congr (_ * _).
have il : (i < size (cl t).1)%N by rewrite s -sy.
rewrite nth_mkseq; last by apply: (allP a); apply: mem_nth.
by rewrite mem_nth // index_uniq.
Qed.

(* the previous points and line, when there are any, come from an earlier output point *)
Lemma rows_ok (past out : seq F) last : (forall t, t \in past ++ out -> okc t) ->
  (if last is Some (y, line) then (exists2 s, s \in past & y = (cl s).2) /\ good_line y line
   else past = [::]) ->
  exists2 A, sparse_rows flog fexp underflow argsort fmod grid order period last out = Ok (fmat A) &
    size A = size out /\ forall i, (i < size out)%N ->
      exists2 y, row_ok (nth 0 out i) y (nth [::] A i) &
        y = (cl (nth 0 out i)).2 \/ close (cl (nth 0 out i)).2 y /\
        exists2 s, s \in past ++ take i out & y = (cl s).2.
Proof.
elim: out past last => [|t out ih] past last hok hl; first by exists [::].
have tok : okc t by apply: hok; rewrite mem_cat inE eqxx orbT.
have [u s a s2 so] := tok.
have [line0 e0 g0] : exists2 line, line_at0 flog fexp underflow (cl t).2 = Ok line & good_line (cl t).2 line.
  by apply: line_good => //; rewrite s2.
have [y [line [en [s' s'in yE] gl cy ey]]] : exists y line,
    [/\ match last with
       | Some (lastPts, line) =>
         if (size (cl t).2 == size lastPts) && allclose (cl t).2 lastPts then Ok (lastPts, line)
         else omapo (pair (cl t).2) (line_at0 flog fexp underflow (cl t).2)
       | None => omapo (pair (cl t).2) (line_at0 flog fexp underflow (cl t).2)
       end = Ok (y, line), exists2 s, s \in past ++ [:: t] & y = (cl s).2, good_line y line,
       y = (cl t).2 \/ close (cl t).2 y &
       y = (cl t).2 \/ close (cl t).2 y /\ exists2 s, s \in past & y = (cl s).2].
  have fresh : exists y line, [/\ omapo (pair (cl t).2) (line_at0 flog fexp underflow (cl t).2) = Ok (y, line),
      exists2 s, s \in past ++ [:: t] & y = (cl s).2, good_line y line, y = (cl t).2 \/ close (cl t).2 y &
       y = (cl t).2 \/ close (cl t).2 y /\ exists2 s, s \in past & y = (cl s).2].
    exists (cl t).2, line0; rewrite e0; split=> //; [|by left|by left].
    by exists t => //; rewrite mem_cat inE eqxx orbT.
  case: last hl => [[y line] [[s' s'in yE] gl]|_] //.
  case: allcloseP => [c|_] //; exists y, line; split=> //; [|by right|].
    by exists s' => //; rewrite mem_cat s'in.
  by right; split=> //; exists s'.
have [row er rok] := row_of tok gl cy.
have [] := ih (past ++ [:: t]) (Some (y, line)).
- by move=> r; rewrite -catA /=; apply: hok.
- by split=> //; exists s'.
move=> A eA [sA hA]; exists (row :: A).
  rewrite /= -/cl [cl t]surjective_pairing en /= eA /=.
  by rewrite er.
split; first by rewrite /= sA.
case=> [|i] il /=.
  by exists y => //; rewrite cats0.
have [z rz ez] := hA i il; exists z => //; case: ez => [->|[cz [s1 s1in zE]]]; first by left.
by right; split=> //; exists s1 => //; rewrite -catA /= in s1in.
Qed.
End Loop.

(* columns and points, non periodic case *)
Lemma closest_grid grid t (k : nat) period : ~~ (0 < period) -> sorted <%O grid -> (k <= size grid)%N ->
  let c := closest argsort fmod grid k period t in
  nearest grid t k c.1 /\ c.2 = [seq nth 0 grid j - t | j <- c.1].
Proof.
move=> np so kn; rewrite /closest (negPf np) /=; split=> //.
have kd : (k <= size [seq (`|x - t|)%R | x <- grid])%N by rewrite size_map.
have [h1 h2 h3 h4] := sort_near kd; rewrite size_map in h3 h4; split=> // i j ii jn ji.
have := h4 i j ii jn ji; rewrite !(nth_map 0) //; exact: (allP h3).
Qed.

Lemma closest_sorted (grid : seq F) (t : F) idx : sorted <%O grid -> sorted ltn idx -> all (fun j => j < size grid)%N idx ->
  sorted <%O [seq nth 0 grid j - t | j <- idx].
Proof.
move=> so si al; rewrite sorted_map.
apply: sub_in_sorted al si => // i j /= il jl ij.
rewrite /= ltr_add2r; exact: (sorted_ltn_nth lt_trans 0 so).
Qed.

Lemma pos3 b j n : (b < 3)%N -> (j < n)%N -> (b * n + j < 3 * n)%N.
Proof. by move: b => [|[|[|//]]] _; lia. Qed.

Lemma shiftE (x m q P s t : F) : t = s + q * P -> x + m * P - t = x - s + (m - q) * P.
Proof. by move=> ->; ring. Qed.

Lemma swapE (x m P s : F) : x - s + m * P = x + m * P - s.
Proof. by ring. Qed.

(* columns and points, periodic case *)
Section Period.
Variables (grid : seq F) (P t : F) (k : nat).
Let n := size grid.
Hypothesis P0 : 0 < P.
Hypothesis pok : period_ok grid P.
Hypothesis kn : (k <= n)%N.
Hypothesis n0 : (0 < n)%N.
Let s := fmod t P.
Let sh (b : nat) : int := if b == 0%N then 1 else if b == 1%N then -1 else 0.
Let path := ([seq x + P - s | x <- grid] ++ [seq x - P - s | x <- grid]) ++ [seq x - s | x <- grid].

Lemma size_path : size path = (3 * n)%N.
Proof. by rewrite /path !size_cat !size_map -/n; lia. Qed.

Lemma nth_path i : (i < 3 * n)%N ->
  nth 0 path i = nth 0 grid (i %% n) + (sh (i %/ n))%:~R * P - s.
Proof.
move=> il; rewrite /path nth_cat size_cat !size_map -/n.
case: ifP => [i2|/negbT i2].
  rewrite nth_cat size_map -/n; case: ifP => [i1|/negbT i1].
    by rewrite (nth_map 0) // modn_small // divn_small // /sh /= mul1r.
  have ir : (i - n < n)%N by lia.
  rewrite (nth_map 0) //; have e : i = (1 * n + (i - n))%N by lia.
  rewrite [in RHS]e modnMDl modn_small // divnMDl // divn_small // addn0 /sh /= -addrA.
  by rewrite mulN1r addrA.
have ir : (i - (n + n) < n)%N by lia.
rewrite (nth_map 0) //; have e : i = (2 * n + (i - (n + n)))%N by lia.
by rewrite [in RHS]e modnMDl modn_small // divnMDl // divn_small // addn0 /sh /= mul0r addr0.
Qed.

Let s0 : 0 <= s < P. Proof. by case: (hmod t P0). Qed.

Lemma grid_range j : (j < n)%N -> exists2 a, `|a| <= P / 2%:R & a <= nth 0 grid j < a + P.
Proof.
by move=> jn; case: pok => _ [a [ha /allP al]]; exists a => //; apply: al; apply: mem_nth.
Qed.

Lemma le_by (e x y : F) : y - x = e -> 0 <= e -> x <= y.
Proof. by move=> <-; rewrite subr_ge0. Qed.

Lemma lt_by (e x y : F) : y - x = e -> 0 < e -> x < y.
Proof. by move=> <-; rewrite subr_gt0. Qed.

Lemma half2 : P = P / 2%:R + P / 2%:R.
Proof. by field. Qed.

(* each grid point has an image at most half a period away *)
Lemma near_image j : (j < n)%N ->
  exists i, [/\ (i < 3 * n)%N, (i %% n)%N = j & `|nth 0 path i| <= P / 2%:R].
Proof.
move=> jn; have [a ha /andP [x1 x2]] := grid_range jn.
have := half2; move: ha; rewrite ler_norml; have /andP [s1 s2] := s0.
move: (P / 2%:R) => h /andP [a1 a2] hE.
have [c|c] := lerP (`|nth 0 grid j - s|) h.
  exists (2 * n + j)%N; split; [exact: pos3|by rewrite modnMDl modn_small|].
  rewrite nth_path ?modnMDl ?divnMDl // ?modn_small ?divn_small // ?pos3 //.
  by rewrite /sh /= mul0r addr0.
have [d|d] := lerP (nth 0 grid j - s) 0.
  exists j; split; [exact: (@pos3 0)|by rewrite modn_small|].
  rewrite nth_path ?modn_small ?divn_small //; last exact: (@pos3 0).
  rewrite /sh /= mul1r; move: c; rewrite ler0_norm // => c.
  move: a1 a2 x1 x2 s1 s2 c d; rewrite hE.
  move: (nth 0 grid j) (s) (h) (a) => x r u b a1 a2 x1 x2 s1 s2 c d.
  rewrite ler_norml; apply/andP; split.
    apply: (@le_by ((x - b) + (b - - u) + (u + u - r))); first by ring.
    by apply: addr_ge0; [apply: addr_ge0|]; rewrite ?subr_ge0 // ltW.
  by apply: (@le_by (- (x - r) - u)); [ring|rewrite subr_ge0 ltW].
exists (1 * n + j)%N; split; [exact: pos3|by rewrite modnMDl modn_small|].
rewrite nth_path ?modnMDl ?divnMDl // ?modn_small ?divn_small // ?pos3 //.
rewrite /sh /= mulN1r; move: c; rewrite gtr0_norm // => c.
move: a1 a2 x1 x2 s1 s2 c d; rewrite hE.
move: (nth 0 grid j) (s) (h) (a) => x r u b a1 a2 x1 x2 s1 s2 c d.
rewrite ler_norml; apply/andP; split.
  by apply: (@le_by (x - r - u)); [ring|rewrite subr_ge0 ltW].
apply: (@le_by ((b + (u + u) - x) + (u - b) + r)); first by ring.
by apply: addr_ge0; [apply: addr_ge0|]; rewrite ?subr_ge0 // ltW.
Qed.

Let dist := [seq `|a| | a <- path].
Let idx0 := sort leq (take k (argsort dist)).

Lemma idx0P : [/\ sorted ltn idx0, size idx0 = k, all (fun j => j < 3 * n)%N idx0 &
  forall i j, i \in idx0 -> (j < 3 * n)%N -> j \notin idx0 -> `|nth 0 path i| <= `|nth 0 path j|].
Proof.
have sd : size dist = (3 * n)%N by rewrite size_map size_path.
have kd : (k <= size dist)%N by rewrite sd; lia.
have [h1 h2 h3 h4] := sort_near kd; rewrite sd in h3 h4; split=> // i j ii jl ji.
have il := allP h3 i ii.
by have := h4 i j ii jl ji; rewrite !(nth_map 0) ?size_path.
Qed.

Lemma idx0_half i : i \in idx0 -> `|nth 0 path i| <= P / 2%:R.
Proof.
have [so sz al nr] := idx0P; move=> ii; rewrite leNgt; apply/negP => big.
have [g hg] : exists g : nat -> nat, forall j, (j < n)%N ->
    [/\ (g j < 3 * n)%N, (g j %% n)%N = j & `|nth 0 path (g j)| <= P / 2%:R].
  have ex j : exists i, (j < n)%N ==> [&& (i < 3 * n)%N, (i %% n)%N == j & `|nth 0 path i| <= P / 2%:R].
    case: (ltnP j n) => jn /=; last by exists 0%N.
    by have [i' [h1 h2 h3]] := near_image jn; exists i'; rewrite h1 h2 h3 eqxx.
  exists (fun j => xchoose (ex j)) => j jn; have := xchooseP (ex j).
  by move/implyP/(_ jn)/and3P => [h1 /eqP h2 h3].
have gin j : (j < n)%N -> g j \in idx0.
  move=> jn; have [h1 h2 h3] := hg j jn; apply/negPn/negP => gn.
  by have := nr i (g j) ii h1 gn; rewrite leNgt (le_lt_trans h3 big).
have u : uniq (i :: map g (iota 0 n)).
  rewrite /= map_inj_in_uniq ?iota_uniq ?andbT.
    apply/negP => /mapP [j]; rewrite mem_iota => jn e; have [_ _] := hg j jn.
    by rewrite leNgt -e big.
  move=> j1 j2; rewrite !mem_iota => l1 l2 e.
  by have [_ <- _] := hg j1 l1; have [_ <- _] := hg j2 l2; rewrite e.
have : (size (i :: map g (iota 0 n)) <= size idx0)%N.
  apply: uniq_leq_size => // j; rewrite inE => /orP [/eqP ->//|/mapP [j']].
  by rewrite mem_iota => jn ->; apply: gin.
by rewrite /= size_map size_iota sz ltnNge kn.
Qed.

(* two points of the grid do not differ by a multiple of the period *)
Lemma grid_mod j1 j2 (m1 m2 : int) : (j1 < n)%N -> (j2 < n)%N ->
  nth 0 grid j1 + m1%:~R * P = nth 0 grid j2 + m2%:~R * P -> j1 = j2 /\ m1 = m2.
Proof.
move=> l1 l2 e; case: pok => so [a [_ /allP al]].
have /andP [b1 c1] := al _ (mem_nth 0 l1); have /andP [b2 c2] := al _ (mem_nth 0 l2).
have d : nth 0 grid j1 - nth 0 grid j2 = (m2 - m1)%:~R * P.
  rewrite rmorphB /= mulrBl.
  move: (nth 0 grid j1) (nth 0 grid j2) (m1%:~R * P) (m2%:~R * P) e => x y u v e.
  have -> : x - y = x + u - u - y by ring.
  by rewrite e; ring.
have lt1 : `|nth 0 grid j1 - nth 0 grid j2| < P.
  rewrite ltr_norml; move: b1 c1 b2 c2; move: (nth 0 grid j1) (nth 0 grid j2) => x y b1 c1 b2 c2.
  apply/andP; split.
    by apply: (@lt_by ((x - a) + (a + P - y))); [ring|rewrite ltr_paddl ?subr_ge0 ?subr_gt0].
  by apply: (@lt_by ((y - a) + (a + P - x))); [ring|rewrite ltr_paddl ?subr_ge0 ?subr_gt0].
have m0 : m1 = m2.
  apply/eqP; rewrite eq_sym -subr_eq0 -[_ == 0]negbK; apply/negP => nz.
  move: lt1; rewrite d normrM (gtr0_norm P0) -intr_norm -ltr_pdivl_mulr // divff ?lt0r_neq0 //.
  by rewrite ltrz1 ltNge -gtz0_ge1 normr_gt0 nz.
split=> //; have : nth 0 grid j1 = nth 0 grid j2 by move/eqP: e; rewrite m0 (inj_eq (addIr _)) => /eqP.
by move/eqP; rewrite nth_uniq ?lt_sorted_uniq // => /eqP.
Qed.

Lemma sh_inj b c : (b < 3)%N -> (c < 3)%N -> sh b = sh c -> b = c.
Proof. by case: b c => [|[|[|//]]] [|[|[|//]]]. Qed.

Lemma path_inj i1 i2 : (i1 < 3 * n)%N -> (i2 < 3 * n)%N -> nth 0 path i1 = nth 0 path i2 -> i1 = i2.
Proof.
move=> l1 l2; rewrite !nth_path // => /addIr e.
have [] := grid_mod _ _ e; rewrite ?ltn_mod // => em es.
rewrite (divn_eq i1 n) (divn_eq i2 n) em; congr (_ * _ + _)%N.
by apply: sh_inj => //; rewrite ltn_divLR.
Qed.

Lemma cols_uniq : uniq [seq (i %% n)%N | i <- idx0].
Proof.
have [so sz al nr] := idx0P.
have ui : uniq idx0 by move: so; rewrite ltn_sorted_uniq_leq => /andP [].
case un : (uniq _) => //; exfalso.
have [j0 j0n j0i] : exists2 j0, (j0 < n)%N & j0 \notin [seq (i %% n)%N | i <- idx0].
  case: (altP (@allP _ (fun j => j \in [seq (i %% n)%N | i <- idx0]) (iota 0 n))) => [h|].
    have := @leq_size_uniq _ (iota 0 n) [seq (i %% n)%N | i <- idx0] (iota_uniq _ _) h.
    by rewrite size_map size_iota sz un => /(_ kn).
  by case/allPn => j; rewrite mem_iota => jn ji; exists j.
have [i1 [i2 [h1 h2 ne em]]] : exists i1 i2, [/\ i1 \in idx0, i2 \in idx0, i1 <> i2 & (i1 %% n = i2 %% n)%N].
  case/negbT/(uniqPn 0%N): un => a [b []]; rewrite size_map => ab bl.
  have al' := ltn_trans ab bl; rewrite !(nth_map 0%N) // => e.
  exists (nth 0%N idx0 a), (nth 0%N idx0 b); split; rewrite ?mem_nth //.
  by move/eqP; rewrite nth_uniq // => /eqP ee; rewrite ee ltnn in ab.
have l1 := allP al _ h1; have l2 := allP al _ h2.
have [g [gl gm gh]] := near_image j0n.
have gni : g \notin idx0 by apply/negP => gi; case/negP: j0i; rewrite -gm; apply: map_f.
have n1 := le_trans (nr _ _ h1 gl gni) gh; have n2 := le_trans (nr _ _ h2 gl gni) gh.
(* the two images are at -P/2 and P/2 *)
have dif : exists2 m : int, m != 0 & nth 0 path i1 - nth 0 path i2 = m%:~R * P.
  exists (sh (i1 %/ n) - sh (i2 %/ n)); last by rewrite !nth_path // em rmorphB /=; ring.
  rewrite subr_eq0; apply/eqP => es; apply: ne.
  by apply: path_inj => //; rewrite !nth_path // em es.
have ext : `|nth 0 path i1| = P / 2%:R /\ nth 0 path i2 = - nth 0 path i1.
  case: dif => m m0 dm.
  have mP : P <= `|m%:~R * P|.
    rewrite normrM (gtr0_norm P0) -intr_norm; apply: ler_pemull; first exact: ltW.
    rewrite ler1z.
    by rewrite -gtz0_ge1 normr_gt0.
  move: n1 n2 mP; rewrite -dm !ler_norml; move: (nth 0 path i1) (nth 0 path i2) => u v.
  have := half2; have : 0 <= P / 2%:R by rewrite divr_ge0 ?ler0n // ltW.
  move: (P / 2%:R) => h hp -> /andP [u1 u2] /andP [v1 v2].
  rewrite ler_normr => /orP [] w.
    have uh : u = h.
      apply/eqP; rewrite eq_le u2; apply: (@le_by ((u - v - (h + h)) + (v - - h))); first by ring.
      by apply: addr_ge0; rewrite subr_ge0.
    have vh : v = - h.
      apply/eqP; rewrite eq_le v1 andbT; apply: (@le_by ((u - v - (h + h)) + (h - u))); first by ring.
      by apply: addr_ge0; rewrite subr_ge0.
    by rewrite vh uh ger0_norm.
  have uh : u = - h.
    apply/eqP; rewrite eq_le u1 andbT; apply: (@le_by ((- (u - v) - (h + h)) + (h - v))); first by ring.
    by apply: addr_ge0; rewrite subr_ge0.
  have vh : v = h.
    apply/eqP; rewrite eq_le v2; apply: (@le_by ((- (u - v) - (h + h)) + (u - - h))); first by ring.
    by apply: addr_ge0; rewrite subr_ge0.
  by rewrite vh uh normrN opprK ger0_norm.
have same : nth 0 path g = nth 0 path i1 \/ nth 0 path g = nth 0 path i2.
  have : `|nth 0 path g| = `|nth 0 path i1|.
    by apply/eqP; rewrite eq_le (nr _ _ h1 gl gni) ext.1 gh.
  move/eqP; rewrite eqr_norm2 ext.2 => /orP [] /eqP ->; by [left|right].
by case: same => /path_inj e; case/negP: gni; rewrite e.
Qed.

Lemma sh_cover (m : int) : `|m| <= 1 -> exists2 b, (b < 3)%N & sh b = m.
Proof.
move=> m1; have : [\/ m = 0, m = 1 | m = -1] by case: m m1 => [[|[|m]]|[|m]] //=; constructor.
by case=> ->; [exists 2%N|exists 0%N|exists 1%N].
Qed.

Lemma closest_period : let c := closest argsort fmod grid k P t in
  exists2 im, nearest_images grid P t k im &
    c.1 = [seq e.1 | e <- im] /\ c.2 = [seq nth 0 grid e.1 + e.2%:~R * P - t | e <- im].
Proof.
rewrite /closest P0 /=; rewrite -/s -/n -/path -/dist -/idx0.
have [so sz al nr] := idx0P.
have ui : uniq idx0 by move: so; rewrite ltn_sorted_uniq_leq => /andP [].
have [_ [q tE]] := hmod t P0; rewrite -/s in tE.
set vals := [seq nth 0 path i | i <- idx0]; set U := np_unique vals.
have uv : uniq vals.
  by rewrite map_inj_in_uniq // => i j /(allP al) il /(allP al) jl; apply: path_inj.
have pU : perm_eq U vals.
  apply: uniq_perm => //; first exact/lt_sorted_uniq/np_unique_srt.
  exact: mem_np_unique.
pose I v := nth 0%N idx0 (index v vals).
pose E i := ((i %% n)%N, sh (i %/ n) + q).
have IP i : i \in idx0 -> I (nth 0 path i) = i.
  move=> ii; rewrite /I -{1}(nth_index 0%N ii).
  have il : (index i idx0 < size vals)%N by rewrite size_map index_mem.
  by rewrite -(@nth_map _ 0%N _ 0 (nth 0 path)) ?index_mem // index_uniq // nth_index.
have IV v : v \in U -> I v \in idx0 /\ nth 0 path (I v) = v.
  by rewrite (perm_mem pU) => /mapP [i ii ->]; rewrite IP.
have pJ : perm_eq [seq I v | v <- U] idx0.
  apply: (perm_trans (perm_map _ pU)); rewrite /vals -map_comp.
  by rewrite (_ : map _ _ = idx0) //; rewrite -[RHS]map_id; apply/eq_in_map => i ii; rewrite /= IP.
have imgE i : (i < 3 * n)%N -> nth 0 grid (E i).1 + (E i).2%:~R * P - t = nth 0 path i.
  by move=> il; rewrite nth_path // (shiftE _ _ tE) -rmorphB /= addrK swapE.
have imgV v : v \in U -> nth 0 grid (E (I v)).1 + (E (I v)).2%:~R * P - t = v.
  by move=> /IV [vi e]; rewrite imgE ?e //; apply: (allP al).
exists [seq E i | i <- [seq I v | v <- U]]; last first.
  rewrite -!map_comp; split.
    apply/eq_in_map => v vU /=; have [vi _] := IV v vU.
    rewrite (nth_map 0%N) // -(size_map (nth 0 path)) index_mem.
    by rewrite -(perm_mem pU).
  by rewrite -[LHS]map_id; apply/eq_in_map => v vU /=; rewrite imgV.
split.
- have -> : [seq e.1 | e <- [seq E i | i <- [seq I v | v <- U]]] = [seq (i %% n)%N | i <- [seq I v | v <- U]].
    by rewrite -[LHS]map_comp.
  by rewrite (perm_uniq (perm_map _ pJ)); apply: cols_uniq.
- by rewrite size_map (perm_size pJ).
- by apply/allP => e /mapP [i _ ->] /=; rewrite ltn_mod.
- rewrite -!map_comp (_ : map _ _ = [seq v + t | v <- U]).
    by rewrite sorted_map (eq_sorted (e' := <%O)) ?np_unique_srt // => a b /=; rewrite ltr_add2r.
  by apply/eq_in_map => v vU /=; rewrite -[in RHS](imgV v vU) subrK.
move=> e f /mapP [i ii ->] fl fn.
have {}ii : i \in idx0 by rewrite -(perm_mem pJ).
have il := allP al _ ii; rewrite imgE //.
have fE : nth 0 grid f.1 + f.2%:~R * P - t = nth 0 grid f.1 - s + (f.2 - q)%:~R * P.
  by rewrite (shiftE _ _ tE) rmorphB.
have [m1|m1] := lerP `|f.2 - q| 1.
  have [b bl eb] := sh_cover m1; pose j := (b * n + f.1)%N.
  have jl : (j < 3 * n)%N by apply: pos3.
  have Ej : E j = f.
    rewrite /E /j modnMDl modn_small // divnMDl // divn_small // addn0 eb subrK.
    by case: (f).
  rewrite -Ej imgE //; apply: nr => //; apply/negP => ji; case/negP: fn; rewrite -Ej.
  by apply: map_f; rewrite (perm_mem pJ).
apply: (le_trans (idx0_half ii)); rewrite fE.
have [a ha /andP [x1 x2]] := grid_range fl; have /andP [s1 s2] := s0.
have mP : 2%:R * P <= `|(f.2 - q)%:~R * P|.
  rewrite normrM (gtr0_norm P0) -intr_norm ler_pmul2r // -[2%:R]/(2%:Z%:~R) ler_int.
  by move: m1; rewrite -lez_addr1.
have d : `|nth 0 grid f.1 - s| <= P + P / 2%:R.
  move: ha; rewrite ler_norml => /andP [a1 a2]; rewrite ler_norml.
  move: a1 a2 x1 x2 s1 s2; move: (P / 2%:R) (nth 0 grid f.1) (s) => h x r a1 a2 x1 x2 s1 s2.
  apply/andP; split.
    by apply: (@le_by ((x - a) + (P - r) + (a - - h))); [ring|apply: addr_ge0; [apply: addr_ge0|]; rewrite subr_ge0 // ltW].
  by apply: (@le_by ((a + P - x) + r + (h - a))); [ring|apply: addr_ge0; [apply: addr_ge0|]; rewrite ?subr_ge0 // ltW].
have tr := ler_sub_dist ((f.2 - q)%:~R * P) (s - nth 0 grid f.1).
have -> : nth 0 grid f.1 - s + (f.2 - q)%:~R * P = (f.2 - q)%:~R * P - (s - nth 0 grid f.1).
  by move: (nth 0 grid f.1) ((f.2 - q)%:~R * P) (s) => *; ring.
apply: (le_trans _ tr); rewrite [`|s - _|]distrC.
move: mP d half2; move: (P / 2%:R) `|nth 0 grid f.1 - s| `|(f.2 - q)%:~R * P| => h u v mP d hE.
apply: (@le_by ((v - 2%:R * P) + (P + h - u) + (P - (h + h)))); first by ring.
by rewrite -hE subrr addr0; apply: addr_ge0; rewrite subr_ge0.
Qed.
End Period.
End Sparse.
