(* LDU and LU factorizations. *)
From Verif.Base Require Import Str.
From mathcomp Require Import all_ssreflect all_algebra ring zify.
From Verif.Base Require Import Outcome Arr Ext.
From Verif.Model Require Import Lagrange QGen Nodes Collocation Sweeps.
From Verif.Spec Require Import SweepSpec.
From Verif.Proofs Require Import LagrangeP.
Set Implicit Arguments.
Unset Strict Implicit.
Unset Printing Implicit Defensive.
Import GRing.Theory Num.Theory Order.TTheory.
Local Open Scope ring_scope.

Section LDU.
Variable F : realFieldType.
Variables (A : seq (seq F)) (n : nat).
Hypothesis shA : is_shape A n n.
(* the leading principal minors of order 1 .. n-1 do not vanish *)
Hypothesis minors : forall k, (0 < k < n)%N -> \det (mxl k k A) != 0.
Let nA : size A = n. Proof. by case/is_shapeP: shA. Qed.

Definition ldu_inv (i : nat) (L : nat -> nat -> F) (d : nat -> F) (U : nat -> nat -> F) : Prop :=
  [/\ forall r, L r r = 1 /\ U r r = 1,
      forall r c, (r < c)%N -> L r c = 0 /\ U c r = 0,
      forall k, (k < i)%N -> (k.+1 < n)%N -> d k != 0 &
      forall r c, (minn r c < i)%N -> (r < n)%N -> (c < n)%N ->
        ent A r c = \sum_(k < i) L r k * d k * U k c].

Lemma eget_tab m1 m2 (f : nat -> nat -> F) i j : (i < m1)%N -> (j < m2)%N ->
  eget (tab m1 m2 (fun i j => Fin (f i j))) i j = Fin (f i j).
Proof. by move=> il jl; rewrite /eget /tab !nth_mkseq. Qed.

Lemma det_unit_prod i (L U : nat -> nat -> F) (d : nat -> F) :
  (forall r, L r r = 1 /\ U r r = 1) -> (forall r c, (r < c)%N -> L r c = 0 /\ U c r = 0) ->
  (i <= n)%N -> (forall r c, (r < i)%N -> (c < i)%N -> ent A r c = \sum_(k < i) L r k * d k * U k c) ->
  \det (mxl i i A) = \prod_(k < i) d k.
Proof.
move=> h1 h2 il h.
have -> : mxl i i A = (\matrix_(r < i, c < i) L r c) *m (diag_mx (\row_(k < i) d k) *m (\matrix_(r < i, c < i) U r c)).
  apply/matrixP => r c; rewrite !mxE h //; apply: eq_bigr => k _; rewrite !mxE -mulrA; congr (_ * _).
  rewrite (bigD1 k) //= big1 ?addr0 => [|k' kk]; first by rewrite !mxE eqxx mulr1n.
  by rewrite !mxE eq_sym (negbTE kk) mulr0n mul0r.
rewrite !det_mulmx det_diag.
rewrite (det_trig (A := \matrix_(r < i, c < i) L r c)); last first.
  by apply/is_trig_mxP => r c rc; rewrite mxE (h2 _ _ rc).1.
rewrite -[\det (\matrix_(r < i, c < i) U r c)]det_tr (det_trig (A := (\matrix_(r < i, c < i) U r c)^T)); last first.
  by apply/is_trig_mxP => r c rc; rewrite !mxE (h2 _ _ rc).2.
rewrite big1 ?mul1r => [|k _]; last by rewrite mxE (h1 _).1.
rewrite [X in _ * X]big1 ?mulr1 => [|k _]; last by rewrite !mxE (h1 _).2.
by apply: eq_bigr => k _; rewrite mxE.
Qed.

Lemma ldu_stepE i L d U : (i < n)%N -> ldu_inv i L d U -> exists L' d' U', ldu_inv i.+1 L' d' U' /\
  ldu_step A (tab n n (fun r c => Fin (L r c)), mkseq (fun k => Fin (d k)) n, tab n n (fun r c => Fin (U r c))) i
  = (tab n n (fun r c => Fin (L' r c)), mkseq (fun k => Fin (d' k)) n, tab n n (fun r c => Fin (U' r c))).
Proof.
move=> il [h1 h2 h3 h4].
pose s r c := \sum_(k < i) L r k * d k * U k c.
pose di := ent A i i - s i i.
pose d' k := if k == i then di else d k.
pose L' r c := if (c == i) && (i < r)%N then (ent A r i - s r i) / di else L r c.
pose U' r c := if (r == i) && (i < c)%N then (ent A i c - s i c) / di else U r c.
have sE r c : (r < n)%N -> (c < n)%N ->
    ldu_sum (tab n n (fun r c => Fin (L r c))) (mkseq (fun k => Fin (d k)) n) (tab n n (fun r c => Fin (U r c))) i r c = Fin (s r c).
  move=> rl cl; rewrite /ldu_sum (esum_mkseq (g := fun k => L r k * d k * U k c)) // => k ki.
  have kn : (k < n)%N by exact: leq_trans ki (ltnW il).
  by rewrite !eget_tab // nth_mkseq.
have s_low r c : (minn r c < i)%N -> (r < n)%N -> (c < n)%N -> s r c = ent A r c.
  by move=> *; rewrite h4.
have dn0 : (i.+1 < n)%N -> di != 0.
  move=> i1; have := minors (k := i.+1); rewrite i1 => /(_ isT).
  rewrite (@det_unit_prod _ L U d') //; last first.
    move=> r c rl cl; rewrite big_ord_recr /= {2}/d' eqxx.
    rewrite (eq_bigr (fun k : 'I_i => L r k * d k * U k c)); last first.
      by move=> k _; rewrite /d' ltn_eqF.
    rewrite -/(s r c); rewrite !ltnS in rl cl.
    case: (ltngtP r i) rl => // [ri|->] _.
      by rewrite s_low ?gtn_min ?ri ?(ltn_trans ri il) ?(leq_ltn_trans cl il) // (h2 _ _ ri).1 !mul0r addr0.
    case: (ltngtP c i) cl => // [ci|->] _.
      by rewrite s_low ?gtn_min ?ci ?orbT ?(ltn_trans ci il) // (h2 _ _ ci).2 mulr0 addr0.
    by rewrite (h1 i).1 (h1 i).2 mul1r mulr1 /di addrC subrK.
  by rewrite big_ord_recr /= {2}/d' eqxx mulf_eq0 negb_or => /andP [].
exists L', d', U'; split.
  split.
  - by move=> r; rewrite /L' /U'; have [] := h1 r; split; case: eqP => //= <-; rewrite ltnn.
  - move=> r c rc; rewrite /L' /U'; split; case: eqP => [ci|_] /=; rewrite ?(h2 _ _ rc).1 ?(h2 _ _ rc).2 //.
      by rewrite ifF //; apply/negbTE; lia.
    by rewrite ifF //; apply/negbTE; lia.
  - move=> k; rewrite ltnS leq_eqVlt /d' => /orP [/eqP ->|ki] kn; first by rewrite eqxx; exact: dn0.
    by rewrite ltn_eqF // h3.
  move=> r c; rewrite gtn_min !ltnS => hrc rn cn; rewrite big_ord_recr /= {2}/d' eqxx.
  rewrite (eq_bigr (fun k : 'I_i => L r k * d k * U k c)); last first.
    by move=> k _; rewrite /d' /L' /U' !ltn_eqF.
  rewrite -/(s r c) /L' /U' eqxx /=.
  case: (ltngtP r i) hrc => [ri|ir|ri] hrc.
  - by rewrite s_low ?gtn_min ?ri // (h2 _ _ ri).1 !mul0r addr0.
  - case: (ltngtP c i) hrc => [ci|ic|->] hrc //.
      by rewrite s_low ?gtn_min ?ci ?orbT // (h2 _ _ ci).2 mulr0 addr0.
    rewrite (h1 i).2 mulr1 divfK; last by apply: dn0; apply: leq_ltn_trans rn.
    by rewrite addrC subrK.
  rewrite ri; case: (ltngtP c i) => [ci|ic|->].
  - by rewrite s_low ?gtn_min ?ci ?orbT // ?(h2 _ _ ci).2 ?mulr0 ?addr0 // -ri.
  - rewrite (h1 i).1 mul1r mulrC divfK; last by apply: dn0; apply: leq_ltn_trans cn.
    by rewrite addrC subrK.
  by rewrite (h1 i).1 (h1 i).2 mul1r mulr1 /di addrC subrK.
rewrite /ldu_step nA !sE // -[esub _ _]/(Fin di); congr (_, _, _).
- rewrite /tab; apply: eq_mkseq_in => r rl; apply: eq_mkseq_in => c cl.
  case: ifP => [/andP [/eqP ci ir]|h]; last by rewrite eget_tab // /L' h.
  rewrite sE // /L' ci eqxx ir /= (negbTE (dn0 _)) //; exact: leq_ltn_trans rl.
- apply: (@eq_from_nth _ (Fin 0)); rewrite size_set_nth ?size_mkseq; first by apply/maxn_idPr.
  rewrite (maxn_idPr il) => k kn; rewrite nth_set_nth /= !nth_mkseq // /d'.
  by case: eqP => // ->.
rewrite /tab; apply: eq_mkseq_in => r rl; apply: eq_mkseq_in => c cl.
case: ifP => [/andP [/eqP ri ic]|h]; last by rewrite eget_tab // /U' h.
rewrite sE // /U' ri eqxx ic /= (negbTE (dn0 _)) //; exact: leq_ltn_trans cl.
Qed.

Lemma lduE : exists L d U, ldu_inv n L d U /\
  ldu A = (tab n n (fun r c => Fin (L r c)), mkseq (fun k => Fin (d k)) n, tab n n (fun r c => Fin (U r c))).
Proof.
have gen m : (m <= n)%N -> exists L d U, ldu_inv m L d U /\
    foldl (ldu_step A) (eeye F n, nseq n (Fin 0), eeye F n) (iota 0 m) =
    (tab n n (fun r c => Fin (L r c)), mkseq (fun k => Fin (d k)) n, tab n n (fun r c => Fin (U r c))).
  elim: m => [|m ih] mn.
    exists (fun i j => (i == j)%:R), (fun _ => 0), (fun i j => (i == j)%:R); split.
      split=> // [r|r c rc]; first by rewrite eqxx.
      by rewrite ltn_eqF // gtn_eqF.
    congr (_, _, _); apply: (@eq_from_nth _ (Fin 0)); rewrite size_nseq ?size_mkseq // => k kn.
    by rewrite nth_nseq kn nth_mkseq.
  have [L [d [U [iv e]]]] := ih (ltnW mn).
  have [L' [d' [U' [iv' e']]]] := ldu_stepE mn iv.
  exists L', d', U'; split=> //.
  by rewrite -addn1 iotaD foldl_cat e -[LHS]/(ldu_step A _ (0 + m)) add0n.
by rewrite /ldu nA; exact: gen.
Qed.
End LDU.

Section Pow.
Variable R : ringType.
Lemma mpowS n (N : 'M[R]_n) k : mpow N k.+1 = N *m mpow N k. Proof. by []. Qed.

Lemma strict_upper_pow n (N : 'M[R]_n) k : (forall i j : 'I_n, (j <= i)%N -> N i j = 0) ->
  forall i j : 'I_n, (j < i + k)%N -> mpow N k i j = 0.
Proof.
move=> h; elim: k => [|k ih] i j; first by rewrite addn0 => ij; rewrite mxE eq_sym -val_eqE /= ltn_eqF.
rewrite mpowS mxE => ij; rewrite big1 // => l _; case: (leqP l i) => li; first by rewrite h ?mul0r.
by rewrite ih ?mulr0 //; apply: leq_trans ij _; rewrite addnS -addSn leq_add2r.
Qed.

Lemma strict_upper_nil n (N : 'M[R]_n) : (forall i j : 'I_n, (j <= i)%N -> N i j = 0) -> mpow N n = 0.
Proof.
move=> h; apply/matrixP => i j; rewrite mxE strict_upper_pow //.
by apply: leq_trans (ltn_ord j) _; exact: leq_addl.
Qed.
End Pow.

Section LUf.
Variable F : realFieldType.
Implicit Types (s : seq (lurow F)) (r : lurow F).
Let row0 : lurow F := (0%N, ([::], [::])).

Lemma pivotP s d : (0 < size s)%N -> (pivot_pos s < size s)%N /\
  forall r, r \in s -> `|lead r| <= `|lead (nth d s (pivot_pos s))|.
Proof.
elim: s => // r s ih _ /=; case: (s =P [::]) => [->|sn] /=.
  by split=> // x; rewrite inE => /eqP ->.
have s0 : (0 < size s)%N by case: (s) sn.
have [h1 h2] := ih s0; have -> : (size s == 0%N) = false by apply/negbTE; rewrite -lt0n.
rewrite (set_nth_default d) //=; case: leP => h /=; split=> // x; rewrite inE => /orP [/eqP ->|xs] //.
- exact: le_trans (h2 _ xs) h.
- exact: ltW.
exact: h2.
Qed.

Lemma swap_perm (T : eqType) (x : T) (t : seq T) p : (p < size t)%N ->
  perm_eq (nth x t p :: set_nth x t p x) (x :: t).
Proof.
elim: t p => // y t ih [|p] pl; apply/permP => a /=; first by lia.
by have /permP /(_ a) := ih p pl; rewrite /=; lia.
Qed.

Lemma others_perm (T : eqType) (x : T) (t : seq T) p : (p < size (x :: t))%N ->
  perm_eq (nth x (x :: t) p :: behead (set_nth x (x :: t) p x)) (x :: t).
Proof. by case: p => [|p] pl //=; exact: swap_perm. Qed.

(* entry of U *)
Definition uent (out : seq (lurow F)) (k c : nat) : F :=
  if (k <= c)%N then nth 0 (nth row0 out k).2.2 (c - k) else 0.

Lemma lu_loopE n s : size s = n -> (forall r, r \in s -> size r.2.2 = n) ->
  let out := lu_loop n s in
  [/\ size out = n, perm_eq [seq r.1 | r <- out] [seq r.1 | r <- s] &
   forall i, (i < n)%N -> exists r m1, [/\ r \in s, r.1 = (nth row0 out i).1,
     (nth row0 out i).2.1 = r.2.1 ++ m1, size m1 = i &
     forall c, (c < n)%N -> nth 0 r.2.2 c = \sum_(k < i) nth 0 m1 k * uent out k c + uent out i c]].
Proof.
elim: n s => [|n ih] [|r0 s] //= zs rs; case: zs => zs.
have [pl pmax] := @pivotP (r0 :: s) r0 isT.
move: pl pmax; rewrite -[pivot_pos (r0 :: s)]/(let p := pivot_pos s in
               if (size s == 0%N) || (`|lead (nth r0 s p)| <= `|lead r0|) then 0%N else p.+1).
set p := (let p := _ in _); move=> pl pmax.
set piv := nth r0 (r0 :: s) p; set others := behead (set_nth r0 (r0 :: s) p r0).
have pe : perm_eq (piv :: others) (r0 :: s) by exact: others_perm.
have zo : size others = n by have := perm_size pe; rewrite /= zs => -[].
have mem x : x \in piv :: others -> x \in r0 :: s by rewrite (perm_mem pe).
have sub_ok r : r \in map (eliminate piv) others -> size r.2.2 = n.
  move=> /mapP [x xo ->]; rewrite /= size_behead size_map size_zip !rs ?minnn //.
    by apply: mem; rewrite inE eqxx.
  by apply: mem; rewrite inE xo orbT.
have zm : size (map (eliminate piv) others) = n by rewrite size_map.
have [z2 pe2 h] := ih _ zm sub_ok; set out := lu_loop n _ in z2 pe2 h *.
split; first by rewrite /= z2.
  rewrite /= -[r0.1 :: _]/(map fst (r0 :: s)).
  apply: (perm_trans (y := map fst (piv :: others))); last exact: perm_map.
  by rewrite /= perm_cons (perm_trans pe2) // -map_comp.
have uS k c : (0 < c)%N -> uent (piv :: out) k.+1 c = uent out k c.-1.
  by case: c => // c _; rewrite /uent ltnS /= subSS.
have u0 c : uent (piv :: out) 0 c = nth 0 piv.2.2 c by rewrite /uent /= subn0.
have uS0 k : uent (piv :: out) k.+1 0 = 0 by [].
case=> [|i] il.
  exists piv, [::]; split=> //=; [by apply: mem; rewrite inE eqxx|by rewrite cats0|].
  by move=> c cl; rewrite big_ord0 add0r u0.
have [r' [m1 [rin e1 e2 e3 e4]]] := h i il.
move/mapP: rin => [r ro er]; exists r.
have rin : r \in r0 :: s by apply: mem; rewrite inE ro orbT.
have pin : piv \in r0 :: s by apply: mem; rewrite inE eqxx.
set f := if lead piv == 0 then 0 else lead r / lead piv.
exists (f :: m1); split=> //=; first by rewrite -e1 er.
- by rewrite e2 er /= -/f cat_rcons.
- by rewrite e3.
move=> c cl; rewrite big_ord_recl /= u0.
have leadE x : x \in r0 :: s -> lead x = nth 0 x.2.2 0 by rewrite /lead nth0.
case: c cl => [|c] cl.
  rewrite big1 => [|k _]; last by rewrite /bump /= add1n uS0 mulr0.
  rewrite uS0 !addr0 -!leadE // /f; case: eqP => [l0|/eqP ln]; last by rewrite divfK.
  by rewrite mul0r; apply/eqP; rewrite -normr_le0; have := pmax _ rin; rewrite -/piv l0 normr0.
have := e4 c cl; rewrite er /= nth_behead (nth_map (0, 0)) ?nth_zip ?size_zip ?rs ?minnn //= -/f.
move/eqP; rewrite subr_eq => /eqP ->; rewrite uS // addrC addrA; congr (_ + _); rewrite addrC; congr (_ + _).
Qed.
End LUf.

Section LU.
Variable F : realFieldType.
Variables (A : seq (seq F)) (n : nat).
Hypothesis shA : is_shape A n n.

Lemma luE perm L U : lu n A = (perm, L, U) ->
  [/\ is_shape L n n, is_shape U n n, perm_eq perm (iota 0 n) &
   [/\ forall i j, (i < n)%N -> (j < n)%N -> (i <= j)%N -> ent L i j = (i == j)%:R,
       forall i j, (i < n)%N -> (j < n)%N -> (j < i)%N -> ent U i j = 0 &
       forall i c, (i < n)%N -> (c < n)%N ->
         ent A (nth 0%N perm i) c = \sum_(k < n) ent L i k * ent U k c]].
Proof.
have [zA rA] := is_shapeP _ _ _ shA.
set s0 := [seq (q.1, ([::], q.2)) | q <- zip (iota 0 n) A] : seq (lurow F).
have zz : size (zip (iota 0 n) A) = n by rewrite size_zip size_iota zA minnn.
have zs : size s0 = n by rewrite size_map.
have sE r : r \in s0 -> (r.1 < n)%N /\ r.2 = ([::], nth [::] A r.1).
  move=> /mapP [q /(nthP (0%N, [::])) [i]]; rewrite zz => il; rewrite nth_zip ?size_iota ?zA // => <- ->.
  by rewrite /= nth_iota.
have rs r : r \in s0 -> size r.2.2 = n by move=> /sE [il ->]; rewrite /= rA.
have [zo pe h] := lu_loopE zs rs; rewrite /lu -/s0; set out := lu_loop n s0 in zo pe h *.
move=> [<- <- <-]; split; [exact: mkmat_shape|exact: mkmat_shape| |split].
- apply: (perm_trans pe); rewrite /s0 -map_comp.
  by rewrite (eq_map (f2 := fst)) // -/(unzip1 _) unzip1_zip // size_iota zA.
- by move=> i j il jl ij; rewrite ent_mkmat // ltnNge ij.
- by move=> i j il jl ij; rewrite ent_mkmat // leqNgt ij.
move=> i c il cl; have [r [m1 [rin e1 e2 e3 e4]]] := h i il.
have [rl r2] := sE r rin; rewrite r2 /= in e2 e4.
rewrite (nth_map (0%N, ([::], [::]))) ?zo // -e1.
rewrite -[ent A r.1 c]/(nth 0 (nth [::] A r.1) c) e4 //.
rewrite (eq_bigr (fun k : 'I_n => (if (k < i)%N then nth 0 m1 k * uent out k c else 0) + (if k == Ordinal il then uent out i c else 0))).
  rewrite big_split /= -!big_mkcond /= big_pred1_eq.
  congr (_ + _); rewrite -(big_mkord (fun k => (k < i)%N) (fun k => nth 0 m1 k * uent out k c)).
  by rewrite -(big_mkord xpredT (fun k => nth 0 m1 k * uent out k c)) (big_nat_widen 0 i n) ?(ltnW il).
move=> k _; rewrite !ent_mkmat // e2 -/(uent out k c) -val_eqE /=.
by case: (ltngtP k i) => ki; rewrite ?mul0r ?addr0 ?add0r // ?mul1r ?ki.
Qed.
End LU.

Section LDUzero.
Variable F : realFieldType.
Implicit Types (x : ext F).

Lemma emul_nan x : emul x NaN = NaN. Proof. by case: x. Qed.
Lemma esub_nan x : esub x NaN = NaN. Proof. by case: x. Qed.
Lemma esum_nan (s : seq (ext F)) : NaN \in s -> esum s = NaN.
Proof.
elim: s => // x s ih; rewrite inE => /orP [/eqP <-|/ih e] //=.
by rewrite -/(esum s) e; case: x {ih}.
Qed.

Variables (A : seq (seq F)) (n : nat).
Hypothesis shA : is_shape A n n.
Hypothesis row0 : forall j, (j < n)%N -> ent A 0 j = 0.

Lemma ldu_zero m : (0 < m <= n)%N ->
  let: (L, d, U) := foldl (ldu_step A) (eeye F n, nseq n (Fin 0), eeye F n) (iota 0 m) in
  [/\ forall c, (0 < c < n)%N -> eget U 0 c = NaN,
      nth (Fin 0) d 0 = Fin 0 & forall k, (0 < k < m)%N -> nth (Fin 0) d k = NaN].
Proof.
have [zA _] := is_shapeP _ _ _ shA; have n0 : (0 < m <= n)%N -> (0 < n)%N by case/andP => a b; exact: leq_trans a b.
case: m n0 => // m n0 /[dup] /n0 {}n0; elim: m => [|m ih] ml.
  have d0 : esub (Fin (ent A 0 0)) (ldu_sum (eeye F n) (nseq n (Fin 0)) (eeye F n) 0 0 0) = Fin 0.
    by rewrite row0 // /ldu_sum /= subrr.
  rewrite [iota 0 1]/= [foldl _ _ _]/(ldu_step A (eeye F n, nseq n (Fin 0), eeye F n) 0) /ldu_step zA d0; split; last by case.
    move=> c /andP [c0 cl]; rewrite /eget /tab !nth_mkseq // eqxx c0 /= row0 //.
    by rewrite /ldu_sum /= /ediv subrr eqxx /inf_of ltxx.
  by rewrite nth_set_nth.
rewrite -(addn1 m.+1) iotaD add0n cats1 foldl_rcons.
case: (foldl _ _ (iota 0 m.+1)) (ih (ltnW ml)) => [[L d] U] [h1 h2 h3].
have ml' : (m.+1 < n)%N by [].
have dn : esub (Fin (ent A m.+1 m.+1)) (ldu_sum L d U m.+1 m.+1 m.+1) = NaN.
  rewrite /ldu_sum esum_nan ?esub_nan //; apply/(nthP NaN); exists 0%N; rewrite ?size_mkseq //.
  by rewrite nth_mkseq // h1 // emul_nan.
rewrite /ldu_step zA dn; split.
- by move=> c /andP [c0 cl]; rewrite /eget /tab !nth_mkseq //= -/(eget U 0 c) h1 ?c0.
- by rewrite nth_set_nth.
move=> k /andP [k0 kl]; rewrite nth_set_nth /=; case: eqP => // /eqP kn; apply: h3.
by rewrite k0 ltn_neqAle kn /= -ltnS -(addn1 m.+1).
Qed.
End LDUzero.
