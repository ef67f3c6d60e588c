(* Property C80: rounding errors of the derivative matrices (qmat/lagrange.py). *)
From Coq Require Import Reals Lra.
From Verif.Base Require Import Str Float64.
From mathcomp Require Import all_ssreflect all_algebra ring zify.
From Verif.Base Require Import RField Outcome Arr Ext PolyInterp.
From Verif.Model Require Import Lagrange Rounded.
From Verif.Spec Require Import LagrangeSpec RoundSpec.
From Verif.Proofs Require Import LagrangeP LagrangeInit LagrangeThms RoundP RoundRowP RoundAbsP RoundDerivP.
From Verif.Properties Require Import RoundProps.
Set Implicit Arguments.
Unset Strict Implicit.
Unset Printing Implicit Defensive.
Import GRing.Theory Num.Theory Order.TTheory.
Local Open Scope ring_scope.
Bind Scope ring_scope with R.

(* relative error of the entries off the diagonal to the derivatives E of the basis polynomials,
   error of the diagonal, zero columns, and row sums.  The column of a position j of the points
   belongs to the index k of the point among the distinct ones. *)
Definition deriv_err (F : realFieldType) (u : F) (pts : seq F) (d : string)
    (ko kd : nat) (E off : nat -> nat -> F) (dia : nat -> F) (D : seq (seq F)) : Prop :=
  [/\ is_shape D (ndist pts) (size pts),
      forall i j, (i < ndist pts)%N -> used d pts j -> let k := index (nth 0 pts j) (dpts pts) in
        (k != i -> `|ent D i j - E i k| <= gam u ko * off i k) /\
        (k = i -> `|ent D i j - E i k| <= gam u kd * dia i),
      forall i j, (i < ndist pts)%N -> (j < size pts)%N -> ~ used d pts j -> ent D i j = 0 &
      forall i, (i < ndist pts)%N ->
        `|\sum_(j < size pts) ent D i j| <=
        gam u (ndist pts).-1 * \sum_(j < size pts | nth 0 pts j != nth 0 (dpts pts) i) `|ent D i j|].

Section Props.
Variable F : realFieldType.
Variables (u : F) (rnd : F -> F) (sumt prodt : nat -> stree).
Hypothesis std : std_model u rnd.
Hypothesis hs : any_order sumt.
Hypothesis hp : any_order prodt.
Notation gg := (gg u).
Variables (pts : seq F) (d : string) (sw : bool) (fv : option (seq F)) (self : lagr F).
Hypothesis ok : points_ok pts d.
Hypothesis e : r_init rnd prodt pts sw d fv = Ok self.
Let xs := dpts pts.
Let m := ndist pts.
Let mE : m = size xs. Proof. exact: ndistE. Qed.
Let m0 : (0 < size xs)%N. Proof. by rewrite /xs np_unique_gt0; case: ok. Qed.
Let uq : uniq xs. Proof. exact: lt_sorted_uniq (np_unique_srt pts). Qed.

Lemma expand (g : nat -> nat -> F) :
  exists2 D, map (handleDup self) (mkseq (fun i => mkseq (fun k => Fin (g i k)) (size xs)) (size xs)) = fmat D &
  [/\ is_shape D m (size pts),
      forall i j, (i < m)%N -> used d pts j -> ent D i j = g i (index (nth 0 pts j) xs),
      forall i j, (i < m)%N -> (j < size pts)%N -> ~ used d pts j -> ent D i j = 0 &
      forall i, (i < m)%N -> \sum_(j < size pts) ent D i j = \sum_(k < size xs) g i k /\
        \sum_(j < size pts | nth 0 pts j != nth 0 xs i) `|ent D i j| =
        \sum_(k < size xs | k != i :> nat) `|g i k|].
Proof.
have [[_ upE dpE _] _] := r_init_good std hp ok e.
exists (mkseq (fun i => mkseq (outc pts d (g i)) (size pts)) (size xs)).
  rewrite /fmat !map_mkseq; apply: eq_mkseq_in => i il.
  by rewrite (handleDupE (points_admissible ok) dpE) map_mkseq.
have entE i j : (i < m)%N -> (j < size pts)%N ->
   ent (mkseq (fun i => mkseq (outc pts d (g i)) (size pts)) (size xs)) i j = outc pts d (g i) j.
  by move=> il jl; rewrite /ent nth_mkseq -?mE // nth_mkseq.
split.
- rewrite /is_shape size_mkseq -mE eqxx /=; apply/allP => r /mapP [t _ ->].
  by rewrite size_mkseq.
- move=> i j il us; have jl : (j < size pts)%N by case: us.
  by rewrite entE // /outc; case: (selb_used ok jl).
- by move=> i j il jl; rewrite entE // /outc; case: (selb_used ok jl).
move=> i il; split.
  transitivity (\sum_(j < size pts) outc pts d (g i) j * 1).
    by apply: eq_bigr => j _; rewrite entE // mulr1.
  rewrite (outc_sum pts d (g i) (fun=> 1)).
  by apply: eq_bigr => j _; rewrite mulr1.
transitivity (\sum_(j < size pts) outc pts d (fun k => `|g i k|) j * (nth 0 pts j != nth 0 xs i)%:R).
  rewrite big_mkcond; apply: eq_bigr => j _; rewrite entE //.
  by case: ifP => _; rewrite ?mulr0 // mulr1 /outc; case: ifP; rewrite ?normr0.
rewrite (outc_sum pts d (fun k => `|g i k|) (fun j => (nth 0 pts j != nth 0 xs i)%:R)) [RHS]big_mkcond.
apply: eq_bigr => k _; rewrite nth_seln // -/(dpts pts) -/xs nth_uniq -?mE //.
by case: ifP => _; rewrite ?mulr1 ?mulr0.
Qed.

Section Small.
Hypothesis small : (10 * m + 9)%:R * u < 1.
Lemma small_le k : (k <= 10 * m + 9)%N -> k%:R * u < 1.
Proof.
move=> le; apply: le_lt_trans small; rewrite ler_wpmul2r ?ler_nat //.
by case: std => /andP [].
Qed.

(* C80: first and second derivatives *)
Theorem C80_derivatives :
  exists D1 D2,
  [/\ r_derivM rnd sumt self (OInt 1) true = Ok (DOne (fmat D1)),
      r_derivM rnd sumt self (OInt 2) true = Ok (DOne (fmat D2)),
      r_derivM rnd sumt self (OStr "ALL") true = Ok (DBoth (fmat D1) (fmat D2)),
      deriv_err u pts d (4 * m + 4) (5 * m + 3) (ld1 xs) (fun i k => `|ld1 xs i k|) (dmag1 xs) D1 &
      deriv_err u pts d (9 * m + 10) (10 * m + 9) (ld2 xs) (dmag2 xs)
        (fun i => \sum_(k < m | k != i :> nat) dmag2 xs i k) D2].
Proof.
have [[_ upE dpE [c c0 [W wE wN]]] _] := r_init_good std hp ok e.
have [g1 e1 h1] := r_D1E std hs uq m0 c0 upE wE wN.
have [g2 e2 h2] := r_D2E std hs uq m0 c0 upE wE wN.
have [D1 f1 [s1 u1 n1 r1]] := expand g1; have [D2 f2 [s2 u2 n2 r2]] := expand g2.
have m1 : (m.-1 <= 10 * m + 9)%N by clear; lia.
have k1 : (2 * (2 * size xs) + 4 = 4 * m + 4)%N by rewrite mE; clear; lia.
have k1' : (2 * (2 * size xs) + 4 + (size xs).-1 = 5 * m + 3)%N by move: m0; rewrite mE; clear; lia.
have k2 : (((2 * (2 * size xs) + 4).+1 + (2 * (2 * size xs) + 4 + (size xs).-1).+1).+1 = 9 * m + 10)%N.
  by move: m0; rewrite mE; clear; lia.
have k2' : (((2 * (2 * size xs) + 4).+1 + (2 * (2 * size xs) + 4 + (size xs).-1).+1).+1 + (size xs).-1 = 10 * m + 9)%N.
  by move: m0; rewrite mE; clear; lia.
have kl j : used d pts j -> (index (nth 0%R pts j) xs < size xs)%N.
  by case=> jl _; rewrite index_mem /xs mem_np_unique mem_nth.
exists D1, D2; rewrite /r_derivM /= e1 e2 f1 f2; split=> //.
  split=> //.
    move=> i j il us k; rewrite u1 // -/k; have kl' := kl j us; rewrite -/k in kl'.
    have il' : (i < size xs)%N by rewrite -mE.
    have [a1 a2 _] := h1 i il'; split.
      move=> ki; rewrite (@ld1_off F xs) // 1?eq_sym //; rewrite -/xs k1 in a1.
      apply: (le_trans (near_err std (a1 k kl' ki))); rewrite ler_wpmul2r // (gg_gam std) // small_le //.
      by clear; lia.
    move=> ->; rewrite (@ld1_diag F xs) // (@dmag1E F xs) //; rewrite -/xs k1' in a2.
    by apply: (aerr_gam std) a2; apply: small_le; clear; lia.
  move=> i il; have [-> ->] := r1 i il; have il' : (i < size xs)%N by rewrite -mE.
  have [_ _ a] := h1 i il'.
  apply: (le_trans a); rewrite -mE ler_wpmul2r ?sumr_ge0 // (gg_gam std) // small_le //.
split=> //.
  move=> i j il us k; rewrite u2 // -/k; have kl' := kl j us; rewrite -/k in kl'.
  have il' : (i < size xs)%N by rewrite -mE.
  have [a1 a2 _] := h2 i il'; split.
    move=> ki; have ik : i != k by rewrite eq_sym.
    rewrite (@ld2_off F xs) // (@dmag2E F xs) //; rewrite -/xs k2 in a1.
    by apply: (aerr_gam std) (a1 k kl' ki); apply: small_le; move: m0; rewrite -mE; clear; lia.
  have sm : \sum_(q < m | q != i :> nat) dmag2 xs i q = \sum_(q < size xs) mag2 xs i q.
    by rewrite mE (@sum_mag2 F xs).
  move=> ->; rewrite (@ld2_diag F xs) // sm; rewrite -/xs k2' in a2.
  by apply: (aerr_gam std) a2; apply: small_le; clear; lia.
move=> i il; have [-> ->] := r2 i il; have il' : (i < size xs)%N by rewrite -mE.
  have [_ _ a] := h2 i il'.
by apply: (le_trans a); rewrite -mE ler_wpmul2r ?sumr_ge0 // (gg_gam std) // small_le.
Qed.
End Small.
End Props.

(* two points, float64 and sums by halves *)
Section Example80.
Notation RF := r_realFieldType.
Let pts : seq RF := [:: 0; 1].
Lemma gam20 k : (k <= 20)%N -> gam (u64 : RF) k <= 2%:R ^- 48.
Proof.
have [u0 u1 u32] := u64_facts => kl; rewrite /gam -u32.
have h : k%:R * u64 <= 5%:R^-1 :> RF.
  apply: (le_trans (ler_pmul _ (ltW u0) (_ : k%:R <= 20%:R) u1)); rewrite ?ler0n ?ler_nat //.
  by rewrite ler_pdivr_mulr ?ltr0n // mulrC ler_pdivl_mulr ?ltr0n // -natrM ler_nat.
have p : 0 < 1 - k%:R * u64 :> RF.
  by rewrite subr_gt0; apply: (le_lt_trans h); rewrite invf_lt1 ?ltr0n // ltr1n.
rewrite ler_pdivr_mulr //.
apply: le_trans (_ : 20%:R * u64 <= _); first by rewrite ler_wpmul2r ?(ltW u0) // ler_nat.
rewrite mulrAC ler_wpmul2r ?(ltW u0) //.
apply: le_trans (_ : 32%:R * (1 - 5%:R^-1) <= _); last by rewrite ler_wpmul2l ?ler0n // ler_sub.
have -> : 32%:R * (1 - 5%:R^-1) = 128%:R / 5%:R :> RF by field.
by rewrite ler_pdivl_mulr ?ltr0n // -natrM ler_nat.
Qed.
Let ptsk : points_ok pts "USE_LEFT". Proof. exact: pts_ok. Qed.
Lemma ldv : [/\ ld1 pts 0 0 = -1, ld1 pts 0 1 = 1, ld1 pts 1 0 = -1 & ld1 pts 1 1 = 1].
Proof.
have p0 : lpoly pts 0 = 1 - 'X.
  rewrite /lpoly big_mkcond !big_ord_recl big_ord0 /= mul1r mulr1 sub0r invrN1 scaleN1r opprB.
  by rewrite polyC1.
have p1 : lpoly pts 1 = 'X.
  by rewrite /lpoly big_mkcond !big_ord_recl big_ord0 /= mulr1 mulr1 subr0 invr1 scale1r polyC0 subr0.
by rewrite /ld1 p0 p1 !derivE !hornerE.
Qed.

Example C80_nonvacuous :
  [/\ std_model (F := RF) u64 f64, any_order pairt, points_ok pts "USE_LEFT" &
      (10 * ndist pts + 9)%:R * u64 < 1 :> RF] /\
  exists2 self, r_init f64 pairt pts true "USE_LEFT" None = Ok self &
  exists2 D, r_derivM f64 pairt self (OInt 1) true = Ok (DOne (fmat D)) &
    [/\ `|ent D 0 0 - -1| <= 2%:R ^- 48, `|ent D 0 1 - 1| <= 2%:R ^- 48,
        `|ent D 1 0 - -1| <= 2%:R ^- 48 & `|ent D 1 1 - 1| <= 2%:R ^- 48].
Proof.
have [u0 u1 u32] := u64_facts.
have n2 : ndist pts = 2%N := ndistE2.
have sm : (10 * ndist pts + 9)%:R * u64 < 1 :> RF.
  rewrite n2; apply: (le_lt_trans (ler_wpmul2l (ler0n _ 29) u1)).
  by rewrite ltr_pdivr_mulr ?ltr0n // mul1r ltr_nat.
split; first by split; [exact: C79_float64|exact: pairt_order| |].
have [self e _] := C79_init C79_float64 pairt_order true (fv := None) ptsk I; exists self => //.
have [D [_ [eD _ _ [_ hD _ _] _]]] := C80_derivatives C79_float64 pairt_order pairt_order ptsk e sm.
exists D => //.
have dE : dpts pts = pts := dptsE.
have us j : (j < 2)%N -> used "USE_LEFT" pts j.
  move=> jl; split=> //= k kj; apply/eqP; rewrite nth_uniq /= ?ltr01 //; first by rewrite neq_ltn kj.
    exact: ltn_trans kj jl.
  by rewrite inE eq_sym oner_neq0.
have ix j : (j < 2)%N -> index (nth 0 pts j) (dpts pts) = j.
  by move=> jl; rewrite dE index_uniq //= inE eq_sym oner_neq0.
have [v00 v01 v10 v11] := ldv.
have dm i : (i < 2)%N -> dmag1 pts i = 1.
  case: i => [|[|//]] _; rewrite /dmag1 big_mkcond !big_ord_recl big_ord0 /= -?[bump 0 0]/1%N ?v01 ?v10;
  by rewrite ?normrN normr1 ?addr0 ?add0r.
have fin i j : (i < 2)%N -> (j < 2)%N -> `|ent D i j - ld1 pts i j| <= 2%:R ^- 48.
  move=> il jl; have il' : (i < ndist pts)%N by rewrite n2.
  have [] := hD i j il' (us j jl); rewrite (ix j jl) dE n2 => h1 h2.
  have [ji|/eqP ji] := j =P i.
    by apply: (le_trans (h2 ji)); rewrite dm // mulr1 gam20.
  apply: (le_trans (h1 ji)); have -> : `|ld1 pts i j| = 1; last by rewrite mulr1 gam20.
  by case: i il {il' h1 h2} ji => [|[|//]] _; case: j jl => [|[|//]] _; rewrite // ?v01 ?v10 ?normrN normr1.
split.
- by have := fin 0%N 0%N isT isT; rewrite v00.
- by have := fin 0%N 1%N isT isT; rewrite v01.
- by have := fin 1%N 0%N isT isT; rewrite v10.
- by have := fin 1%N 1%N isT isT; rewrite v11.
Qed.
End Example80.

Print Assumptions C80_derivatives.
