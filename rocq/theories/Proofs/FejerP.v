(* Proofs about computeFejerRule. *)
From Coq Require Import Reals.
From Verif.Base Require Import Str.
From mathcomp Require Import all_ssreflect all_algebra ring zify.
From Verif.Base Require Import RField Outcome PolyInterp PolyInt.
From Verif.Model Require Import Fejer.
From Verif.Proofs Require Import ChebP.
Set Implicit Arguments.
Unset Strict Implicit.
Unset Printing Implicit Defensive.
Import GRing.Theory Num.Theory Order.TTheory.
Local Open Scope ring_scope.
(* operations on R are those of the field structure *)
Bind Scope ring_scope with R.
Local Arguments cos x%R.
Local Arguments sin x%R.

(* trigonometry in terms of the ring operations *)
Lemma rcosD (x y : R) : cos (x + y) = cos x * cos y - sin x * sin y. Proof. exact: cos_plus. Qed.
Lemma rsinD (x y : R) : sin (x + y) = sin x * cos y + cos x * sin y. Proof. exact: sin_plus. Qed.
Lemma rcosN (x : R) : cos (- x) = cos x. Proof. exact: cos_neg. Qed.
Lemma rsinN (x : R) : sin (- x) = - sin x. Proof. exact: sin_neg. Qed.
Lemma rcos0 : cos 0 = 1. Proof. exact: cos_0. Qed.
Lemma rsin0 : sin 0 = 0. Proof. exact: sin_0. Qed.
Lemma rcosPI : cos PI = -1. Proof. exact: cos_PI. Qed.
Lemma rsinPI : sin PI = 0. Proof. exact: sin_PI. Qed.
Lemma rcosB (x y : R) : cos (x - y) = cos x * cos y + sin x * sin y.
Proof. by rewrite rcosD rcosN rsinN mulrN opprK. Qed.
Lemma rsinB (x y : R) : sin (x - y) = sin x * cos y - cos x * sin y.
Proof. by rewrite rsinD rcosN rsinN mulrN. Qed.

Lemma nat2 k : (2 * k + 1)%:R = 2%:R * k%:R + 1 :> R.
Proof. by rewrite [LHS]natrD natrM. Qed.

Lemma sin_nPI (n : nat) : sin (n%:R * PI) = 0.
Proof.
elim: n => [|n ih]; first by rewrite mulr0n mul0r rsin0.
by rewrite -addn1 natrD mulrDl mul1r rsinD ih rsinPI mul0r mulr0 addr0.
Qed.
Lemma cos_n2PI (n : nat) : cos (n%:R * (2%:R * PI)) = 1.
Proof.
have c2 : cos (2%:R * PI) = 1.
  have -> : 2%:R * PI = PI + PI :> R by ring.
  by rewrite rcosD rcosPI rsinPI; ring.
elim: n => [|n ih]; first by rewrite mulr0n mul0r rcos0.
have s2 : sin (2%:R * PI) = 0 by exact: (sin_nPI 2).
by rewrite -addn1 natrD mulrDl mul1r rcosD ih c2 s2; ring.
Qed.
Lemma sin_n2PI (n : nat) : sin (n%:R * (2%:R * PI)) = 0.
Proof. by rewrite mulrA -natrM sin_nPI. Qed.

Lemma cos_cheb n (t : R) : (chebT r_realFieldType n).[cos t] = cos (n%:R * t).
Proof.
elim/ind2: n => [||n h1 h2].
- by rewrite chebT0 hornerC mulr0n mul0r rcos0.
- by rewrite chebT1 hornerX mul1r.
rewrite chebT_rec hornerD hornerN hornerZ hornerM hornerX h1 h2.
have -> : n.+2%:R * t = n.+1%:R * t + t by rewrite -[n.+2]addn1 natrD mulrDl mul1r.
have -> : n%:R * t = n.+1%:R * t - t by rewrite -[n.+1]addn1 natrD mulrDl mul1r addrK.
by rewrite rcosB rcosD; ring.
Qed.

Section Rule.
Variable n : nat.
Hypothesis n0 : (0 < n)%N.
Let nz : n%:R != 0 :> R. Proof. by rewrite pnatr_eq0 -lt0n. Qed.
Let m := (n - n %/ 2)%N.
Definition th (j : nat) : R := (j%:R * 2%:R + 1) * (PI / (2 * n)%:R).
Definition cf (k : nat) : R := if (k < m)%N then 2%:R / (1 - 4%:R * k%:R ^+ 2) else 0.

Lemma thE j : 2%:R * th j = (j%:R * 2%:R + 1) * (PI / n%:R).
Proof. by rewrite /th natrM; field. Qed.

Lemma size_v0 : size (fejer_v0 n) = n.+1.
Proof. by rewrite size_cat size_map size_iota size_nseq; lia. Qed.

Lemma nth_v0 k : (k <= n)%N ->
  nth (0, 0) (fejer_v0 n) k = (cf k * cos (k%:R * (PI / n%:R)), cf k * sin (k%:R * (PI / n%:R))).
Proof.
move=> kn; rewrite /fejer_v0 nth_cat size_map size_iota -/m /cf.
have e : PI * k%:R / n%:R = k%:R * (PI / n%:R) :> R by rewrite mulrA [PI * _]mulrC.
case: ifP => km; last by rewrite nth_nseq !mul0r if_same.
rewrite (nth_map 0%N) ?size_iota // nth_iota // add0n /cdivr /cscale /cexpi /= e.
by congr pair; apply: mulrAC.
Qed.

Lemma cf_n : cf n = 0.
Proof. by rewrite /cf ltnNge (_ : (m <= n)%N) //; apply: leq_subr. Qed.

Lemma size_v1 : size (fejer_v1 (fejer_v0 n)) = n.
Proof.
rewrite size_map size_zip size_map size_rev size_behead size_take size_v0 /=.
by rewrite ltnSn minnn.
Qed.

Lemma nth_v1 k : (k < n)%N -> nth (0, 0) (fejer_v1 (fejer_v0 n)) k =
  cadd (cconj (nth (0, 0) (fejer_v0 n) (n - k))) (nth (0, 0) (fejer_v0 n) k).
Proof.
move=> kn; rewrite (nth_map ((0, 0), (0, 0))); last first.
  by have := size_v1; rewrite size_map => ->.
rewrite nth_zip /=; last first.
  by rewrite size_map size_rev size_behead size_take size_v0 /= ltnSn.
rewrite nth_take ?size_v0 //= (nth_map (0, 0)); last by rewrite size_rev size_behead size_v0.
rewrite nth_rev size_behead size_v0 //= nth_behead; congr (cadd (cconj (nth _ _ _)) _).
by lia.
Qed.

Lemma csumE (s : seq cx) : csum s = (\sum_(a <- s) a.1, \sum_(a <- s) a.2).
Proof. by elim: s => [|a s ih]; rewrite ?big_nil // !big_cons /= -/(csum s) ih. Qed.

Lemma csum_mkseq (f : nat -> cx) : csum (mkseq f n) = (\sum_(k < n) (f k).1, \sum_(k < n) (f k).2).
Proof.
have si (g : nat -> R) : \sum_(k <- iota 0 n) g k = \sum_(k < n) g k.
  by rewrite -(big_mkord xpredT g) /index_iota subn0.
by rewrite csumE !big_map (si (fun k => (f k).1)) (si (fun k => (f k).2)).
Qed.

(* the weights are real *)
Lemma nth_w j : (j < n)%N ->
  nth (0, 0) (ifft (fejer_v1 (fejer_v0 n))) j =
  ((\sum_(k < n) cf k * cos (k%:R * (2%:R * th j)) + \sum_(k < n) cf k.+1 * cos (k.+1%:R * (2%:R * th j))) / n%:R, 0).
Proof.
move=> jn; rewrite /ifft size_v1 nth_mkseq //.
set ph := 2%:R * th j.
have term k : (k < n)%N ->
    cmul (nth (0, 0) (fejer_v1 (fejer_v0 n)) k) (cexpi (2%:R * PI * (j * k)%:R / n%:R)) =
    (cf (n - k) * cos ((n - k)%:R * ph) + cf k * cos (k%:R * ph),
     cf k * sin (k%:R * ph) - cf (n - k) * sin ((n - k)%:R * ph)).
  move=> kn; rewrite nth_v1 // !nth_v0 ?leq_subr //; last exact: ltnW.
  set b := 2%:R * PI * (j * k)%:R / n%:R; set u := k%:R * (PI / n%:R); set v := (n - k)%:R * (PI / n%:R).
  have e1 : k%:R * ph = u + b.
    by rewrite /ph thE /u /b natrM; move: (j%:R) (k%:R) (n%:R) nz => x y z z0; field.
  have e2 : (n - k)%:R * ph = v - b + j%:R * (2%:R * PI).
    rewrite /ph thE /v /b natrM natrB; last exact: ltnW.
    by move: (j%:R) (k%:R) (n%:R) nz => x y z z0; field.
  rewrite e1 e2 !rcosD !rsinD cos_n2PI sin_n2PI rcosN rsinN.
  rewrite /cmul /cadd /cconj /cexpi /= -/b.
  move: (cf _) (cf _) (cos u) (sin u) (cos v) (sin v) (cos b) (sin b) => *.
  by congr pair; ring.
have -> : csum (mkseq (fun k => cmul (nth (0, 0) (fejer_v1 (fejer_v0 n)) k)
      (cexpi (2%:R * PI * (j * k)%:R / n%:R))) n) =
    (\sum_(k < n) (cf (n - k) * cos ((n - k)%:R * ph) + cf k * cos (k%:R * ph)),
     \sum_(k < n) (cf k * sin (k%:R * ph) - cf (n - k) * sin ((n - k)%:R * ph))).
  by rewrite csum_mkseq; congr pair; apply: eq_bigr => k _; rewrite term.
rewrite /cdivr /=.
have rv (f : nat -> R) : \sum_(k < n) f (n - k)%N = \sum_(k < n) f k.+1.
  rewrite (reindex_inj rev_ord_inj) /=; apply: eq_bigr => k _; congr f.
  by have := ltn_ord k; lia.
have shift (f : nat -> R) : f 0%N = 0 -> f n = 0 -> \sum_(k < n) f k.+1 = \sum_(k < n) f k.
  move=> f0 fn.
  have : \sum_(k < n.+1) f k = \sum_(k < n) f k by rewrite big_ord_recr /= fn addr0.
  by rewrite big_ord_recl f0 add0r => <-; apply: eq_bigr.
rewrite sumrB !big_split /= (rv (fun k => cf k * cos (k%:R * ph))) (rv (fun k => cf k * sin (k%:R * ph))).
rewrite (shift (fun k => cf k * sin (k%:R * ph))) ?subrr ?mul0r //; first by rewrite addrC.
  by rewrite rsin0 mulr0.
by rewrite cf_n mul0r.
Qed.

(* angles *)
Lemma th_range j : (j < n)%N -> (0 < th j) /\ (th j < PI).
Proof.
move=> jn; have pp : 0 < PI by apply/rltE; apply: PI_RGT_0.
have np : 0 < (2 * n)%:R :> R by rewrite ltr0n muln_gt0.
have e : j%:R * 2%:R + 1 = (2 * j + 1)%:R :> R by rewrite natrD natrM mulrC.
split; first by rewrite /th e mulr_gt0 ?divr_gt0 // ltr0n addn1.
rewrite /th e mulrA ltr_pdivr_mulr // mulrC ltr_pmul2l // ltr_nat; lia.
Qed.

Lemma th_rev j : (j < n)%N -> th (n - j.+1) = PI - th j.
Proof.
move=> jn; rewrite /th natrB // -[j.+1]addn1 natrD natrM.
by move: (j%:R) (n%:R) nz => x y y0; field.
Qed.

(* sums over the nodes *)
Lemma sum_cos s : (0 < s < 2 * n)%N -> \sum_(j < n) cos (s%:R * th j) = 0.
Proof.
move=> /andP [s0 s2]; pose a : R := s%:R * (PI / (2 * n)%:R).
have pp : 0 < PI by apply/rltE; apply: PI_RGT_0.
have np : 0 < (2 * n)%:R :> R by rewrite ltr0n muln_gt0.
have sa : sin a != 0.
  apply: lt0r_neq0; apply/rltE; apply: sin_gt_0; apply/rltE.
    by rewrite mulr_gt0 ?ltr0n // divr_gt0.
  by rewrite /a mulrA ltr_pdivr_mulr // mulrC ltr_pmul2l // ltr_nat.
apply/eqP; rewrite -(mulrI_eq0 _ (mulfI (_ : 2%:R * sin a != 0))); last first.
  by rewrite mulf_neq0 // pnatr_eq0.
rewrite mulr_sumr; apply/eqP.
have tel k : \sum_(j < k) 2%:R * sin a * cos (s%:R * th j) = sin ((2 * k)%:R * a).
  elim: k => [|k ih]; first by rewrite big_ord0 muln0 mulr0n mul0r rsin0.
  rewrite big_ord_recr /= ih.
  have -> : s%:R * th k = (2 * k)%:R * a + a.
    by rewrite /th /a [(2 * k)%:R]natrM; move: (PI / _) (k%:R) => x y; ring.
  have -> : (2 * k.+1)%:R * a = (2 * k)%:R * a + a + a.
    by rewrite mulnS -addrA -mulr2n -[a *+ 2]mulr_natl -mulrDl -natrD addnC.
  have -> : (2 * k)%:R * a = (2 * k)%:R * a + a - a by rewrite addrK.
  by rewrite addrNK; move: (_ + a) => w; rewrite rsinB rsinD; ring.
rewrite tel /a mulrCA [(2 * n)%:R * _]mulrC divfK ?lt0r_neq0 //.
exact: sin_nPI.
Qed.

Lemma sum_cos0 : \sum_(j < n) cos (0%:R * th j) = n%:R.
Proof.
under eq_bigr => j _ do rewrite mulr0n mul0r rcos0.
by rewrite sumr_const card_ord.
Qed.

Lemma sum_cosE s : (s < 2 * n)%N -> \sum_(j < n) cos (s%:R * th j) = if s == 0%N then n%:R else 0.
Proof.
by case: s => [_|s s2]; [rewrite sum_cos0|rewrite sum_cos].
Qed.

Lemma sum_cos2 k r : (k < m)%N -> (r <= n)%N ->
  \sum_(j < n) cos (k%:R * (2%:R * th j)) * cos (r%:R * th j) =
  n%:R / 2%:R * ((2 * k + r == 0)%N%:R + (2 * k == r)%N%:R).
Proof.
move=> km rn; have k2 : (2 * k < n)%N by move: km; rewrite /m; lia.
have two : 2%:R != 0 :> R by rewrite pnatr_eq0.
apply: (mulfI two); rewrite mulr_sumr.
pose d := if (r <= 2 * k)%N then (2 * k - r)%N else (r - 2 * k)%N.
have -> : \sum_(j < n) 2%:R * (cos (k%:R * (2%:R * th j)) * cos (r%:R * th j)) =
   \sum_(j < n) cos ((2 * k + r)%:R * th j) + \sum_(j < n) cos (d%:R * th j).
  rewrite -big_split /=; apply: eq_bigr => j _.
  rewrite natrD natrM mulrDl [2%:R * k%:R]mulrC -[k%:R * 2%:R * _]mulrA.
  have -> : cos (d%:R * th j) = cos (k%:R * (2%:R * th j) - r%:R * th j).
    rewrite /d; case: leqP => h; first by rewrite natrB // natrM mulrBl mulrA [2%:R * k%:R]mulrC.
    rewrite natrB ?natrM; last exact: ltnW.
    by rewrite mulrBl -rcosN opprB mulrA [2%:R * k%:R]mulrC.
  by rewrite rcosB rcosD; ring.
rewrite !sum_cosE; [|by rewrite /d; case: (leqP r) => ?; lia|by lia].
have -> : (d == 0%N) = (2 * k == r)%N by rewrite /d; case: (leqP r) => ?; lia.
by case: eqP => _; case: eqP => _ /=; field.
Qed.

(* the weights *)
Definition wt (j : nat) : R :=
  (\sum_(k < n) cf k * cos (k%:R * (2%:R * th j)) + \sum_(k < n) cf k.+1 * cos (k.+1%:R * (2%:R * th j))) / n%:R.

Lemma wt_rev j : (j < n)%N -> wt (n - j.+1) = wt j.
Proof.
move=> jn; have c k : cos (k%:R * (2%:R * th (n - j.+1))) = cos (k%:R * (2%:R * th j)).
  have -> : k%:R * (2%:R * th (n - j.+1)) = k%:R * (2%:R * PI) - k%:R * (2%:R * th j).
    by rewrite th_rev //; ring.
  by rewrite rcosB cos_n2PI sin_n2PI mul1r mul0r addr0.
by rewrite /wt; congr ((_ + _) / _); apply: eq_bigr => k _; rewrite c.
Qed.

Lemma wt_cheb r : (r < n)%N || (r == n) && odd n ->
  \sum_(j < n) wt j * cos (r%:R * th j) = if odd r then 0 else 2%:R / (1 - r%:R ^+ 2).
Proof.
move=> hr; have rn : (r <= n)%N by case/orP: hr => [/ltnW //|/andP [/eqP ->]].
have S k : cf k * (\sum_(j < n) cos (k%:R * (2%:R * th j)) * cos (r%:R * th j)) =
    cf k * (n%:R / 2%:R * ((2 * k + r == 0)%N%:R + (2 * k == r)%N%:R)).
  rewrite /cf; case: ifP => km; last by rewrite !mul0r.
  by rewrite sum_cos2.
have -> : \sum_(j < n) wt j * cos (r%:R * th j) =
    (\sum_(k < n) cf k * (n%:R / 2%:R * ((2 * k + r == 0)%N%:R + (2 * k == r)%N%:R)) +
     \sum_(k < n) cf k.+1 * (n%:R / 2%:R * ((2 * k.+1 + r == 0)%N%:R + (2 * k.+1 == r)%N%:R))) / n%:R.
  have ex (f : nat -> nat) : \sum_(j < n) (\sum_(k < n) cf (f k) * cos ((f k)%:R * (2%:R * th j))) * cos (r%:R * th j) =
      \sum_(k < n) cf (f k) * (n%:R / 2%:R * ((2 * f k + r == 0)%N%:R + (2 * f k == r)%N%:R)).
    under eq_bigr => j _ do rewrite mulr_suml.
    rewrite exchange_big /=; apply: eq_bigr => k _; rewrite -S mulr_sumr.
    by apply: eq_bigr => j _; apply/esym; apply: mulrA.
  rewrite -(ex (fun k => k)) -(ex (fun k => k.+1)) -big_split /= mulr_suml.
  by apply: eq_bigr => j _; rewrite -mulrDl mulrAC.
pose G k := cf k * (n%:R / 2%:R * ((2 * k + r == 0)%N%:R + (2 * k == r)%N%:R)).
rewrite -[X in (X + _) / _]/(\sum_(k < n) G k) -[X in (_ + X) / _]/(\sum_(k < n) G k.+1).
have one (f : nat -> R) i : (i < n)%N -> (forall k, k != i -> f k = 0) -> \sum_(k < n) f k = f i.
  move=> il z; rewrite (bigD1 (Ordinal il)) //= big1 ?addr0 // => k ki; apply: z.
  by apply: contraNneq ki => e; apply/eqP/val_inj.
have G0 k : (0 < 2 * k + r)%N -> (2 * k != r)%N -> G k = 0.
  by move=> h1 h2; rewrite /G gtn_eqF // (negPf h2) addr0 !mulr0.
have two : 2%:R != 0 :> R by rewrite pnatr_eq0.
case od : (odd r).
  have ne k : (2 * k != r)%N by apply/negP => /eqP e; move: od; rewrite -e mul2n odd_double.
  have r0 : (0 < r)%N by case: (r) od.
  have p k : (0 < 2 * k + r)%N by lia.
  by rewrite !big1 ?addr0 ?mul0r // => k _; apply: G0.
have rE : r = (2 * r./2)%N by rewrite mul2n -[LHS]odd_double_half od.
have qm : (r./2 < m)%N.
  by rewrite /m; case/orP: hr => [|/andP [/eqP e on]]; [|move: od; rewrite e on]; lia.
have mn : (m <= n)%N by apply: leq_subr.
have cfr : cf r./2 = 2%:R / (1 - r%:R ^+ 2).
  have e : r%:R = 2%:R * (r./2)%:R :> R by rewrite {1}rE natrM.
  by rewrite /cf qm e; congr (_ / (1 - _)); ring.
rewrite (one G r./2) ?(leq_trans qm) //; last by move=> k ki; apply: G0; lia.
case: (posnP r) => r0.
  rewrite big1 ?addr0; last by move=> k _; apply: G0; lia.
  rewrite /G cfr r0 /=; move: (n%:R) nz => x x0; field.
  exact: x0.
rewrite (one (fun k => G k.+1) r./2.-1); last by move=> k ki; apply: G0; lia.
  rewrite prednK; last by lia.
  have e1 : ((2 * r./2 + r)%N == 0%N) = false by lia.
  have e2 : ((2 * r./2)%N == r) = true by lia.
  rewrite /G cfr e1 e2 /=; move: (n%:R) (_ / (1 - _)) nz => x y x0; field.
  exact: x0.
lia.
Qed.

(* positivity: the partial sums of 2/(4k^2-1) stay below 1 *)
Lemma wt_gt0 j : 0 < wt j.
Proof.
rewrite /wt divr_gt0 ?ltr0n //.
have cf0 : cf 0 = 2%:R.
  by rewrite /cf (_ : (0 < m)%N) ?mulr0n ?expr0n /= ?mulr0 ?subr0 ?divr1 // /m; lia.
have d0 k : 0 < 4%:R * (k.+1%:R : R) ^+ 2 - 1.
  rewrite subr_gt0 -natrX -natrM -[1]/(1%:R) ltr_nat; nia.
have up k : - (1 / (2 * k + 1)%:R - 1 / (2 * k.+1 + 1)%:R) <= cf k.+1 * cos (k.+1%:R * (2%:R * th j)).
  have cc : `|cos (k.+1%:R * (2%:R * th j))| <= 1.
    rewrite ler_norml; have [h1 h2] := COS_bound (k.+1%:R * (2%:R * th j)).
    by apply/andP; split; apply/rleE.
  have dE : 1 / (2 * k + 1)%:R - 1 / (2 * k.+1 + 1)%:R = 2%:R / (4%:R * (k.+1%:R : R) ^+ 2 - 1).
    have -> : 4%:R * (k.+1%:R : R) ^+ 2 - 1 = (2 * k + 1)%:R * (2 * k.+1 + 1)%:R.
      by rewrite !nat2 -[k.+1]addn1 [(k + 1)%:R]natrD; ring.
    have e : (2 * k.+1 + 1)%:R = (2 * k + 1)%:R + 2%:R :> R by rewrite -natrD; congr _%:R; lia.
    have n1 : (2 * k + 1)%:R != 0 :> R by rewrite pnatr_eq0; lia.
    have n2 : (2 * k + 1)%:R + 2%:R != 0 :> R by rewrite -e pnatr_eq0; lia.
    by rewrite e; move: (2 * k + 1)%:R n1 n2 => x x1 x2; field; rewrite x1 x2.
  rewrite dE ler_oppl; apply: (le_trans (ler_norm _)); rewrite normrN normrM.
  apply: (@le_trans _ _ (`|cf k.+1| * 1)); first by rewrite ler_wpmul2l.
  rewrite mulr1 /cf; case: ifP => _; last by rewrite normr0 divr_ge0 ?ler0n // ltW.
  rewrite normrM normfV -opprB normrN (gtr0_norm (d0 k)) gtr0_norm ?ltr0n //.
have tel K : \sum_(k < K) - (1 / (2 * k + 1)%:R - 1 / (2 * k.+1 + 1)%:R) = (1 / (2 * K + 1)%:R - 1 : R).
  elim: K => [|K ih]; first by rewrite big_ord0 muln0 divr1 subrr.
  by rewrite big_ord_recr /= ih; ring.
have low K : 1 / (2 * K + 1)%:R - 1 <= \sum_(k < K) cf k.+1 * cos (k.+1%:R * (2%:R * th j)).
  by rewrite -tel; apply: ler_sum => k _; apply: up.
have pos K : 0 < (1 / (2 * K + 1)%:R : R) by rewrite divr_gt0 ?ltr01 // ltr0n addn1.
have rl N (f : nat -> R) : (0 < N)%N -> \sum_(k < N) f k = f 0%N + \sum_(k < N.-1) f k.+1.
  by case: N => // N _; rewrite big_ord_recl.
rewrite (rl n (fun k => cf k * cos (k%:R * (2%:R * th j)))) // cf0 mulr0n mul0r rcos0 mulr1.
have l1 := low n.-1; have l2 := low n; have p1 := pos n.-1; have p2 := pos n.
apply: (@lt_le_trans _ _ (2%:R + (1 / (2 * n.-1 + 1)%:R - 1) + (1 / (2 * n + 1)%:R - 1))).
  have -> (x y : R) : 2%:R + (x - 1) + (y - 1) = x + y by ring.
  exact: addr_gt0.
by rewrite ler_add // ler_add.
Qed.

Lemma fejer_ok : computeFejerRule n = Ok (fejer_nodes n, mkseq wt n).
Proof.
have sw : size (ifft (fejer_v1 (fejer_v0 n))) = n by rewrite size_mkseq size_v1.
have -> : computeFejerRule n = if has (fun a : cx => (10%:R ^- 15 : R) < a.2) (ifft (fejer_v1 (fejer_v0 n)))
    then Raise ValueError else Ok (fejer_nodes n, [seq a.1 | a <- ifft (fejer_v1 (fejer_v0 n))]).
  by have h := n0; case: (n) h.
have -> : has (fun a : cx => (10%:R ^- 15 : R) < a.2) (ifft (fejer_v1 (fejer_v0 n))) = false.
  apply/negP => /(has_nthP (0, 0)) [j]; rewrite sw => jn; rewrite nth_w // ltNge.
  by rewrite /= invr_ge0 exprn_ge0 // ler0n.
congr (Ok (_, _)); apply: (@eq_from_nth _ 0); rewrite size_map sw ?size_mkseq // => j jn.
by rewrite (nth_map (0, 0)) ?sw // nth_w // nth_mkseq.
Qed.

Lemma nth_node i : (i < n)%N -> nth 0 (fejer_nodes n) i = cos (th (n - i.+1)).
Proof.
move=> il; rewrite (nth_map 0%N) ?size_rev ?size_iota // nth_rev ?size_iota // nth_iota; last by lia.
congr (cos (_ * _)); rewrite natrD; set q := (n - i.+1)%:R; ring.
Qed.
Lemma size_nodes : size (fejer_nodes n) = n.
Proof. by rewrite size_map size_rev size_iota. Qed.

(* quadrature of the polynomials of degree < n, and of degree n when n is odd *)
Lemma fejer_quad (p : {poly r_realFieldType}) : (size p <= n + odd n)%N ->
  \sum_(i < n) wt i * p.[nth 0 (fejer_nodes n) i] = pint p (-1) 1.
Proof.
pose L (q : {poly r_realFieldType}) : R := \sum_(i < n) wt i * q.[nth 0 (fejer_nodes n) i] - pint q (-1) 1.
move=> sp; apply/eqP; rewrite -subr_eq0 -/(L p); apply/eqP.
apply: (@cheb_span _ L _ _ _ p sp) => [c q1 q2|r rl].
  rewrite /L pintD pintZ.
  have -> : \sum_(i < n) wt i * (c *: q1 + q2).[nth 0 (fejer_nodes n) i] =
      c * (\sum_(i < n) wt i * q1.[nth 0 (fejer_nodes n) i]) + \sum_(i < n) wt i * q2.[nth 0 (fejer_nodes n) i].
    by rewrite mulr_sumr -big_split /=; apply: eq_bigr => i _; rewrite hornerD hornerZ; ring.
  move: (\sum_(i < n) _) (\sum_(i < n) _) (pint _ _ _) (pint _ _ _) => a b u v; ring.
apply/eqP; rewrite subr_eq0 pint_chebT -wt_cheb; last first.
  by case: (odd n) rl; rewrite ?addn1 ?addn0 ?ltnS ?andbT ?andbF ?orbF // leq_eqVlt orbC.
rewrite [X in _ == X](reindex_inj rev_ord_inj) /=; apply/eqP; apply: eq_bigr => i _.
by rewrite nth_node // cos_cheb wt_rev.
Qed.

Lemma nodes_sorted : sorted <%O (fejer_nodes n).
Proof.
apply/(sortedP 0) => i; rewrite size_nodes => il.
have il' : (i < n)%N by lia.
rewrite !nth_node //; have [a1 a2] := @th_range (n - i.+1) (ltac:(lia)).
have [b1 b2] := @th_range (n - i.+2) (ltac:(lia)).
apply/rltE; apply: cos_decreasing_1; try (apply/rleE; exact: ltW).
apply/rltE; rewrite /th ltr_pmul2r; last first.
  by rewrite divr_gt0 ?ltr0n ?muln_gt0 //; apply/rltE; apply: PI_RGT_0.
by rewrite ltr_add2r ltr_pmul2r ?ltr0n // ltr_nat; lia.
Qed.

Lemma nodes_range i : (i < n)%N -> -1 < nth 0 (fejer_nodes n) i < 1.
Proof.
move=> il; rewrite nth_node //; have [a1 a2] := @th_range (n - i.+1) (ltac:(lia)).
have pp : 0 <= PI by apply/rleE; apply: Rlt_le PI_RGT_0.
apply/andP; split; apply/rltE.
  rewrite -[X in Rlt X _]rcosPI; apply: cos_decreasing_1; try (apply/rleE => //; exact: ltW); exact/rltE.
rewrite -[X in Rlt _ X]rcos0; apply: cos_decreasing_1; try (apply/rleE => //; exact: ltW); exact/rltE.
Qed.

Lemma nodes_sym i : (i < n)%N -> nth 0 (fejer_nodes n) (n - i.+1) = - nth 0 (fejer_nodes n) i.
Proof.
move=> il; rewrite !nth_node; [|by []|lia].
have -> : (n - (n - i.+1).+1)%N = i by lia.
by rewrite th_rev // rcosB rcosPI rsinPI; ring.
Qed.
End Rule.
