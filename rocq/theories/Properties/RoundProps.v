(* Property C79: rounding errors of the weights, of the interpolation matrix and of the evaluation
   of the interpolant (qmat/lagrange.py). *)
From Coq Require Import Reals Lra.
From Verif.Base Require Import Str Float64.
From mathcomp Require Import all_ssreflect all_algebra ring zify.
From Verif.Base Require Import RField Outcome Arr Ext PolyInterp.
From Verif.Model Require Import Lagrange Rounded.
From Verif.Spec Require Import LagrangeSpec RoundSpec.
From Verif.Proofs Require Import LagrangeP LagrangeInit LagrangeThms RoundP RoundRowP RoundExactP.
Set Implicit Arguments.
Unset Strict Implicit.
Unset Printing Implicit Defensive.
Import GRing.Theory Num.Theory Order.TTheory.
Local Open Scope ring_scope.
Bind Scope ring_scope with R.

Section Props.
Variable F : realFieldType.
Variables (u : F) (rnd : F -> F) (sumt prodt : nat -> stree).
Hypothesis std : std_model u rnd.
Hypothesis hs : any_order sumt.
Hypothesis hp : any_order prodt.
Notation gg := (gg u).

Record r_good (pts : seq F) (d : string) (self : lagr F) : Prop := RGood {
  rg_pts : points self = pts;
  rg_upts : uniquePoints self = np_unique pts;
  rg_dup : (if size pts != size (np_unique pts)
           then omapo Some (setupDuplicates d pts (np_unique pts)) else Ok None) = Ok (dup self);
  rg_w : exists2 c, c != 0 & exists2 W : nat -> F,
    weights self = mkseq (fun j => Fin (W j)) (size (np_unique pts)) &
    forall j, (j < size (np_unique pts))%N -> near u (2 * size (np_unique pts)) (c * bwn (np_unique pts) j) (W j) }.

Lemma r_initE pts sw d fv : points_ok pts d -> fv_ok pts fv ->
  exists2 self, r_init rnd prodt pts sw d fv = Ok self & r_good pts d self /\ fVals self = fv.
Proof.
move=> /points_admissible adm hf; rewrite /r_init.
have n0 : (0 < size (np_unique pts))%N by rewrite np_unique_gt0; case: adm.
have [c c0 [W -> wN]] := r_weightsE std hp (lt_sorted_uniq (np_unique_srt pts)) n0 sw.
have upE : (if size pts != size (np_unique pts) then np_unique pts else pts) = np_unique pts.
  rewrite eq_sym size_np_unique; case: (boolP (uniq pts)) => //= un.
  by rewrite np_unique_sorted //; case: adm => _ [|[]]; rewrite ?un.
rewrite upE.
have [dd dE] : exists dd, (if size pts != size (np_unique pts)
           then omapo Some (setupDuplicates d pts (np_unique pts)) else Ok None) = Ok dd.
  rewrite eq_sym size_np_unique; case: (boolP (uniq pts)) => /= nu; first by exists None.
  case: adm => _ [/lt_sorted_uniq|[_]]; first by rewrite (negPf nu).
  by rewrite /setupDuplicates -/(dup_known d) => ->; eexists.
rewrite dE /=.
case: fv hf => [f /eqP ->|_]; rewrite ?eqxx /=; eexists; try reflexivity.
all: by split=> //; split=> //; exists c => //; exists W.
Qed.
Lemma r_init_good pts sw d fv self : points_ok pts d -> r_init rnd prodt pts sw d fv = Ok self ->
  r_good pts d self /\ fVals self = fv.
Proof.
move=> ok e; have hf : fv_ok pts fv.
  move: e; rewrite /r_init; case: (if _ then _ else _) => //= dd; case: (r_weights _ _ _ _) => //= w.
  by case: fv => // f /=; case: eqP.
by have [self' e' g] := r_initE sw ok hf; move: e'; rewrite e => -[->].
Qed.

(* C79: a constructor call in rounded arithmetic succeeds on admissible points *)
Theorem C79_init pts sw d fv : points_ok pts d -> (if fv is Some f then size f = size pts else True) ->
  exists2 self, r_init rnd prodt pts sw d fv = Ok self & [/\ points self = pts, uniquePoints self = dpts pts & fVals self = fv].
Proof.
move=> ok hf; have [|self e [[e1 e2 _ _] e3]] := @r_initE pts sw d fv ok; last by exists self.
by case: fv hf => [f|//] /= ->.
Qed.

Section Obj.
Variables (pts : seq F) (d : string) (sw : bool) (fv : option (seq F)) (self : lagr F).
Hypothesis ok : points_ok pts d.
Hypothesis e : r_init rnd prodt pts sw d fv = Ok self.
Let xs := dpts pts.
Let m := ndist pts.
(* the errors made along the computation of one entry, and the bound of the relative error *)
Let G := gam u (3 * m + 3).
Definition row_bound (t : F) := G * (1 + lebesgue xs t) / (1 - G * lebesgue xs t).

Let mE : m = size xs. Proof. exact: ndistE. Qed.
Let m0 : (0 < size xs)%N. Proof. by rewrite /xs np_unique_gt0; case: ok. Qed.
Let uq : uniq xs. Proof. exact: lt_sorted_uniq (np_unique_srt pts). Qed.

Hypothesis small : (3 * m + 3)%:R * u < 1.

Lemma u_ge0 : 0 <= u. Proof. by case: std => /andP []. Qed.
Lemma lebesgue_ge0 t : 0 <= lebesgue xs t. Proof. exact: sumr_ge0. Qed.
Lemma gam_ge0 k : k%:R * u < 1 -> 0 <= gam u k.
Proof. by move=> h; apply: le_trans (gg_ge0 std k) (gg_gam std h). Qed.

Lemma bound_ge0 t : G * lebesgue xs t < 1 -> 0 <= row_bound t.
Proof.
move=> h; rewrite /row_bound divr_ge0 ?subr_ge0 ?(ltW h) // mulr_ge0 ?gam_ge0 //.
by apply: addr_ge0; [exact: ler01|exact: lebesgue_ge0].
Qed.

Lemma row_err t : G * lebesgue xs t < 1 ->
  exists2 Y : nat -> F, r_interp_row rnd sumt self t = mkseq (fun j => Fin (Y j)) (size xs) &
  forall j, (j < size xs)%N -> `|Y j - lbasis xs j t| <= row_bound t * `|lbasis xs j t| /\
    (t \in pts -> Y j = lbasis xs j t).
Proof.
move=> h; have [[_ upE _ [c c0 [W wE wN]]] _] := r_init_good ok e.
have [tin|tnin] := boolP (t \in xs).
  exists (fun j => lbasis xs j t); first exact: (r_row_pts std hs uq c0 upE wE wN).
  by move=> j _; rewrite subrr normr0 mulr_ge0 // bound_ge0.
have g1 := gg_gam std small; have g0 := gg_ge0 std (2 * size xs + size xs + 3).
have ke : (2 * size xs + size xs + 3 = 3 * m + 3)%N by rewrite mE; clear; lia.
have l0 := lebesgue_ge0 t.
have hG : gg (2 * size xs + size xs + 3) * lebesgue xs t < 1.
  by rewrite ke; apply: le_lt_trans h; rewrite ler_wpmul2r.
have [Y eY hY] := r_row_off std hs uq m0 c0 upE wE wN tnin hG.
exists Y => // j jl; split; last by rewrite -mem_np_unique (negPf tnin).
apply: (le_trans (hY j jl)); rewrite ler_wpmul2r //.
rewrite /row_bound -/G; move: g1 g0 hG; rewrite ke -/G => g1 g0 hG.
have p1 : 0 < 1 - G * lebesgue xs t by rewrite subr_gt0.
have p2 : 0 < 1 - gg (3 * m + 3) * lebesgue xs t by rewrite subr_gt0.
have l1 : 0 <= 1 + lebesgue xs t by apply: addr_ge0; [exact: ler01|].
apply: ler_pmul; [exact: mulr_ge0|by rewrite invr_ge0 ltW|by rewrite ler_wpmul2r|].
by rewrite lef_pinv ?posrE // ler_sub // ler_wpmul2r.
Qed.

(* C79: every entry has a small relative error, rows at the points are exact *)
Theorem C79_interpolation (times : seq F) : (forall t, t \in times -> G * lebesgue xs t < 1) ->
  exists2 M, r_interpM rnd sumt self times true = fmat M & is_shape M (size times) (size pts) /\
  forall i j, (i < size times)%N -> (j < size pts)%N ->
    let t := nth 0 times i in let L := lbasis xs (index (nth 0 pts j) xs) t in
    [/\ used d pts j -> `|ent M i j - L| <= row_bound t * `|L|,
        used d pts j -> t \in pts -> ent M i j = (t == nth 0 pts j)%:R &
        ~ used d pts j -> ent M i j = 0].
Proof.
move=> hl; have [[ptE upE dpE _] _] := r_init_good ok e.
pose Y t := map (fun a => unfin a) (r_interp_row rnd sumt self t).
exists [seq mkseq (outc pts d (nth 0 (Y t))) (size pts) | t <- times].
  rewrite /r_interpM /fmat -map_comp; apply/eq_in_map => t tin /=.
  have [y ey _] := row_err (hl t tin).
  rewrite map_mkseq -(handleDupE (points_admissible ok) dpE).
  congr (handleDup _ _); rewrite ey; apply: eq_mkseq_in => k kl.
  by rewrite /Y ey map_mkseq nth_mkseq.
split.
  rewrite /is_shape size_map eqxx /=; apply/allP => r /mapP [t _ ->].
  by rewrite size_mkseq.
move=> i j il jl t L; have tin : t \in times by rewrite mem_nth.
rewrite /ent (nth_map 0) // -/t nth_mkseq // /outc.
have [y ey hy] := row_err (hl t tin).
have xin : nth 0 pts j \in xs by rewrite /xs mem_np_unique mem_nth.
have kl : (index (nth 0%R pts j) xs < size xs)%N by rewrite index_mem.
have [h1 h2] := hy _ kl.
have Ye : nth 0 (Y t) (index (nth 0%R pts j) xs) = y (index (nth 0%R pts j) xs).
  by rewrite /Y ey map_mkseq nth_mkseq.
rewrite -/(np_unique pts) -[np_unique pts]/xs Ye.
case: (selb_used ok jl) => [us|nus]; split=> //.
move=> _ tp; rewrite (h2 tp) lbasisE //.
have tE : nth 0 xs (index t xs) = t by rewrite nth_index // /xs mem_np_unique.
have tl : (index t xs < size xs)%N by rewrite index_mem /xs mem_np_unique.
rewrite -{1}tE ell_nodeU //; congr (_%:R : F); congr nat_of_bool; apply/eqP/eqP => [e'|-> //].
by rewrite -(nth_index 0 xin) -e' tE.
Qed.

(* C79: evaluation of the interpolant; the values belong to the used positions *)
Theorem C79_call (times f : seq F) (p : {poly F}) : (forall t, t \in times -> G * lebesgue xs t < 1) ->
  (size pts)%:R * u < 1 -> (size p <= m)%N -> size f = size pts ->
  (forall j, used d pts j -> nth 0 f j = p.[nth 0 pts j]) ->
  exists2 v, r_call rnd sumt self times (Some f) = Ok (map (@Fin F) v) & size v = size times /\
  forall i, (i < size times)%N -> let t := nth 0 times i in
    `|nth 0 v i - p.[t]| <= ((1 + row_bound t) * (1 + gam u (size pts)) - 1) *
       \sum_(k < m) `|lbasis xs k t| * `|p.[nth 0 xs k]|.
Proof.
move=> hl su sp sf hf; have [[ptE upE dpE _] _] := r_init_good ok e.
have N0 : (0 < size pts)%N by case: ok.
have row t : t \in times -> exists2 v,
    rsum rnd sumt [seq rmul rnd q.1 (Fin q.2) | q <- zip (handleDup self (r_interp_row rnd sumt self t)) f] = Fin v &
    `|v - p.[t]| <= ((1 + row_bound t) * (1 + gam u (size pts)) - 1) *
       \sum_(k < m) `|lbasis xs k t| * `|p.[nth 0 xs k]|.
  move=> /hl ht; have [y ey hy] := row_err ht; have b0 := bound_ge0 ht.
  rewrite ey (handleDupE (points_admissible ok) dpE).
  have -> : f = mkseq (nth 0 f) (size pts) by rewrite -sf mkseq_nth.
  rewrite map_zip_mkseq.
  pose q j := outc pts d y j * nth 0 f j.
  have [v ev hv] := @rsum_near F u rnd std sumt hs (size pts) 1 q (fun j => rnd (q j)) N0 (fun j _ => rnd_near std (q j)).
  exists v; first exact: ev.
  have S1 : \sum_(j < size pts) q j = \sum_(k < m) y k * p.[nth 0 xs k].
    rewrite /q outc_sum mE; apply: eq_bigr => k _; congr (_ * _).
    have kl := ltn_ord k; rewrite hf; first by rewrite nth_seln.
    by apply/selb_used => //; [apply: seln_lt|apply: seln_sel].
  have S2 : \sum_(j < size pts) `|q j| = \sum_(k < m) `|y k| * `|p.[nth 0 xs k]|.
    rewrite /q; transitivity (\sum_(j < size pts) outc pts d (fun k => `|y k|) j * `|nth 0 f j|).
      by apply: eq_bigr => j _; rewrite normrM /outc; case: ifP; rewrite ?normr0.
    rewrite (outc_sum pts d (fun k => `|y k|) (fun j => `|nth 0 f j|)) mE; apply: eq_bigr => k _; congr (_ * `|_|).
    have kl := ltn_ord k; rewrite hf; first by rewrite nth_seln.
    by apply/selb_used => //; [apply: seln_lt|apply: seln_sel].
  have S3 : p.[t] = \sum_(k < m) lbasis xs k t * p.[nth 0 xs k].
    rewrite -(ell_interpU uq); last by rewrite -mE.
    by rewrite -mE; apply: eq_bigr => k _; rewrite lbasisE // -mE.
  set T := \sum_(k < m) `|lbasis xs k t| * `|p.[nth 0 xs k]|.
  have T0 : 0 <= T by apply: sumr_ge0 => k _; rewrite mulr_ge0.
  have yb (k : 'I_m) : `|y k - lbasis xs k t| <= row_bound t * `|lbasis xs k t|.
    by have [|h _] := hy k; rewrite -?mE.
  have h1 : `|\sum_(j < size pts) q j - p.[t]| <= row_bound t * T.
    rewrite S1 S3 -sumrB mulr_sumr; apply: (le_trans (ler_norm_sum _ _ _)).
    by apply: ler_sum => k _; rewrite -mulrBl normrM mulrA ler_wpmul2r.
  have h2 : \sum_(j < size pts) `|q j| <= (1 + row_bound t) * T.
    rewrite S2 mulr_sumr; apply: ler_sum => k _; rewrite mulrA ler_wpmul2r //.
    have {1}-> : y k = lbasis xs k t + (y k - lbasis xs k t) by ring.
    by apply: (le_trans (ler_norm_add _ _)); rewrite mulrDl mul1r ler_add.
  have g1 := gg_gam std su.
  have ke : (1 + (size pts).-1 = size pts)%N by rewrite add1n prednK.
  rewrite ke in hv.
  have {}hv : `|v - \sum_(j < size pts) q j| <= gam u (size pts) * ((1 + row_bound t) * T).
    apply: (le_trans hv); rewrite ler_pmul ?(gg_ge0 std) //; exact: sumr_ge0.
  have -> : v - p.[t] = (v - \sum_(j < size pts) q j) + (\sum_(j < size pts) q j - p.[t]) by ring.
  apply: (le_trans (ler_norm_add _ _)); apply: (le_trans (ler_add hv h1)).
  by rewrite le_eqVlt; apply/orP; left; apply/eqP; ring.
pose v t := unfin (rsum rnd sumt [seq rmul rnd q.1 (Fin q.2) | q <- zip (handleDup self (r_interp_row rnd sumt self t)) f]).
exists (map v times).
  rewrite /r_call ptE sf eqxx /= /r_interpM -!map_comp; congr Ok; apply/eq_in_map => t tin /=.
  by rewrite /v; have [w -> _] := row t tin.
rewrite size_map; split=> // i il; rewrite (nth_map 0) // /v /=; set t := nth 0 times i.
by have [w -> h] := row t (mem_nth _ il).
Qed.
End Obj.
End Props.

(* without rounding, and for every order of the operations, the rounded model is the model of
   the other properties *)
Theorem C79_exact (F : realFieldType) (sumt prodt : nat -> stree) : any_order sumt -> any_order prodt ->
  [/\ forall flog fexp und pts sw sr d fv,
        r_init id prodt pts sw d fv = lagrange_init flog fexp und pts "FAST" sw sr d fv :> outcome (lagr F),
      forall (self : lagr F) ts b, r_interpM id sumt self ts b = getInterpolationMatrix self ts b,
      forall (self : lagr F) ts fv, r_call id sumt self ts fv = call self ts fv,
      forall leggauss roots_legendre fejer (self : lagr F) ivs nq b,
        r_integM id sumt leggauss roots_legendre fejer self ivs nq b =
        getIntegrationMatrix leggauss roots_legendre fejer self ivs nq b &
      forall (self : lagr F) order b, r_derivM id sumt self order b = getDerivativeMatrix self order b].
Proof.
move=> hs hp; split=> *;
  [exact: r_init_id|exact: r_interpM_id|exact: r_call_id|exact: r_integM_id|exact: r_derivM_id].
Qed.

(* rounding to the nearest number with 53 bits fulfils the standard model *)
Theorem C79_float64 : std_model (F := r_realFieldType) u64 f64.
Proof.
split; [|by move=> x; apply/rleE; exact: f64_err|exact: f64_1|exact: f64_idem].
by apply/andP; split; [apply/rleE|apply/rltE]; rewrite u64E -?[0]/R0 -?[1]/R1; lra.
Qed.

(* two orders of summation: from left to right, and by halves *)
Fixpoint seqt (n : nat) : stree := if n is (m.+1 as n').+1 then Node (seqt n') (Leaf n') else Leaf 0.
Fixpoint halves (fuel i n : nat) : stree :=
  if fuel is f.+1 then
    if (n <= 1)%N then Leaf i else Node (halves f i n./2) (halves f (i + n./2) (n - n./2))
  else Leaf i.
Definition pairt (n : nat) : stree := halves n 0 n.
Lemma seqt_order : any_order seqt.
Proof.
case=> // n _; elim: n => // n IH; rewrite -[leaves _]/(leaves (seqt n.+1) ++ [:: n.+1]).
by rewrite -[n.+2]addn1 iotaD perm_cat.
Qed.
Lemma halves_leaves f i n : (0 < n <= f)%N -> leaves (halves f i n) = iota i n.
Proof.
elim: f i n => [|f IH] i n; first by lia.
move=> h /=; case: ifP => n1; first by have -> : n = 1%N by lia.
by rewrite /= !IH -?iotaD; [congr iota; lia|lia|lia].
Qed.
Lemma pairt_order : any_order pairt.
Proof. by move=> n n0; rewrite halves_leaves // n0 /=. Qed.

(* two points, float64 and sums by halves: the relative error of the entries is below 2^-48 *)
Section Example79.
Notation RF := r_realFieldType.
Let pts : seq RF := [:: 0; 1].
Let t : RF := (4%:R)^-1.
Lemma u64_facts : [/\ 0 < u64 :> RF, u64 <= 100%:R^-1 :> RF & 32%:R * u64 = 2%:R ^- 48 :> RF].
Proof.
have nz (n : nat) : n.+1%:R != 0 :> RF by rewrite pnatr_eq0.
split; first by apply/rltE; rewrite u64E -[0]/R0; lra.
  by apply/rleE; rewrite rinvE // u64E rnatE /=; lra.
rewrite rinvE ?expf_neq0 // rexpE !rnatE u64E -[_ * _]/(Rmult _ _) /=; lra.
Qed.
Lemma pts_ok : points_ok pts "USE_LEFT".
Proof. by split=> //; left; rewrite /= ltr01. Qed.
Lemma dptsE : dpts pts = pts.
Proof. by apply: np_unique_sorted; rewrite /= ltr01. Qed.
Lemma ndistE2 : ndist pts = 2%N. Proof. by rewrite ndistE -[np_unique pts]/(dpts pts) dptsE. Qed.
Lemma lb0 : lbasis pts 0 t = 3%:R / 4%:R.
Proof. by rewrite /lbasis big_mkcond !big_ord_recl big_ord0 /= /t; field. Qed.
Lemma lb1 : lbasis pts 1 t = 1 / 4%:R.
Proof. by rewrite /lbasis big_mkcond !big_ord_recl big_ord0 /= /t; field. Qed.
Lemma leb1 : lebesgue pts t = 1.
Proof.
rewrite /lebesgue !big_ord_recl big_ord0 /= -[bump 0 0]/1%N lb0 lb1 !ger0_norm ?divr_ge0 ?ler0n ?ler01 //; by field.
Qed.

Example C79_nonvacuous :
  [/\ std_model (F := RF) u64 f64, any_order pairt, points_ok pts "USE_LEFT",
      (3 * ndist pts + 3)%:R * u64 < 1 :> RF & gam u64 (3 * ndist pts + 3) * lebesgue (dpts pts) t < 1 :> RF] /\
  exists2 self, r_init f64 pairt pts true "USE_LEFT" None = Ok self &
  exists2 M, r_interpM f64 pairt self [:: t] true = fmat M &
    `|ent M 0 0 - 3%:R / 4%:R| <= 2%:R ^- 48 /\ `|ent M 0 1 - 1 / 4%:R| <= 2%:R ^- 48.
Proof.
have [u0 u1 u32] := u64_facts.
rewrite ndistE2 dptsE leb1 mulr1 /gam -[(3 * 2 + 3)%N]/9%N.
have h9 : 9%:R * u64 < 1 :> RF.
  apply: (le_lt_trans (ler_wpmul2l (ler0n _ 9) u1)); by rewrite ltr_pdivr_mulr ?ltr0n // mul1r ltr_nat.
have h18 : 18%:R * u64 < 1 :> RF.
  apply: (le_lt_trans (ler_wpmul2l (ler0n _ 18) u1)); by rewrite ltr_pdivr_mulr ?ltr0n // mul1r ltr_nat.
have p9 : 0 < 1 - 9%:R * u64 :> RF by rewrite subr_gt0.
have p18 : 0 < 1 - 18%:R * u64 :> RF by rewrite subr_gt0.
have hG : 9%:R * u64 / (1 - 9%:R * u64) < 1 :> RF.
  rewrite ltr_pdivr_mulr // mul1r -subr_gt0.
  by have -> : 1 - 9%:R * u64 - 9%:R * u64 = 1 - 18%:R * u64 :> RF by ring.
split; first by split; [exact: C79_float64|exact: pairt_order|exact: pts_ok| |].
have [self e _] := C79_init C79_float64 pairt_order true (fv := None) pts_ok I; exists self => //.
have sm : (3 * ndist pts + 3)%:R * u64 < 1 :> RF by rewrite ndistE2.
have hl x : x \in [:: t] -> gam u64 (3 * ndist pts + 3) * lebesgue (dpts pts) x < 1 :> RF.
  by rewrite inE => /eqP ->; rewrite ndistE2 dptsE leb1 mulr1.
have [M eM [_ h]] := C79_interpolation C79_float64 pairt_order pairt_order pts_ok e sm hl; exists M => //.
have ub : row_bound u64 pts t <= 2%:R ^- 48.
  rewrite /row_bound ndistE2 dptsE leb1 mulr1 /gam -[(3 * 2 + 3)%N]/9%N -u32.
  have -> : 9%:R * u64 / (1 - 9%:R * u64) * (1 + 1) / (1 - 9%:R * u64 / (1 - 9%:R * u64)) =
    18%:R * u64 / (1 - 18%:R * u64) :> RF.
    move: p9 p18; move: (u64 : RF) => v p9 p18.
    have -> : 1 - 9%:R * v / (1 - 9%:R * v) = (1 - 18%:R * v) / (1 - 9%:R * v) by field; rewrite gt_eqF.
    by field; rewrite !gt_eqF.
  rewrite ler_pdivr_mulr // -subr_ge0.
  have -> : 32%:R * u64 * (1 - 18%:R * u64) - 18%:R * u64 = u64 * (14%:R - 576%:R * u64) :> RF by ring.
  rewrite mulr_ge0 ?(ltW u0) // subr_ge0; apply: (le_trans (ler_wpmul2l (ler0n _ 576) u1)).
  by rewrite ler_pdivr_mulr ?ltr0n // -natrM ler_nat.
have us j : (j < 2)%N -> used "USE_LEFT" pts j.
  move=> jl; split=> //= k kj; apply/eqP; rewrite nth_uniq /= ?ltr01 //; first by rewrite neq_ltn kj.
    exact: ltn_trans kj jl.
  by rewrite inE eq_sym oner_neq0.
have fin j L : (j < 2)%N -> lbasis pts j t = L -> 0 <= L <= 1 -> `|ent M 0 j - L| <= 2%:R ^- 48.
  move=> jl eL /andP [L0 L1]; have [|b _ _] := h 0%N j isT; first by [].
  move: (b (us j jl)); rewrite /= dptsE index_uniq // ?eL; last by rewrite /= inE eq_sym oner_neq0.
  move=> {}b; apply: (le_trans b); rewrite ger0_norm //; apply: le_trans ub.
  by rewrite ler_pimulr //; apply: (bound_ge0 C79_float64 sm); apply: hl; rewrite inE.
by split; apply: fin; rewrite ?lb0 ?lb1 // divr_ge0 ?ler0n ?ler01 //= ler_pdivr_mulr ?ltr0n // mul1r ?ler_nat ?ler1n.
Qed.
End Example79.

Print Assumptions C79_init.
Print Assumptions C79_interpolation.
Print Assumptions C79_call.
Print Assumptions C79_exact.
Print Assumptions C79_float64.
