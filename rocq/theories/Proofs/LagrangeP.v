(* Characterisation of the matrices of Model.Lagrange by cardinal polynomials. *)
From Verif.Base Require Import Str.
From mathcomp Require Import all_ssreflect all_algebra ring.
From Verif.Base Require Import Outcome Arr Ext PolyInterp.
From Verif.Model Require Import Lagrange.
Set Implicit Arguments.
Unset Strict Implicit.
Unset Printing Implicit Defensive.
Import GRing.Theory Num.Theory Order.TTheory.
Local Open Scope ring_scope.

Section Cardinal.
Variable F : realFieldType.
Variable pts : seq F.
Let n := size pts.
Hypothesis uniq_pts : uniq pts.

Definition xs (i : 'I_(size pts)) : F := nth 0 pts i.

Lemma xs_injU : injective xs.
Proof.
move=> i j; rewrite /xs => /eqP; rewrite nth_uniq ?uniq_pts //.
by move/eqP/val_inj.
Qed.

(* nat indexed cardinal polynomial and weight *)
Definition bwn (j : nat) : F :=
  (\prod_(k < size pts | k != j :> nat) (nth 0 pts j - nth 0 pts k))^-1.
Definition ell (j : nat) : {poly F} :=
  bwn j *: \prod_(k < size pts | k != j :> nat) ('X - (nth 0 pts k)%:P).

Lemma bwnE (j : 'I_(size pts)) : bwn j = bw xs j.
Proof. by rewrite /bwn /bw; congr (_^-1); apply: eq_bigl => k; rewrite -val_eqE. Qed.
Lemma ellE (j : 'I_(size pts)) : ell j = lag xs j.
Proof. by rewrite /ell /lag bwnE; congr (_ *: _); apply: eq_bigl => k; rewrite -val_eqE. Qed.

Lemma bwn_neq0U j : (j < n)%N -> bwn j != 0.
Proof. by move=> jn; rewrite (bwnE (Ordinal jn)) (bw_neq0 xs_injU). Qed.

Lemma diff_neq0U i j : (i < n)%N -> (j < n)%N -> i != j -> nth 0 pts i - nth 0 pts j != 0.
Proof. by move=> ilt jlt ij; rewrite subr_eq0 nth_uniq ?uniq_pts. Qed.

(* exactness of the cardinal polynomials *)
Lemma ell_interpU (p : {poly F}) t : (size p <= n)%N ->
  \sum_(j < n) (ell j).[t] * p.[nth 0 pts j] = p.[t].
Proof.
move=> sp; rewrite [in RHS](interpE xs_injU sp) horner_sum.
by apply: eq_bigr => j _; rewrite ellE [RHS]hornerZ mulrC.
Qed.

Lemma ell_nodeU i j : (i < n)%N -> (j < n)%N -> (ell j).[nth 0 pts i] = (i == j)%:R.
Proof.
move=> ilt jlt; rewrite (ellE (Ordinal jlt)).
by have := lag_node xs_injU (Ordinal ilt) (Ordinal jlt); rewrite /xs -val_eqE.
Qed.

Lemma size_ell j : (j < n)%N -> (size (ell j) <= n)%N.
Proof. by move=> jlt; rewrite (ellE (Ordinal jlt)); apply: size_lag. Qed.

Lemma ell_derivU (p : {poly F}) t : (size p <= n)%N ->
  \sum_(j < n) (ell j)^`().[t] * p.[nth 0 pts j] = p^`().[t].
Proof.
move=> sp; rewrite (deriv_interp xs_injU t sp).
by apply: eq_bigr => j _; rewrite ellE.
Qed.

Lemma ell_deriv2U (p : {poly F}) t : (size p <= n)%N ->
  \sum_(j < n) (ell j)^`()^`().[t] * p.[nth 0 pts j] = p^`()^`().[t].
Proof.
move=> sp; rewrite (deriv2_interp xs_injU t sp).
by apply: eq_bigr => j _; rewrite ellE.
Qed.

Lemma sum_ellU t : (0 < n)%N -> \sum_(j < n) (ell j).[t] = 1.
Proof.
move=> n0; rewrite -[RHS](hornerC 1 t) -[RHS]ell_interpU ?size_polyC ?oner_eq0 //.
by apply: eq_bigr => j _; rewrite hornerC mulr1.
Qed.

End Cardinal.

(* the same for increasing points *)
Section Sorted.
Variable F : realFieldType.
Variable pts : seq F.
Let n := size pts.
Hypothesis srt : sorted <%O pts.
Lemma uniq_pts : uniq pts.
Proof. exact: lt_sorted_uniq. Qed.
Lemma np_unique_sorted : np_unique pts = pts.
Proof.
rewrite /np_unique undup_id.
  by rewrite sort_le_id //; move: srt; rewrite lt_sorted_uniq_le => /andP [].
by rewrite sort_uniq uniq_pts.
Qed.

Lemma xs_inj : injective (@xs F pts).
Proof. exact: (xs_injU uniq_pts). Qed.
Lemma bwn_neq0 j : (j < n)%N -> bwn pts j != 0.
Proof. exact: (bwn_neq0U uniq_pts). Qed.
Lemma diff_neq0 i j : (i < n)%N -> (j < n)%N -> i != j -> nth 0 pts i - nth 0 pts j != 0.
Proof. exact: (diff_neq0U uniq_pts). Qed.
Lemma ell_interp (p : {poly F}) t : (size p <= n)%N ->
  \sum_(j < n) (ell pts j).[t] * p.[nth 0 pts j] = p.[t].
Proof. exact: (ell_interpU uniq_pts). Qed.
Lemma ell_node i j : (i < n)%N -> (j < n)%N -> (ell pts j).[nth 0 pts i] = (i == j)%:R.
Proof. exact: (ell_nodeU uniq_pts). Qed.
Lemma ell_deriv (p : {poly F}) t : (size p <= n)%N ->
  \sum_(j < n) (ell pts j)^`().[t] * p.[nth 0 pts j] = p^`().[t].
Proof. exact: (ell_derivU uniq_pts). Qed.
Lemma ell_deriv2 (p : {poly F}) t : (size p <= n)%N ->
  \sum_(j < n) (ell pts j)^`()^`().[t] * p.[nth 0 pts j] = p^`()^`().[t].
Proof. exact: (ell_deriv2U uniq_pts). Qed.
Lemma sum_ell t : (0 < n)%N -> \sum_(j < n) (ell pts j).[t] = 1.
Proof. exact: (sum_ellU uniq_pts). Qed.
End Sorted.

Section Weights.
Variable F : realFieldType.
Variables (flog fexp : F -> F).
Variable underflow : seq F -> bool.

Definition exp_log_laws : Prop :=
  (forall x y, fexp (x + y) = fexp x * fexp y) /\ (forall x, 0 < x -> fexp (flog x) = x).

Section Laws.
Hypothesis laws : exp_log_laws.

Lemma fexp0 : fexp 0 = 1.
Proof.
case: laws => eD eK; have := eD 0 (flog 1); rewrite add0r eK ?ltr01 // mulr1.
by move=> <-.
Qed.

Lemma fexpN x : fexp x != 0 /\ fexp (- x) = (fexp x)^-1.
Proof.
case: laws => eD _; have := eD x (- x); rewrite subrr fexp0 => e.
have nz : fexp x != 0 by apply: contra_eq_neq e => ->; rewrite mul0r oner_neq0.
by split=> //; apply: (mulfI nz); rewrite mulfV.
Qed.

Lemma fexp_sum n (f : 'I_n -> F) : fexp (\sum_i f i) = \prod_i fexp (f i).
Proof.
case: laws => eD _; elim/big_rec2: _ => [|i y1 y2 _ e]; first exact: fexp0.
by rewrite eD e.
Qed.
End Laws.

Lemma emax_fin (s : seq F) : s != [::] ->
  exists2 m, emax [seq Fin a | a <- s] = Fin m & (m \in s) /\ all (<=%O^~ m) s.
Proof.
elim: s => // a [|b s] ih _.
  by exists a; rewrite //= inE eqxx lexx.
have [//|m E [ms am]] := ih; exists (Num.max a m); first by move: E => /= ->.
split; last first.
  apply/allP => y; rewrite in_cons => /orP [/eqP ->|ys]; first by rewrite le_maxr lexx.
  by rewrite le_maxr; move/allP: am => /(_ y ys) ->; rewrite orbT.
by rewrite maxEle; case: ifP => _; rewrite inE ?eqxx ?ms ?orbT.
Qed.

Lemma emax_abs (s : seq F) : s != [::] -> all (fun a => a != 0) s ->
  exists2 m, emax (map (@eabs F) [seq Fin a | a <- s]) = Fin m & 0 < m.
Proof.
move=> s0 nz; have -> : map (@eabs F) [seq Fin a | a <- s] = [seq Fin a | a <- [seq `|a| | a <- s]].
  by rewrite -!map_comp.
have [|m -> [/mapP [a as_ ->] _]] := @emax_fin [seq `|a| | a <- s]; first by case: (s) s0.
by exists `|a| => //; rewrite normr_gt0; move/allP: nz; apply.
Qed.

Lemma foldr_min_mem (z : F) s : foldr Num.min z s \in z :: s.
Proof.
elim: s => /= [|b s ih]; first by rewrite inE.
rewrite minEle; case: ifP => _; first by rewrite !inE eqxx orbT.
by move: ih; rewrite !inE => /orP [] ->; rewrite ?orbT.
Qed.

Lemma argmin_lt (pts : seq F) : pts != [::] -> (argmin_abs pts < size pts)%N.
Proof.
case: pts => // a s _; rewrite /argmin_abs -(size_map (fun a => `|a|)) index_mem.
have := foldr_min_mem `|a| [seq `|b| | b <- a :: s].
by rewrite /= !inE => /orP [->|/orP [->|->]]; rewrite ?orbT.
Qed.

Variable pts : seq F.
Let n := size pts.
Hypothesis srt : sorted <%O pts.
Hypothesis n0 : (0 < size pts)%N.

(* entries of the difference matrix *)
Let d (i j : nat) : F := if i == j then 1 else nth 0 pts i - nth 0 pts j.

Lemma d_neq0 i j : (i < n)%N -> (j < n)%N -> d i j != 0.
Proof.
move=> il jl; rewrite /d; case: (i =P j) => [_|/eqP ij]; first exact: oner_neq0.
exact: diff_neq0.
Qed.

Lemma prod_d i : \prod_(j < n) d i j = (bwn pts i)^-1.
Proof.
rewrite /bwn invrK [RHS]big_mkcond; apply: eq_bigr => j _.
by rewrite /d eq_sym; case: eqP.
Qed.

Lemma map_diffs (T : Type) (f : seq (ext F) -> T) (g : nat -> T) :
  (forall i, (i < n)%N -> f (mkseq (fun j => Fin (d i j)) n) = g i) ->
  map f (diffs pts) = mkseq g n.
Proof.
move=> h; rewrite /diffs /mkseq -map_comp; apply/eq_in_map => i.
by rewrite mem_iota => /= il; apply: h.
Qed.

Lemma analyticE : analytic (diffs pts) = mkseq (fun j => Fin (bwn pts j)) n.
Proof.
apply: map_diffs => i il; rewrite (@eprod_mkseq _ _ (d i)) // prod_d.
rewrite ediv_fin; first by rewrite div1r invrK.
by rewrite invr_eq0; apply: bwn_neq0.
Qed.

Lemma eprod_sign i (c : F) : eprod (map (@esign F) (mkseq (fun j => Fin (d i j * c)) n))
   = Fin (\prod_(j < n) Num.sg (d i j * c)).
Proof.
rewrite /mkseq -map_comp.
exact: (@eprod_mkseq _ _ (fun j => Num.sg (d i j * c))).
Qed.

Lemma esum_log i (c : F) : (i < n)%N -> c != 0 ->
  esum (map (fun e => elog flog (eabs e)) (mkseq (fun j => Fin (d i j * c)) n))
   = Fin (\sum_(j < n) flog `|d i j * c|).
Proof.
move=> il c0; rewrite /mkseq -map_comp.
apply: (@esum_mkseq _ _ (fun j => flog `|d i j * c|)) => j jl /=.
by rewrite normr_gt0 mulf_neq0 ?d_neq0.
Qed.

Lemma sg_div_norm (a : F) : a != 0 -> Num.sg a / `|a| = a^-1.
Proof.
move=> a0; rewrite [in RHS](numEsg a) invfM [in RHS]mulrC mulrC.
congr (_ * _); have := sgr_id a; case: sgrP a0 => // _ _ _; rewrite ?invr1 //.
by rewrite invrN invr1.
Qed.

Lemma sign_exp (laws : exp_log_laws) i (c : F) : (i < n)%N -> c != 0 ->
  fexp (\sum_(j < n) flog `|d i j * c|) = \prod_(j < n) `|d i j * c|.
Proof.
move=> il c0; rewrite (fexp_sum laws); apply: eq_bigr => j _.
by case: laws => _ ->; rewrite ?normr_gt0 ?mulf_neq0 ?d_neq0.
Qed.

Lemma prod_sg_norm i (c : F) : (i < n)%N -> c != 0 ->
  (\prod_(j < n) Num.sg (d i j * c)) / (\prod_(j < n) `|d i j * c|) =
  c ^- n * bwn pts i.
Proof.
move=> il c0; rewrite -prodfV -big_split /=.
rewrite (eq_bigr (fun j : 'I_n => (d i j)^-1 * c^-1)); last first.
  by move=> j _; rewrite sg_div_norm ?mulf_neq0 ?d_neq0 // invfM.
rewrite big_split /= prodfV prod_d invrK prodr_const card_ord exprVn.
by rewrite mulrC.
Qed.

Lemma bwn_pts_nz (c : F) : c != 0 -> all (fun a => a != 0) (mkseq (fun j => c * bwn pts j) n).
Proof.
move=> c0; apply/allP => y /mapP [j]; rewrite mem_iota => /= jl ->.
by rewrite mulf_neq0 ?bwn_neq0.
Qed.

Lemma mkseq_pts_ne (g : nat -> F) : mkseq g n != [::].
Proof. by rewrite -size_eq0 size_mkseq -lt0n. Qed.

Lemma mkseq_Fin (g : nat -> F) : mkseq (fun j => Fin (g j)) n = [seq Fin a | a <- mkseq g n].
Proof. by rewrite /mkseq -map_comp. Qed.

Lemma scale_row (g : nat -> F) (m : F) : m != 0 ->
  [seq ediv a (Fin m) | a <- mkseq (fun j => Fin (g j)) n] =
  mkseq (fun j => Fin (m^-1 * g j)) n.
Proof.
move=> m0; rewrite /mkseq -map_comp; apply: eq_map => j /=.
by rewrite (negPf m0) mulrC.
Qed.

Lemma logScaleE sr (laws : exp_log_laws) : (sr == "ZERO"%string) || (sr == "MAX"%string) ->
  exists2 c, c != 0 &
  logScale flog fexp pts sr (diffs pts) = Ok (mkseq (fun j => Fin (c * bwn pts j)) n).
Proof.
move=> hsr.
have dE i : mkseq (fun j => Fin (d i j)) n = mkseq (fun j => Fin (d i j * 1)) n.
  by apply: eq_map => j; rewrite mulr1.
pose wl i := - \sum_(j < n) flog `|d i j * 1|.
have wlE : [seq eopp (esum [seq elog flog (eabs e) | e <- r]) | r <- diffs pts] =
    mkseq (fun i => Fin (wl i)) n.
  by apply: map_diffs => i il; rewrite dE esum_log ?oner_neq0.
have sgE : [seq eprod (map (@esign F) r) | r <- diffs pts] =
    mkseq (fun i => Fin (\prod_(j < n) Num.sg (d i j * 1))) n.
  by apply: map_diffs => i il; rewrite dE eprod_sign.
have [s sE] : exists s, (if sr == "ZERO"%string then
       if pts is [::] then Raise ValueError else
          Ok (nth NaN (mkseq (fun i => Fin (wl i)) n) (argmin_abs pts))
     else if sr == "MAX"%string then
       if pts is [::] then Raise ValueError else Ok (emax (mkseq (fun i => Fin (wl i)) n))
     else Raise NotImplementedError) = Ok (Fin s).
  have ne : pts != [::] by rewrite -size_eq0 -lt0n.
  case: ifP hsr => [_ _|_ /= ->].
    exists (wl (argmin_abs pts)); rewrite nth_mkseq ?argmin_lt //.
    by case: (pts) ne.
  have := @emax_fin (mkseq wl n) (mkseq_pts_ne wl); rewrite -mkseq_Fin => [[m' -> _]].
  by exists m'; case: (pts) ne.
rewrite /logScale wlE sgE sE /=.
exists (fexp (- s)); first by have [] := fexpN laws s; have [] := fexpN laws (- s).
congr Ok; apply: (@eq_from_nth _ NaN).
  by rewrite size_map size_zip !size_mkseq minnn.
move=> i; rewrite size_map size_zip !size_mkseq minnn => il.
rewrite (nth_map (NaN, NaN)) ?size_zip ?size_mkseq ?minnn //.
rewrite nth_zip ?size_mkseq // !nth_mkseq //=.
case: (laws) => eD _; rewrite eD; congr Fin.
rewrite /wl; have [_ ->] := fexpN laws (\sum_(j < n) flog `|d i j * 1|).
rewrite (sign_exp laws) ?oner_neq0 //.
have := prod_sg_norm il (oner_neq0 F); rewrite expr1n invr1 mul1r => <-.
have com (a b c : F) : a * b * c = b * (c * a) by ring.
exact: com.
Qed.

Lemma chebfun_ne (p : seq F) ds : p != [::] -> chebfun flog fexp p ds =
  let c := ediv (Fin 4%:R) (Fin (last 0 p - head 0 p)) in
  let ds := [seq [seq emul d c | d <- r] | r <- ds] in
  let sign := [seq eprod (map (@esign F) r) | r <- ds] in
  let vv := [seq eexp fexp (esum [seq elog flog (eabs d) | d <- r]) | r <- ds] in
  let invProd := [seq ediv (Fin 1) (emul p.1 p.2) | p <- zip sign vv] in
  let nrm := emax (map (@eabs F) invProd) in
  Ok [seq ediv a nrm | a <- invProd].
Proof. by rewrite /chebfun; case: p. Qed.

Lemma chebfunE (laws : exp_log_laws) : (1 < n)%N ->
  exists2 c, c != 0 &
  chebfun flog fexp pts (diffs pts) = Ok (mkseq (fun j => Fin (c * bwn pts j)) n).
Proof.
move=> n1.
have ne : pts != [::] by rewrite -size_eq0 -lt0n.
pose dm := last 0 pts - head 0 pts.
have dm0 : dm != 0.
  rewrite /dm -nth0 -nth_last; apply: diff_neq0 => //; first by rewrite -/n; case: (n) n1.
  by rewrite -/n; case: (n) n1 => [|[]].
pose c0 := 4%:R / dm.
have c00 : c0 != 0 by rewrite mulf_neq0 ?invr_eq0 // pnatr_eq0.
rewrite chebfun_ne // -/dm.
cbv zeta; rewrite ediv_fin // -/c0.
have dsE : [seq [seq emul d0 (Fin c0) | d0 <- r] | r <- diffs pts] =
   mkseq (fun i => mkseq (fun j => Fin (d i j * c0)) n) n.
  by apply: map_diffs => i il; rewrite /mkseq -map_comp.
rewrite dsE.
have -> : [seq eprod [seq esign i | i <- r] | r <- mkseq (fun i => mkseq (fun j => Fin (d i j * c0)) n) n]
  = mkseq (fun i => Fin (\prod_(j < n) Num.sg (d i j * c0))) n.
  by rewrite {1}/mkseq -map_comp; apply: eq_map => i /=; rewrite eprod_sign.
have -> : [seq eexp fexp (esum [seq elog flog (eabs d1) | d1 <- r])
          | r <- mkseq (fun i => mkseq (fun j => Fin (d i j * c0)) n) n] =
  mkseq (fun i => Fin (\prod_(j < n) `|d i j * c0|)) n.
  rewrite {1}/mkseq -map_comp; apply/eq_in_map => i; rewrite mem_iota => /= il.
  by rewrite esum_log //= (sign_exp laws).
have -> : [seq ediv (Fin 1) (emul p.1 p.2)
     | p <- zip (mkseq (fun i => Fin (\prod_(j < n) Num.sg (d i j * c0))) n)
                (mkseq (fun i => Fin (\prod_(j < n) `|d i j * c0|)) n)] =
  mkseq (fun j => Fin (c0 ^- n * bwn pts j)) n.
  apply: (@eq_from_nth _ NaN); first by rewrite size_map size_zip !size_mkseq minnn.
  move=> i; rewrite size_map size_zip !size_mkseq minnn => il.
  rewrite (nth_map (NaN, NaN)) ?size_zip ?size_mkseq ?minnn //.
  rewrite nth_zip ?size_mkseq // !nth_mkseq //= -prod_sg_norm //.
  set S := \prod_(j < n) _; set V := \prod_(j < n) _.
  have V0 : V != 0 by apply/prodf_neq0 => j _; rewrite normr_eq0 mulf_neq0 ?d_neq0.
  have S0 : S != 0 by apply/prodf_neq0 => j _; rewrite sgr_eq0 mulf_neq0 ?d_neq0.
  have SS : S * S = 1.
    rewrite -big_split /= big1 // => j _; rewrite -expr2 sqr_sg.
    by rewrite mulf_neq0 ?d_neq0.
  rewrite mulf_eq0 (negPf V0) (negPf S0) /= div1r invfM.
  by congr (Fin (_ * _)); apply: (mulfI S0); rewrite mulfV ?SS.
rewrite mkseq_Fin.
have cn0 : c0 ^- n != 0 by rewrite invr_eq0 expf_neq0.
have [m -> m0] := emax_abs (mkseq_pts_ne (fun j => c0 ^- n * bwn pts j)) (bwn_pts_nz cn0).
exists (m^-1 * c0 ^- n); first by rewrite mulf_neq0 ?invr_eq0 ?expf_neq0 // gt_eqF.
congr Ok; rewrite -mkseq_Fin scale_row ?gt_eqF //.
by apply: eq_map => j; rewrite mulrA.
Qed.


(* which settings are accepted, and which ones use log/exp *)
Definition uses_logs (wc : string) : bool :=
  [|| (wc == "AUTO"%string) && underflow pts, wc == "STABLE"%string | wc == "CHEBFUN"%string].
Definition valid_setting (wc sr : string) : bool :=
  let srok := (sr == "ZERO"%string) || (sr == "MAX"%string) in
  if wc == "AUTO"%string then underflow pts ==> srok
  else if wc == "FAST"%string then true
  else if wc == "STABLE"%string then srok
  else (wc == "CHEBFUN"%string) && (1 < size pts)%N.

Lemma compute_weightsE wc sw sr : valid_setting wc sr -> (uses_logs wc -> exp_log_laws) ->
  exists2 c, c != 0 &
  compute_weights flog fexp underflow pts wc sw sr = Ok (mkseq (fun j => Fin (c * bwn pts j)) n).
Proof.
move=> hv hl; rewrite /compute_weights.
have anaE : analytic (diffs pts) = mkseq (fun j => Fin (1 * bwn pts j)) n.
  by rewrite analyticE; apply: eq_map => j; rewrite mul1r.
suff [c c0 ->] : exists2 c, c != 0 & (if wc == "AUTO"%string then
       if underflow pts then logScale flog fexp pts sr (diffs pts) else Ok (analytic (diffs pts))
     else if wc == "FAST"%string then Ok (analytic (diffs pts))
     else if wc == "STABLE"%string then logScale flog fexp pts sr (diffs pts)
     else if wc == "CHEBFUN"%string then chebfun flog fexp pts (diffs pts)
     else Raise NotImplementedError) = Ok (mkseq (fun j => Fin (c * bwn pts j)) n).
  case: sw; last by exists c.
  rewrite /obind mkseq_Fin.
  have [m mE m0] := emax_abs (mkseq_pts_ne (fun j => c * bwn pts j)) (bwn_pts_nz c0).
  exists (m^-1 * c); first by rewrite mulf_neq0 ?invr_eq0 // gt_eqF.
  have -> : mkseq (fun j => Fin (m^-1 * c * bwn pts j)) n =
      [seq ediv a (Fin m) | a <- [seq Fin a | a <- mkseq (fun j => c * bwn pts j) n]].
    rewrite -mkseq_Fin scale_row ?gt_eqF //.
    by apply: eq_map => j; rewrite mulrA.
  move: (mkseq_pts_ne (fun j => c * bwn pts j)) mE.
  by case: (mkseq _ n) => // a s _ <-.
move: hv hl; rewrite /valid_setting /uses_logs.
case: (wc == "AUTO"%string) => /=.
  case: (underflow pts) => /= [hv hl|_ _]; last by exists 1; rewrite ?oner_neq0 // anaE.
  by apply: logScaleE => //; apply: hl.
case: (wc == "FAST"%string) => /= [_ _|]; first by exists 1; rewrite ?oner_neq0 // anaE.
case: (wc == "STABLE"%string) => /= [hv hl|]; first by apply: logScaleE => //; apply: hl.
case: (wc == "CHEBFUN"%string) => //= n1 hl; apply: chebfunE => //; exact: hl.
Qed.

End Weights.

Section Rows.
Variable F : realFieldType.
Variable pts : seq F.
Let n := size pts.
Hypothesis un : uniq pts.
Hypothesis n0 : (0 < size pts)%N.
Variable self : lagr F.
Variable c : F.
Hypothesis c0 : c != 0.
Hypothesis upE : uniquePoints self = pts.
Hypothesis wE : weights self = mkseq (fun j => Fin (c * bwn pts j)) n.

Lemma map_pts (T : Type) (f : F -> T) : map f pts = mkseq (fun j => f (nth 0 pts j)) n.
Proof.
apply: (@eq_from_nth _ (f 0)); first by rewrite size_map size_mkseq.
by move=> i; rewrite size_map => il; rewrite (nth_map 0) // nth_mkseq.
Qed.

Lemma map_zip_mkseq (A B T : Type) (f : A * B -> T) (g : nat -> A) (h : nat -> B) m :
  map f (zip (mkseq g m) (mkseq h m)) = mkseq (fun j => f (g j, h j)) m.
Proof.
rewrite /mkseq; elim: (iota 0 m) => //= a s ->; by [].
Qed.

Lemma eq_mkseq_in (T : Type) (f g : nat -> T) m :
  (forall i, (i < m)%N -> f i = g i) -> mkseq f m = mkseq g m.
Proof.
move=> h; apply/eq_in_map => i; rewrite mem_iota add0n; exact: h.
Qed.

Lemma map_mkseq (A B : Type) (f : A -> B) (g : nat -> A) m :
  map f (mkseq g m) = mkseq (fun j => f (g j)) m.
Proof. by rewrite /mkseq -map_comp. Qed.

Lemma interp_rowEU t : interp_row self t = mkseq (fun j => Fin (ell pts j).[t]) n.
Proof.
rewrite /interp_row upE wE map_pts (map_mkseq (@is_inf F)).
case: (boolP (t \in pts)) => [tin|tnin].
  have il : (index t pts < n)%N by rewrite index_mem.
  set i := index t pts in il.
  have ti : t = nth 0 pts i by rewrite nth_index.
  have inE j : (j < n)%N -> is_inf (ediv (Fin 1) (Fin (t - nth 0 pts j))) = (j == i).
    move=> jl; rewrite /= subr_eq0 ti nth_uniq ?un // eq_sym.
    by case: eqP => //= _; rewrite /inf_of ltr01.
  have -> : mkseq (fun j => is_inf (ediv (Fin 1) (Fin (t - pts`_j)))) n = mkseq (eq_op^~ i) n.
    by apply: eq_mkseq_in.
  have -> : has id (mkseq (eq_op^~ i) n).
    apply/hasP; exists true => //; apply/mapP; exists i; rewrite ?eqxx //.
    by rewrite mem_iota.
  rewrite map_mkseq map_zip_mkseq /=.
  have b0 := bwn_neq0U un il.
  have -> : esum (mkseq (fun j => Fin ((j == i)%:R * (c * bwn pts j))) n) = Fin (c * bwn pts i).
    rewrite (@esum_mkseq _ _ (fun j => (j == i)%:R * (c * bwn pts j))) //.
    rewrite (bigD1 (Ordinal il)) //= eqxx mul1r big1 ?addr0 // => j ji.
    by rewrite (_ : (nat_of_ord j == i) = false) ?mul0r //; apply: negbTE; rewrite -val_eqE in ji.
  rewrite map_mkseq; apply: eq_mkseq_in => j jl.
  rewrite ediv_fin ?mulf_neq0 // ti ell_nodeU // (eq_sym i j).
  by case: (j =P i) => [->|_]; rewrite ?mul1r ?mul0r // mulfV // mulf_neq0.
have tx j : (j < n)%N -> t - nth 0 pts j != 0.
  by move=> jl; rewrite subr_eq0; apply: contra tnin => /eqP ->; rewrite mem_nth.
have -> : has id (mkseq (fun j => is_inf (ediv (Fin 1) (Fin (t - pts`_j)))) n) = false.
  apply/hasP => [[b /mapP [j]]]; rewrite mem_iota /= add0n => jl ->.
  by rewrite (negPf (tx j jl)).
rewrite map_zip_mkseq /=.
have -> : mkseq (fun j => emul (if t - pts`_j == 0 then inf_of 1 else Fin (1 / (t - pts`_j)))
            (Fin (c * bwn pts j))) n =
          mkseq (fun j => Fin (c * (bwn pts j / (t - pts`_j)))) n.
  apply: eq_mkseq_in => j jl; rewrite (negPf (tx j jl)) /=; congr Fin.
  by rewrite div1r mulrC -mulrA.
have xinj := xs_injU un.
have N0 : (nodp (xs (pts := pts))).[t] != 0.
  by rewrite nodpE; apply/prodf_neq0 => k _; apply: tx.
have S : \sum_(j < n) c * (bwn pts j / (t - pts`_j)) = c / (nodp (xs (pts:=pts))).[t].
  rewrite -mulr_sumr; congr (_ * _).
  have := @bary F n (@xs F pts) xinj 1%:P t; rewrite size_polyC oner_neq0 => /(_ n0).
  rewrite hornerC div1r => <-.
    by apply: eq_bigr => j _; rewrite hornerC mulr1 bwnE.
  by move=> k; rewrite -subr_eq0; apply: tx.
rewrite (@esum_mkseq _ _ (fun j => c * (bwn pts j / (t - pts`_j)))) // S.
rewrite map_mkseq; apply: eq_mkseq_in => j jl.
rewrite ediv_fin ?mulf_neq0 ?invr_eq0 // (ellE (Ordinal jl)) lag_off ?tx // -bwnE /=.
congr Fin; rewrite /xs /=; move: (bwn _ _) (nodp _).[t] (tx j jl) N0 => b N tj N0.
by field; rewrite c0 tj N0.
Qed.

(* integration rows *)
Lemma integ_rowEU iN iW ab : size iW = size iN ->
  integ_row self iN iW ab =
  mkseq (fun j => Fin (\sum_(q < size iN)
     (ell pts j).[(ab.2 - ab.1) / 2%:R * nth 0 iN q + (ab.2 + ab.1) / 2%:R]
       * nth 0 iW q * ((ab.2 - ab.1) / 2%:R))) n.
Proof.
case: ab => a b sW; rewrite /integ_row upE /=; apply: eq_mkseq_in => j jl.
rewrite -map_comp.
have -> : [seq emul (emul (nth NaN p.1 j) (Fin p.2)) (Fin ((b - a) / 2%:R))
      | p <- zip [seq interp_row self ((b - a) / 2%:R * i + (b + a) / 2%:R) | i <- iN] iW] =
   mkseq (fun q => Fin ((ell pts j).[(b - a) / 2%:R * nth 0 iN q + (b + a) / 2%:R]
       * nth 0 iW q * ((b - a) / 2%:R))) (size iN).
  apply: (@eq_from_nth _ NaN).
    by rewrite size_map size_zip size_map sW minnn size_mkseq.
  move=> q; rewrite size_map size_zip size_map sW minnn => ql.
  rewrite (nth_map ([::], 0)) ?size_zip ?size_map ?sW ?minnn //.
  rewrite nth_zip ?size_map ?sW //= (nth_map 0) // nth_mkseq //.
  by rewrite interp_rowEU nth_mkseq.
by rewrite (@esum_mkseq _ _ (fun q => (ell pts j).[(b - a) / 2%:R * iN`_q + (b + a) / 2%:R]
       * iW`_q * ((b - a) / 2%:R))).
Qed.

(* derivative matrices *)
Let x j := nth 0 pts j.
Definition idf (i j : nat) : F := if i == j then 0 else (x i - x j)^-1.

Lemma deriv_iDiffEU : deriv_iDiff self = mkseq (fun i => mkseq (fun j => Fin (idf i j)) n) n.
Proof.
rewrite /deriv_iDiff upE map_pts; apply: eq_mkseq_in => i il.
rewrite map_pts; apply: eq_mkseq_in => j jl; rewrite /idf /x.
case: (i =P j) => [->|/eqP ij]; first by rewrite subrr /= eqxx /inf_of ltr01.
by rewrite ediv_fin ?diff_neq0U //= div1r.
Qed.

Definition bse (i j : nat) : F := if i == j then 0 else bwn pts j / bwn pts i / (x i - x j).

Lemma bseE (i j : 'I_n) : bse i j = dB (@xs F pts) i j.
Proof. by rewrite /bse /dB !bwnE val_eqE. Qed.

Lemma deriv_baseEU : deriv_base self = mkseq (fun i => mkseq (fun j => Fin (bse i j)) n) n.
Proof.
rewrite /deriv_base wE deriv_iDiffEU map_zip_mkseq; apply: eq_mkseq_in => i il.
rewrite map_zip_mkseq; apply: eq_mkseq_in => j jl.
have b0 := bwn_neq0U un il; rewrite ediv_fin ?mulf_neq0 //= /bse /idf /x.
case: (i =P j) => [_|/eqP ij]; first by rewrite mulr0.
have d0 := diff_neq0U un il jl ij; congr Fin.
by move: (bwn pts i) (bwn pts j) b0 => b b' b0; field; rewrite d0 b0 c0.
Qed.

Lemma fill_diagE (f : nat -> nat -> F) :
  fill_diag (mkseq (fun i => mkseq (fun j => Fin (f i j)) n) n) =
  mkseq (fun i => mkseq (fun j => Fin (if i == j then - \sum_(k < n) f i k else f i j)) n) n.
Proof.
rewrite /fill_diag size_mkseq; apply: eq_mkseq_in => i il; rewrite nth_mkseq //.
rewrite (@esum_mkseq _ _ (f i)) //=.
apply: (@eq_from_nth _ NaN).
  by rewrite size_set_nth !size_mkseq; apply/maxn_idPr.
move=> j; rewrite size_set_nth size_mkseq (maxn_idPr il) => jl.
rewrite nth_set_nth /= nth_mkseq // nth_mkseq // eq_sym.
by case: eqP.
Qed.

Lemma deriv_D1EU : deriv_D1 self = mkseq (fun i => mkseq (fun j => Fin (ell pts j)^`().[x i]) n) n.
Proof.
rewrite /deriv_D1 deriv_baseEU fill_diagE; apply: eq_mkseq_in => i il.
apply: eq_mkseq_in => j jl; congr Fin; rewrite (ellE (Ordinal jl)).
case: (i =P j) => [ij|/eqP ij].
  have := dlag_diag (xs_injU un) (Ordinal jl); rewrite /xs /= /x ij => ->.
  by congr (- _); apply: eq_bigr => k _; rewrite -(bseE (Ordinal jl)).
have := @dlag_off _ _ _ (xs_injU un) (Ordinal il) (Ordinal jl) ij.
by rewrite /xs /= /x => ->; rewrite /bse (negPf ij) !(bwnE (Ordinal _)).
Qed.

Lemma deriv_D2EU : deriv_D2 self = mkseq (fun i => mkseq (fun j => Fin (ell pts j)^`()^`().[x i]) n) n.
Proof.
rewrite /deriv_D2 deriv_baseEU deriv_iDiffEU map_zip_mkseq /=.
have -> : mkseq (fun i => [seq emul (emul (Fin (- 2%:R)) q.1) (eadd q.2 (esum (mkseq (fun j => Fin (bse i j)) n)))
     | q <- zip (mkseq (fun j => Fin (bse i j)) n) (mkseq (fun j => Fin (idf i j)) n)]) n =
   mkseq (fun i => mkseq (fun j => Fin (- 2%:R * bse i j * (idf i j + \sum_(k < n) bse i k))) n) n.
  apply: eq_mkseq_in => i il; rewrite map_zip_mkseq; apply: eq_mkseq_in => j jl /=.
  by rewrite (@esum_mkseq _ _ (bse i)).
rewrite fill_diagE; apply: eq_mkseq_in => i il.
have off (j : 'I_n) : (Ordinal il) != j ->
   (lag (@xs F pts) j)^`()^`().[x i] = - 2%:R * bse i j * (idf i j + \sum_(k < n) bse i k).
  move=> ij; have := d2lag_off (xs_injU un) ij; rewrite {1}/xs /= -/(x i) => ->.
  have -> : \sum_k dB (@xs F pts) (Ordinal il) k = \sum_(k < n) bse i k.
    by apply: eq_bigr => k _; rewrite -(bseE (Ordinal il)).
  by rewrite -bseE /idf -val_eqE /= in ij *; rewrite (negPf ij).
apply: eq_mkseq_in => j jl; congr Fin; rewrite (ellE (Ordinal jl)).
case: (i =P j) => [ij|/eqP ij]; last by rewrite (off (Ordinal jl)).
have := sum_d2lag (xs_injU un) (Ordinal il); rewrite (bigD1 (Ordinal il)) //=.
rewrite {1 2}/xs /= -/(x i) => /eqP; rewrite addr_eq0 => /eqP e.
have -> : Ordinal jl = Ordinal il by apply: val_inj.
rewrite e; congr (- _); rewrite (bigD1 (Ordinal il)) //= {1}/bse eqxx mulr0 mul0r add0r.
by apply: eq_bigr => k ki; rewrite /xs /= -/(x i) off // eq_sym.
Qed.

End Rows.

Section RowsSorted.
Variable F : realFieldType.
Variable pts : seq F.
Let n := size pts.
Hypothesis srt : sorted <%O pts.
Hypothesis n0 : (0 < size pts)%N.
Variable self : lagr F.
Variable c : F.
Hypothesis c0 : c != 0.
Hypothesis upE : uniquePoints self = pts.
Hypothesis wE : weights self = mkseq (fun j => Fin (c * bwn pts j)) n.
Lemma interp_rowE t : interp_row self t = mkseq (fun j => Fin (ell pts j).[t]) n.
Proof. exact: (interp_rowEU (uniq_pts srt) n0 c0 upE wE). Qed.
Lemma integ_rowE iN iW ab : size iW = size iN ->
  integ_row self iN iW ab =
  mkseq (fun j => Fin (\sum_(q < size iN)
     (ell pts j).[(ab.2 - ab.1) / 2%:R * nth 0 iN q + (ab.2 + ab.1) / 2%:R]
       * nth 0 iW q * ((ab.2 - ab.1) / 2%:R))) n.
Proof. exact: (integ_rowEU (uniq_pts srt) n0 c0 upE wE). Qed.
Lemma deriv_D1E : deriv_D1 self = mkseq (fun i => mkseq (fun j => Fin (ell pts j)^`().[nth 0 pts i]) n) n.
Proof. exact: (deriv_D1EU (uniq_pts srt) c0 upE wE). Qed.
Lemma deriv_D2E : deriv_D2 self = mkseq (fun i => mkseq (fun j => Fin (ell pts j)^`()^`().[nth 0 pts i]) n) n.
Proof. exact: (deriv_D2EU (uniq_pts srt) c0 upE wE). Qed.
End RowsSorted.

