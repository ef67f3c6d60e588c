(* Properties C54, C55: numericalOrder and getExtrapolationMatrix (qmat/utils/num.py). *)
From Coq Require Import QArith Qcanon Reals.
From Verif.Base Require Import Str.
From mathcomp Require Import all_ssreflect all_algebra ring zify.
From Verif.Base Require Import QcField RField Outcome Arr Ext LinSolve PolyInterp.
From Verif.Model Require Import Lagrange NumUtil.
From Verif.Spec Require Import LagrangeSpec NumSpec.
From Verif.Proofs Require Import LagrangeP LagrangeInit LagrangeThms ExtrapP RegrP.
From Verif.Properties Require Import LagrangeProps.
Set Implicit Arguments.
Unset Strict Implicit.
Unset Printing Implicit Defensive.
Import GRing.Theory Num.Theory Order.TTheory.
Local Open Scope ring_scope.

Section Nan.
Variable F : realFieldType.
Implicit Types s : seq (ext F).
Lemma esum_nan s : NaN \in s -> esum s = NaN.
Proof.
elim: s => //= a s ih; rewrite inE => /orP [/eqP <- //|/ih].
by rewrite /esum /= => ->; case: a.
Qed.
Lemma esum_fin_ninf s : all (fun a => is_fin a || (a == NInf)) s ->
  if NInf \in s then esum s = NInf else exists x, esum s = Fin x.
Proof.
elim: s => [|a s ih] /=; first by exists 0.
move=> /andP [h /ih]; rewrite inE; case: a h => [x|||] // _.
  rewrite (_ : (NInf == Fin x) = false) //=; case: ifP => _; first by rewrite /esum /= => ->.
  by move=> [y e]; exists (x + y); rewrite /esum /= in e *; rewrite e.
rewrite eqxx /=; case: ifP => _; first by rewrite /esum /= => ->.
by move=> [y e]; rewrite /esum /= in e *; rewrite e.
Qed.
End Nan.

Section Order.
Variable F : realFieldType.
Variables (flog fexp fsqrt : F -> F).
Hypothesis hlog : log_laws flog fexp.
Hypothesis hsqrt : sqrt_laws fsqrt.
Implicit Types (nSteps err : seq F) (p C : F).
Notation numericalOrder := (numericalOrder flog fsqrt).

Lemma flogM x y : 0 < x -> 0 < y -> flog (x * y) = flog x + flog y.
Proof.
case: hlog => eD eL lE x0 y0.
by rewrite -{1}(eL x x0) -{1}(eL y y0) -eD (lE _).2.
Qed.
Lemma flog1 : flog 1 = 0.
Proof.
have := flogM ltr01 ltr01; rewrite mulr1 => /eqP.
by rewrite -subr_eq0 opprD addrA subrr add0r oppr_eq0 => /eqP.
Qed.
Lemma flogV x : 0 < x -> flog x^-1 = - flog x.
Proof.
move=> x0; have xi : 0 < x^-1 by rewrite invr_gt0.
by apply/eqP; rewrite -addr_eq0 -flogM // mulVf ?(lt0r_neq0 x0) // flog1.
Qed.
Lemma flog_inj x y : 0 < x -> 0 < y -> flog x = flog y -> x = y.
Proof. by case: hlog => _ eL _ x0 y0 e; rewrite -(eL x x0) -(eL y y0) e. Qed.

Lemma steps_size nSteps : steps_ok nSteps -> (0 < size nSteps)%N.
Proof. by case=> _ [i [j [h _ _]]]; apply: leq_ltn_trans h. Qed.

Let xs nSteps := [seq flog n^-1 | n <- nSteps].
Let ys err := [seq flog e | e <- err].
Let xf nSteps (i : 'I_(size (xs nSteps))) := nth 0 (xs nSteps) i.
Let yf nSteps err (i : 'I_(size (xs nSteps))) := nth 0 (ys err) i.

Lemma steps_sxx nSteps : steps_ok nSteps -> sxx (@xf nSteps) != 0.
Proof.
move=> h; have [/allP pos [i [j [il jl ne]]]] := h.
apply/eqP => /(@sxx_eq0 _ _ _) c.
have s : size (xs nSteps) = size nSteps by rewrite size_map.
have il' : (i < size (xs nSteps))%N by rewrite s.
have jl' : (j < size (xs nSteps))%N by rewrite s.
have pi := pos _ (mem_nth 0 il); have pj := pos _ (mem_nth 0 jl).
have : xf (Ordinal il') = xf (Ordinal jl') by rewrite !c.
rewrite /xf /= !(nth_map 0) // !flogV // => /oppr_inj /flog_inj e.
by apply: ne; apply: e.
Qed.

Lemma devE nSteps err a b : size err = size nSteps ->
  dev (@xf nSteps) (@yf nSteps err) a b = deviation (xs nSteps) (ys err) a b.
Proof. by []. Qed.

(* err = C / n^p, for every real p *)
Theorem C54_exact_order nSteps C p : steps_ok nSteps -> 0 < C ->
  numericalOrder nSteps [seq C / rpow flog fexp n p | n <- nSteps] = Ok (Fin p, Fin 0).
Proof.
move=> h C0; have [pos _] := h; have s0 := steps_size h; have nz := steps_sxx h.
set err := map _ _.
have sz : size err = size nSteps by rewrite size_map.
have pow n : 0 < rpow flog fexp n p by case: hlog => _ _ lE; apply: (lE _).1.
have pe : all (fun e => 0 < e) err by apply/allP => e /mapP [n _ ->]; rewrite divr_gt0.
rewrite (numOrderE flog hsqrt sz pos pe s0) (negPf nz).
have [] := @line_exact _ _ (@xf nSteps) (@yf nSteps err) _ nz (flog C) p.
- by rewrite size_map.
- move=> i; have il : (i < size nSteps)%N by case: i => i /=; rewrite size_map.
  have n0 : 0 < nth 0 nSteps i by apply: (allP pos); apply: mem_nth.
  have ie : (i < size err)%N by rewrite sz.
  rewrite /yf /xf /ys /xs (nth_map 0 _ flog ie) /err !(nth_map 0) // flogM ?invr_gt0 // !flogV //.
  rewrite /rpow; case: hlog => _ _ lE; rewrite (lE _).2.
  by rewrite mulrN.
move=> e1 [e2 e3]; rewrite e2 -[p in dev _ _ _ p]e2 e3.
by rewrite (fsqrt0 hsqrt) mul0r.
Qed.

(* integer orders *)
Theorem C54_integer_order nSteps C (p : int) : steps_ok nSteps -> 0 < C ->
  numericalOrder nSteps [seq C / n ^ p | n <- nSteps] = Ok (Fin p%:~R, Fin 0).
Proof.
move=> h C0; rewrite -(C54_exact_order p%:~R h C0); congr NumUtil.numericalOrder.
have [/allP pos _] := h; apply/eq_in_map => n /pos n0; congr (_ / _).
rewrite /rpow; case: hlog => eD eL lE.
have e0 : fexp 0 = 1 by rewrite -flog1; apply: eL; apply: ltr01.
have eV x : fexp (- x) = (fexp x)^-1.
  by apply: (mulfI (lt0r_neq0 (lE x).1)); rewrite -eD subrr e0 divff // gt_eqF // (lE x).1.
have eN (m : nat) : fexp (m%:R * flog n) = n ^+ m.
  by elim: m => [|m ih]; rewrite ?mul0r ?e0 // -addn1 natrD mulrDl mul1r eD ih eL // exprD.
case: p => m; first by rewrite -exprnP -eN.
by rewrite NegzE -exprnN -exprVn mulrNz mulNr eV eN exprVn.
Qed.

(* any positive errors: the unique least squares line in the log-log plane *)
Theorem C54_least_squares nSteps err : steps_ok nSteps -> size err = size nSteps ->
  all (fun e => 0 < e) err ->
  let x := [seq flog n^-1 | n <- nSteps] in let y := [seq flog e | e <- err] in
  exists a b r, [/\ numericalOrder nSteps err = Ok (Fin b, Fin r),
    (forall a' b', deviation x y a b <= deviation x y a' b'),
    (forall a' b', deviation x y a' b' = deviation x y a b -> a' = a /\ b' = b) &
    0 <= r /\ r ^+ 2 * (size nSteps)%:R = deviation x y a b].
Proof.
move=> h sz pe x y; have [pos _] := h; have s0 := steps_size h; have nz := steps_sxx h.
have s0' : (0 < size (xs nSteps))%N by rewrite size_map.
rewrite (numOrderE flog hsqrt sz pos pe s0) (negPf nz).
exists (icpt (@xf nSteps) (@yf nSteps err)), (slope (@xf nSteps) (@yf nSteps err)).
eexists; split; first reflexivity.
- by move=> a' b'; apply: (@dev_min _ _ _ _ s0' nz).
- by move=> a' b'; apply: (@dev_uniq _ _ _ _ s0' nz).
have [q0 q2] := hsqrt (@dev_ge0 _ _ (@xf nSteps) (@yf nSteps err) (icpt (@xf nSteps) (@yf nSteps err)) (slope (@xf nSteps) (@yf nSteps err))).
have [r0 r2] := hsqrt (ler0n F (size nSteps)).
split; first by rewrite divr_ge0.
have n0 : (size nSteps)%:R != 0 :> F by rewrite pnatr_eq0 -lt0n.
by rewrite expr_div_n q2 r2 divfK.
Qed.

(* rescaling the errors or the step numbers does not change the result *)
Theorem C54_scaling nSteps err c d : steps_ok nSteps -> size err = size nSteps ->
  all (fun e => 0 < e) err -> 0 < c -> 0 < d ->
  numericalOrder [seq d * n | n <- nSteps] [seq c * e | e <- err] = numericalOrder nSteps err.
Proof.
move=> h sz pe c0 d0; have [pos [i [j [il jl ne]]]] := h.
have pe' : all (fun e => 0 < e) [seq c * e | e <- err].
  by rewrite all_map; apply/allP => e /(allP pe) e0 /=; rewrite mulr_gt0.
have h' : steps_ok [seq d * n | n <- nSteps].
  split; first by rewrite all_map; apply/allP => e /(allP pos) e0 /=; rewrite mulr_gt0.
  exists i, j; split; rewrite ?size_map // !(nth_map 0) // => /(mulfI (lt0r_neq0 d0)).
  exact: ne.
have sz' : size [seq c * e | e <- err] = size [seq d * n | n <- nSteps] by rewrite !size_map.
have [a [b [r [-> m1 u1 [r0 r1]]]]] := C54_least_squares h sz pe.
have [a' [b' [r' [-> m2 u2 [r0' r1']]]]] := C54_least_squares h' sz' pe'.
have key A B : deviation [seq flog n^-1 | n <- [seq d * n | n <- nSteps]] [seq flog e | e <- [seq c * e | e <- err]] A B =
    deviation [seq flog n^-1 | n <- nSteps] [seq flog e | e <- err] (A - flog c - B * flog d) B.
  rewrite /deviation !size_map; apply: eq_bigr => k _.
  have n0 : 0 < nth 0 nSteps k by apply: (allP pos); apply: mem_nth.
  have e0 : 0 < nth 0 err k by apply: (allP pe); apply: mem_nth; rewrite sz.
  rewrite !(nth_map 0) ?size_map ?sz // !flogV ?mulr_gt0 // !flogM //.
  move: (flog c) (flog d) (flog (nth 0 err k)) (flog (nth 0 nSteps k)) => *; ring.
set D' := deviation [seq flog n^-1 | n <- [seq d * n | n <- nSteps]] [seq flog e | e <- [seq c * e | e <- err]] in key r1' m2 u2.
set D := deviation [seq flog n^-1 | n <- nSteps] [seq flog e | e <- err] in key r1 m1 u1.
have E : b = b' /\ D a b = D' a' b'.
  have k1 := m1 (a' - flog c - b' * flog d) b'; rewrite -key in k1.
  have k2 := m2 (a + flog c + b * flog d) b; rewrite (key _ b) in k2.
  have ea : a + flog c + b * flog d - flog c - b * flog d = a by ring.
  rewrite ea in k2; have k3 : D a b = D' a' b' by apply/eqP; rewrite eq_le k1 k2.
  split=> //; have [] := u1 (a' - flog c - b' * flog d) b'; last by [].
  by rewrite -key.
case: E => eb E; rewrite -eb; congr (Ok (_, Fin _)).
have n0 : (size nSteps)%:R != 0 :> F by rewrite pnatr_eq0 -lt0n steps_size.
move: r1'; rewrite size_map -E -r1 => /(mulIf n0) /eqP.
rewrite eqf_sqr => /orP [/eqP //|/eqP e].
have z : r = 0 by apply/eqP; rewrite eq_le r0 andbT -oppr_ge0 -e.
by rewrite e z oppr0.
Qed.

(* a single step number, repeated or not: no slope *)
Theorem C54_single_size nSteps err n : 0 < n -> (0 < size nSteps)%N -> size err = size nSteps ->
  all (fun e => 0 < e) err -> (forall m, m \in nSteps -> m = n) ->
  numericalOrder nSteps err = Ok (NaN, NaN).
Proof.
move=> n0 s0 sz pe all_eq.
have pos : all (fun n => 0 < n) nSteps by apply/allP => m /all_eq ->.
have s0' : (0 < size (xs nSteps))%N by rewrite size_map.
rewrite (numOrderE flog hsqrt sz pos pe s0).
have -> : sxx (@xf nSteps) = 0.
  apply: (@sxx_const _ _ _ s0' (flog n^-1)) => i.
  rewrite /xf /xs (nth_map 0); last by case: i => i /=; rewrite size_map.
  by rewrite (all_eq _ (mem_nth 0 _)) //; case: i => i /=; rewrite size_map.
by rewrite eqxx.
Qed.

(* one error that is zero (or negative) makes everything nan *)
Theorem C54_nonpositive_error nSteps err : size err = size nSteps -> has (fun e => e <= 0) err ->
  numericalOrder nSteps err = Ok (NaN, NaN).
Proof.
move=> sz /hasP [e ein e0]; rewrite /NumUtil.numericalOrder.
set x := [seq elog10 flog (ediv _ _) | _ <- _]; set y := [seq elog10 flog _ | _ <- err].
have sx : size x = size y by rewrite !size_map.
have [b bin bn] : exists2 b, b \in y & esub b (emean y) = NaN.
  case nan : (NaN \in y); first by exists NaN.
  exists (elog10 flog (Fin e)); first by apply: map_f.
  have en : elog10 flog (Fin e) = NInf.
    have : elog10 flog (Fin e) != NaN by apply/eqP => h; move/negP: nan; apply; rewrite -h; apply: map_f.
    by rewrite /= ltNge e0 /=; case: ifP.
  have al : all (fun a => is_fin a || (a == NInf)) y.
    apply/allP => a /mapP [f fin ea]; move: nan; rewrite ea => nan.
    have : elog10 flog (Fin f) != NaN by apply/eqP => h; move/negP: nan; apply; rewrite -h; apply: map_f.
    by rewrite /=; case: ifP => // _; case: ifP.
  have nin : NInf \in y by rewrite -en; apply: map_f.
  have := esum_fin_ninf al; rewrite nin => es.
  by rewrite en /emean es /= ltNge ler0n.
have xy : esum [seq emul p.1 p.2 | p <- zip [seq esub a (emean x) | a <- x] [seq esub b (emean y) | b <- y]] = NaN.
  apply: esum_nan; case/(nthP NaN): bin => i il bE.
  apply/mapP; exists (esub (nth NaN x i) (emean x), esub (nth NaN y i) (emean y)).
    2: by rewrite /= bE bn; case: (esub _ _).
  rewrite -(nth_map NaN NaN (fun a => esub a (emean x))) ?sx //.
  rewrite -(nth_map NaN NaN (fun a => esub a (emean y))) // -nth_zip ?size_map //.
  by rewrite mem_nth // size_zip !size_map sz minnn -sz; rewrite size_map in il.
have eb : broadcast (@emul F) [seq esub a (emean x) | a <- x] [seq esub b (emean y) | b <- y] =
  Ok [seq emul p.1 p.2 | p <- zip [seq esub a (emean x) | a <- x] [seq esub b (emean y) | b <- y]].
  by rewrite /broadcast !size_map sz eqxx.
rewrite eb [obind _ _]/= xy [ediv NaN _]/=.
rewrite /broadcast !size_map sz eqxx [obind _ _]/=; congr (Ok (_, _)).
have -> : esum [seq emul (esub p.1 p.2) (esub p.1 p.2) | p <- zip y [seq eadd (esub (emean y) (emul NaN (emean x))) (emul NaN a) | a <- x]] = NaN.
  apply: esum_nan.
  case: y sx bin {bn xy eb} => // b1 y1; case: x => // a1 x1 _ _ /=.
  by rewrite inE; case: (emean _) => [?|||]; case: b1.
by [].
Qed.

(* a single error is repeated for all the step numbers: order 0 *)
Lemma broadcast_l f (a : ext F) s : broadcast f [:: a] s = broadcast f (nseq (size s) a) s.
Proof.
have -> : broadcast f (nseq (size s) a) s = Ok (map (f a) s).
  by rewrite /broadcast size_nseq eqxx; congr Ok; elim: s => //= x s ->.
by case: s => [|x [|y s]].
Qed.
Lemma broadcast_r f (a : ext F) s : broadcast f s [:: a] = broadcast f s (nseq (size s) a).
Proof.
have -> : broadcast f s (nseq (size s) a) = Ok (map (f^~ a) s).
  by rewrite /broadcast size_nseq eqxx; congr Ok; elim: s => //= x s ->.
by case: s => [|x [|y s]].
Qed.
Lemma esum_nseq k (l : F) : esum (nseq k (Fin l)) = Fin (k%:R * l).
Proof. by elim: k => [|k IH] /=; rewrite ?mul0r // IH /= mulrS mulrDl mul1r. Qed.
Theorem C54_one_error nSteps e : steps_ok nSteps -> 0 < e ->
  numericalOrder nSteps [:: e] = numericalOrder nSteps (nseq (size nSteps) e) /\
  numericalOrder nSteps [:: e] = Ok (Fin 0, Fin 0).
Proof.
move=> h e0; have s0 := steps_size h.
suff E : numericalOrder nSteps [:: e] = numericalOrder nSteps (nseq (size nSteps) e).
  split=> //; rewrite E -(C54_integer_order 0 h e0); congr (numericalOrder _ _).
  transitivity (map (fun=> e) nSteps); first by elim: (nSteps) => //= n s' ->.
  by apply: eq_map => n; rewrite expr0z divr1.
have mE k : (0 < k)%N -> emean (nseq k (Fin (flog e))) = Fin (flog e).
  move=> k0; have nz : k%:R != 0 :> F by rewrite pnatr_eq0 -lt0n.
  by rewrite /emean esum_nseq size_nseq ediv_fin // mulrAC mulfV // mul1r.
have y1 : [seq elog10 flog (Fin x) | x <- [:: e]] = [:: Fin (flog e)] by rewrite /= e0.
have yk : [seq elog10 flog (Fin x) | x <- nseq (size nSteps) e] = nseq (size nSteps) (Fin (flog e)).
  by rewrite map_nseq /= e0.
rewrite /NumUtil.numericalOrder y1 yk.
have m1 : emean [:: Fin (flog e)] = Fin (flog e) := mE 1%N isT.
rewrite m1 (mE _ s0) !map_nseq -[map _ [:: Fin _]]/([:: esub (Fin (flog e)) (Fin (flog e))]).
rewrite broadcast_r !size_map.
case: (broadcast _ _ _) => //= xy.
by rewrite broadcast_l !size_map.
Qed.

Theorem C54_sizes nSteps err : size err <> size nSteps -> size err <> 1%N -> size nSteps <> 1%N ->
  numericalOrder nSteps err = Raise ValueError.
Proof.
move=> h1 h2 h3; rewrite /NumUtil.numericalOrder /broadcast !size_map.
by rewrite [size nSteps == _]eq_sym; do 3!case: eqP => //.
Qed.
End Order.

(* the laws hold for the real functions *)
Definition rlog10 (x : R) : R := Rdiv (ln x) (ln (IZR 10)).
Definition rexp10 (y : R) : R := exp (Rmult y (ln (IZR 10))).
Lemma ln10_neq0 : ln (IZR 10) <> R0.
Proof.
have h : Rlt R1 (IZR 10) by apply: (IZR_lt 1 10).
have := ln_increasing _ _ Rlt_0_1 h; rewrite ln_1 => h0 e.
by move: h0; rewrite e; apply: Rlt_irrefl.
Qed.
Lemma r_log_laws : log_laws (F := r_realFieldType) rlog10 rexp10.
Proof.
split.
- by move=> x y; rewrite /rexp10 -[LHS]/(exp (Rmult (Rplus x y) _)) Rmult_plus_distr_r exp_plus.
- move=> x /rltE x0; rewrite /rexp10 /rlog10 /Rdiv Rmult_assoc Rinv_l ?Rmult_1_r; last exact: ln10_neq0.
  exact: exp_ln.
move=> y; split; first by apply/rltE; apply: exp_pos.
by rewrite /rlog10 /rexp10 ln_exp /Rdiv Rmult_assoc Rinv_r ?Rmult_1_r //; apply: ln10_neq0.
Qed.
Lemma r_sqrt_laws : sqrt_laws (F := r_realFieldType) sqrt.
Proof.
move=> x /rleE x0; split; first by apply/rleE; apply: sqrt_pos.
by rewrite expr2; apply: sqrt_sqrt.
Qed.
(* two, four and eight steps *)
Lemma r_steps : steps_ok (F := r_realFieldType) [:: 2%:R; 4%:R; 8%:R].
Proof.
split; first by rewrite /= !ltr0n.
exists 0%N, 1%N; split=> //= /eqP; by rewrite eqr_nat.
Qed.

Print Assumptions C54_exact_order.
Print Assumptions C54_integer_order.
Print Assumptions C54_least_squares.
Print Assumptions C54_scaling.
Print Assumptions C54_single_size.
Print Assumptions C54_nonpositive_error.
Print Assumptions C54_one_error.
Print Assumptions C54_sizes.

(* errors 3/n^2 with 2, 4, 8 steps, over the real numbers *)
Example C54_nonvacuous :
  log_laws (F := r_realFieldType) rlog10 rexp10 /\ sqrt_laws (F := r_realFieldType) sqrt /\
  numericalOrder (F := r_realFieldType) rlog10 sqrt [:: 2%:R; 4%:R; 8%:R] [:: 3%:R / 4%:R; 3%:R / 16%:R; 3%:R / 64%:R]
    = Ok (Fin 2%:R, Fin 0).
Proof.
split; first exact: r_log_laws.
split; first exact: r_sqrt_laws.
have c0 : (0 : R) < 3%:R by rewrite ltr0n.
have := C54_integer_order r_log_laws r_sqrt_laws 2 r_steps c0.
rewrite /= -!exprnP -!natrX; exact.
Qed.

Section Extrap.
Variable F : realFieldType.
Implicit Types (nodes times v : seq F) (p q r : {poly F}).

(* the normal equations are solvable exactly when there are enough distinct nodes *)
Theorem C55_defined nodes times (N : nat) :
  if (N <= ndist nodes)%N
  then exists2 P, getExtrapolationMatrix nodes times (Some (N%:Z - 1)) = Ok P &
       is_shape P (size times) (size nodes)
  else getExtrapolationMatrix nodes times (Some (N%:Z - 1)) = Raise LinAlgError.
Proof.
have := extrap_model nodes times N; rewrite /=; case: ifP => // _ [P e [sh _]].
by exists P.
Qed.
Theorem C55_negative nodes times (p : int) : (p < -1)%R ->
  getExtrapolationMatrix nodes times (Some p) = Raise ValueError.
Proof. by move=> h; rewrite /getExtrapolationMatrix; case E : (p + 1) => //; lia. Qed.

(* polynomials of degree at most pOrder = N-1 are reproduced *)
Theorem C55_exact nodes times (N : nat) P p : (N <= ndist nodes)%N -> (size p <= N)%N ->
  getExtrapolationMatrix nodes times (Some (N%:Z - 1)) = Ok P ->
  mv P (pvals p nodes) = pvals p times.
Proof.
move=> le sp e; rewrite (extrap_mv le _ e) ?size_map // fit_exact // pcoefK //.
Qed.

(* any values: one polynomial, the unique least squares fit, whatever the times *)
Theorem C55_least_squares nodes (N : nat) v : (N <= ndist nodes)%N -> size v = size nodes ->
  exists q, [/\ (size q <= N)%N,
    (forall times P, getExtrapolationMatrix nodes times (Some (N%:Z - 1)) = Ok P -> mv P v = pvals q times),
    (forall r, (size r <= N)%N -> misfit nodes v q <= misfit nodes v r) &
    (forall r, (size r <= N)%N -> misfit nodes v r = misfit nodes v q -> r = q)].
Proof.
move=> le sv; exists (cpoly (fitc N (cvl (size nodes) v))).
set c := fitc _ _; set V := cvl (size nodes) v.
have mf (r : {poly F}) : (size r <= N)%N -> misfit nodes v r = sq (V - vmx nodes N *m pcoef N r).
  move=> sr; rewrite vmx_pvals //; apply: eq_bigr => i _.
  by rewrite !mxE (nth_map 0).
have sc := size_cpoly c.
split=> //.
- by move=> times P e; rewrite (extrap_mv le sv e).
- move=> r sr; rewrite !mf // cpolyK (fit_pyth le V (pcoef N r)) ler_addl.
  exact: sq_ge0.
move=> r sr; rewrite !mf // cpolyK (fit_pyth le V (pcoef N r)) => /eqP.
rewrite -subr_eq0 addrAC subrr add0r sq_eq0 mulmxBr subr_eq0 => /eqP /(X_inj le) e.
by rewrite -/c -(pcoefK sr) -e.
Qed.

(* default order, increasing nodes: the Lagrange interpolation matrix *)
Theorem C55_interpolation flog fexp underflow nodes times wc sw sr d self :
  sorted <%O nodes -> points_ok nodes d /\ setting_ok nodes wc sr /\ logs_ok flog fexp underflow nodes wc ->
  lagrange_init flog fexp underflow nodes wc sw sr d None = Ok self ->
  exists2 P, getExtrapolationMatrix nodes times None = Ok P &
    getInterpolationMatrix self times true = fmat P.
Proof.
move=> so h e; have [n0 _] := h.1.
have un : uniq nodes := lt_sorted_uniq so.
have nd : ndist nodes = size nodes by rewrite /ndist undup_id.
have := extrap_model nodes times (size nodes); rewrite nd leqnn => -[P eP [shP _]].
have eP' : getExtrapolationMatrix nodes times None = Ok P by rewrite -eP /getExtrapolationMatrix.
exists P => //.
have [self' e' [M eM [shM exM]]] := @C01_interpolation_exact F flog fexp underflow nodes wc sw sr d times h.
have es : self' = self by move: e'; rewrite e => -[].
rewrite es in eM; rewrite eM; congr fmat.
apply: (mat_ext shM shP) => i j il jl.
pose l := lag (fun k : 'I_(size nodes) => nth 0 nodes k) (Ordinal jl).
have sl : (size l <= size nodes)%N by apply: size_lag.
have inj : injective (fun k : 'I_(size nodes) => nth 0 nodes k).
  by move=> a b /eqP; rewrite nth_uniq // => /eqP /ord_inj.
have e1 := exM l; rewrite nd in e1; have {e1} e1 := e1 sl.
have e2 := @C55_exact nodes times (size nodes) P l; rewrite nd in e2.
have {e2} e2 := e2 (leqnn _) sl eP.
have := congr1 (fun s => nth 0 s i) e1; rewrite -e2.
have lv : pvals l nodes = mkseq (fun k => (k == j)%:R) (size nodes).
  apply: (@eq_from_nth _ 0); rewrite !size_map ?size_iota // => k kl.
  rewrite (nth_map 0) // nth_mkseq //.
  exact: (lag_node inj (Ordinal kl) (Ordinal jl)).
have pick (A : seq (seq F)) : is_shape A (size times) (size nodes) -> nth 0 (mv A (pvals l nodes)) i = ent A i j.
  move=> sA; rewrite (@nth_mv _ _ _ (size times) (size nodes)) ?size_map // lv (bigD1 (Ordinal jl)) //=.
  rewrite nth_mkseq // eqxx mulr1 big1 ?addr0 // => k kj.
  by rewrite nth_mkseq // -[(k : nat) == j]/(k == Ordinal jl) (negPf kj) mulr0.
by rewrite !pick.
Qed.
End Extrap.

Print Assumptions C55_defined.
Print Assumptions C55_negative.
Print Assumptions C55_exact.
Print Assumptions C55_least_squares.
Print Assumptions C55_interpolation.

(* regression line through three nodes, a repeated node, and too few distinct nodes *)
Example C55_nonvacuous :
  getExtrapolationMatrix (F := qc_realFieldType) [:: qc 0 1; qc 1 1; qc 2 1] [:: qc 3 1] (Some (Posz 1))
     = Ok [:: [:: qc (-2) 3; qc 1 3; qc 4 3]] /\
  (2 <= ndist (F := qc_realFieldType) [:: qc 0 1; qc 1 1; qc 2 1])%N /\
  getExtrapolationMatrix (F := qc_realFieldType) [:: qc 0 1; qc 1 1; qc 1 1] [:: qc 3 1] (Some (Posz 1))
     = Ok [:: [:: qc (-2) 1; qc 3 2; qc 3 2]] /\
  getExtrapolationMatrix (F := qc_realFieldType) [:: qc 0 1; qc 1 1; qc 1 1] [:: qc 3 1] None
     = Raise LinAlgError.
Proof.
split; first by apply: ok_eqP; vm_compute.
split; first by vm_compute.
split; first by apply: ok_eqP; vm_compute.
have h := @C55_defined qc_realFieldType [:: qc 0 1; qc 1 1; qc 1 1] [:: qc 3 1] 3%N.
exact: h.
Qed.
