(* The SOE matrix satisfies the leap-frog recurrence. *)
From Verif.Base Require Import Str.
From mathcomp Require Import all_ssreflect all_algebra ring zify.
From Verif.Base Require Import Outcome Arr Ext PolyInterp PolyInt.
From Verif.Model Require Import Lagrange QGen Nodes Collocation Sweeps.
From Verif.Spec Require Import LagrangeSpec NodesSpec CollSpec SweepSpec.
From Verif.Proofs Require Import LagrangeP LagrangeInit LagrangeThms CollP SweepP SoeP.
Set Implicit Arguments.
Unset Strict Implicit.
Unset Printing Implicit Defensive.
Import GRing.Theory Num.Theory Order.TTheory.
Local Open Scope ring_scope.

Section Soe.
Variable F : realFieldType.
Variables (flog fexp : F -> F) (underflow : seq F -> bool).
Hypothesis lg : logs_all flog fexp underflow.
Variables (self : ts F).
Let nodes := ts_nodes self.
Let M := size nodes.
Let t := 0 :: nodes.

Lemma triple m : (m + 1 < M)%N -> take 3 (drop m t) = [:: nth 0 t m; nth 0 t m.+1; nth 0 t m.+2].
Proof.
move=> ml; have zt : size t = M.+1 by [].
by do 3 (rewrite (drop_nth 0) ?zt; last by lia); rewrite /= take0.
Qed.

(* at each step the coefficients are exact for polynomials of size r, with the derivative at x *)
Variables (r : nat -> nat) (x : nat -> F).
Hypothesis al_ok : forall m, (m + 1 < M)%N -> exists a b c, [/\ c != 0,
  soe_alpha flog fexp underflow t m = Ok (Fin a, Fin b, Fin c) &
  forall p : {poly F}, (size p <= r m)%N ->
    a * p.[nth 0 t m] + b * p.[nth 0 t m.+1] + c * p.[nth 0 t m.+2] = p^`().[x m]].
Hypothesis M0 : (0 < M)%N.

Let al m : F * F * F := if soe_alpha flog fexp underflow t m is Ok (x, y, z) then (unfin x, unfin y, unfin z) else (0, 0, 1).

Lemma soe_matrix : exists Q, qd_SOE self flog fexp underflow = Ok (fmat Q) /\ is_shape Q M M /\
  (forall i j, (i < M)%N -> (j < M)%N -> (i <= j)%N -> ent Q i j = 0) /\
  forall f : seq F, size f = M -> let U := 0 :: mv Q f in
   forall m, (m + 1 < M)%N -> exists a b c, [/\ c != 0,
     a * nth 0 U m + b * nth 0 U m.+1 + c * nth 0 U m.+2 = nth 0 f m &
     forall p : {poly F}, (size p <= r m)%N ->
       a * p.[nth 0 t m] + b * p.[nth 0 t m.+1] + c * p.[nth 0 t m.+2] = p^`().[x m]].
Proof.
exists (mkmat M M (fun i j => (soeR al i).1 j)).
have alE m : (m + 1 < M)%N -> (al m).2 != 0 /\
    soe_alpha flog fexp underflow t m = Ok (Fin (al m).1.1, Fin (al m).1.2, Fin (al m).2).
  by move=> ml; have [a [b [c [c0 e _]]]] := al_ok ml; rewrite /al e.
split.
  rewrite /qd_SOE -/nodes -/M -/t.
  rewrite (omap_seq_okI (g := fun m => (Fin (al m).1.1, Fin (al m).1.2, Fin (al m).2))); last first.
    by move=> m; rewrite mem_iota => ml; apply: (alE m _).2; lia.
  rewrite [obind _ _]/obind (@soe_rowsE _ al) //; first by rewrite size_map size_iota subn1.
  move=> i il; have il' : (i + 1 < M)%N by lia.
  have [h1 _] := alE i il'; split=> //.
  by rewrite (nth_map 0%N) ?size_iota ?subn1 // nth_iota ?subn1.
split; first exact: mkmat_shape.
split; first by move=> i j il jl ij; rewrite ent_mkmat // soeR_low.
move=> f zf U m ml; have [a [b [c [c0 e ex]]]] := al_ok ml.
exists a, b, c; split=> //.
have U1 k : (k < M)%N -> nth 0 U k.+1 = \sum_(j < M) (soeR al k).1 j * nth 0 f j.
  move=> kl; rewrite /= (nth_mv (mkmat_shape M M _)) //; apply: eq_bigr => j _; by rewrite ent_mkmat.
have m1 : (m < M)%N by lia. have m2 : (m.+1 < M)%N by lia.
have alm : al m = (a, b, c) by rewrite /al e.
have rec j : a * (if m is m'.+1 then (soeR al m').1 j else 0) + b * (soeR al m).1 j
    + c * (soeR al m.+1).1 j = (j == m)%:R.
  by have := @soeR_rec _ al m j; rewrite alm; apply.
have U0 : nth 0 U m = \sum_(j < M) (if m is m'.+1 then (soeR al m').1 j else 0) * nth 0 f j.
  case: m {ml m2 e ex alm rec} m1 => [|m] m1; last by rewrite U1 ?(ltnW m1).
  by rewrite big1 // => j _; rewrite mul0r.
rewrite U0 !U1 // !big_distrr -!big_split /=.
rewrite (eq_bigr (fun j : 'I_M => if j == Ordinal m1 then nth 0 f j else 0)).
  by rewrite -big_mkcond big_pred1_eq.
move=> j _; rewrite !mulrA -!mulrDl rec -val_eqE /=; case: eqP => _; by rewrite ?mul1r ?mul0r.
Qed.
End Soe.

(* interpolation through three points *)
Lemma three_points (F : realFieldType) (x y z u v w : F) : x != y -> x != z -> y != z ->
  exists q : {poly F}, [/\ (size q <= 3)%N, q.[x] = u, q.[y] = v & q.[z] = w].
Proof.
move=> xy xz yz.
pose q := (u / ((x - y) * (x - z)))%:P * (('X - y%:P) * ('X - z%:P)) +
  (v / ((y - x) * (y - z)))%:P * (('X - x%:P) * ('X - z%:P)) +
  (w / ((z - x) * (z - y)))%:P * (('X - x%:P) * ('X - y%:P)).
have hx : x - y != 0 by rewrite subr_eq0. have hz : x - z != 0 by rewrite subr_eq0.
have hy : y - z != 0 by rewrite subr_eq0.
have hx' : y - x != 0 by rewrite subr_eq0 eq_sym. have hz' : z - x != 0 by rewrite subr_eq0 eq_sym.
have hy' : z - y != 0 by rewrite subr_eq0 eq_sym.
exists q; split.
- have s2 (a b c : F) : (size (a%:P * (('X - b%:P) * ('X - c%:P)) : {poly F})%R <= 3)%N.
    rewrite mul_polyC (leq_trans (size_scale_leq _ _)) //.
    by rewrite (leq_trans (size_mul_leq _ _)) // !size_XsubC.
  rewrite /q (leq_trans (size_add _ _)) // geq_max s2 andbT (leq_trans (size_add _ _)) //.
  by rewrite geq_max !s2.
- by rewrite /q !(hornerD, hornerN, hornerM, hornerX, hornerC); field; rewrite ?hx ?hx' ?hy ?hy' ?hz ?hz'.
- by rewrite /q !(hornerD, hornerN, hornerM, hornerX, hornerC); field; rewrite ?hx ?hx' ?hy ?hy' ?hz ?hz'.
by rewrite /q !(hornerD, hornerN, hornerM, hornerX, hornerC); field; rewrite ?hx ?hx' ?hy ?hy' ?hz ?hz'.
Qed.

Section SoeThms.
Variable F : realFieldType.
Variables (flog fexp : F -> F) (underflow : seq F -> bool).
Hypothesis lg : logs_all flog fexp underflow.

Lemma alpha3 times m x y z : take 3 (drop m times) = [:: x; y; z] -> x < y -> y < z ->
  exists a b c, [/\ c != 0,
  soe_alpha flog fexp underflow times m = Ok (Fin a, Fin b, Fin c) &
  forall p : {poly F}, (size p <= 3)%N ->
    a * p.[x] + b * p.[y] + c * p.[z] = p^`().[y]].
Proof.
move=> e xy yz; have := @alphaE F flog fexp underflow lg times m; rewrite e => /(_ erefl).
have srt : sorted <%O [:: x; y; z] by rewrite /= xy yz.
have un : uniq [:: x; y; z] by exact: lt_sorted_uniq.
have nd : ndist [:: x; y; z] = 3%N by rewrite /ndist undup_id.
have dp : dpts [:: x; y; z] = [:: x; y; z].
  rewrite /dpts sorted_sort //; [exact: undup_id|exact: le_trans|]; exact: sub_sorted (@ltW _ _) _ srt.
case; [by split; last left|by rewrite nd|] => a [b [c [ea ex]]]; exists a, b, c; rewrite nd dp /= in ex.
split=> //; have sz : (size (('X - x%:P) * ('X - y%:P))%R <= 3)%N.
  by rewrite (leq_trans (size_mul_leq _ _)) // !size_XsubC.
have := ex _ sz; rewrite derivM !derivXsubC mul1r mulr1 !(hornerD, hornerN, hornerM, hornerX, hornerC).
rewrite !subrr mul0r !mulr0 !add0r => h; apply/eqP => c0; move/eqP: h; rewrite c0 mul0r eq_sym subr_eq0.
by rewrite gt_eqF.
Qed.

Lemma alpha2 times m z : take 3 (drop m times) = [:: 0; 0; z] -> 0 < z ->
  exists a b c, [/\ c != 0,
  soe_alpha flog fexp underflow times m = Ok (Fin a, Fin b, Fin c) &
  forall p : {poly F}, (size p <= 2)%N ->
    a * p.[0] + b * p.[0] + c * p.[z] = p^`().[z]].
Proof.
move=> e z0; have := @alphaE F flog fexp underflow lg times m; rewrite e => /(_ erefl).
have nd : ndist [:: 0; 0; z] = 2%N by rewrite /ndist /= inE eqxx /= inE lt_eqF.
have dp : dpts [:: 0; 0; z] = [:: 0; z].
  rewrite /dpts sorted_sort; [by rewrite /= inE eqxx /= inE lt_eqF|exact: le_trans|].
  by rewrite /= lexx ltW.
case.
- by split=> //; right; rewrite /= inE eqxx; split=> //; left.
- by rewrite nd.
move=> a [b [c [ea ex]]]; exists a, b, c; rewrite nd dp /= in ex; split=> //.
have := ex 'X; rewrite size_polyX !hornerX derivX hornerC !mulr0 !add0r => /(_ isT) h.
by apply/eqP => c0; move/eqP: h; rewrite c0 mul0r eq_sym oner_eq0.
Qed.
End SoeThms.
