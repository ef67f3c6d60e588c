(* The leap-frog sweep SOE. *)
From Verif.Base Require Import Str.
From mathcomp Require Import all_ssreflect all_algebra ring zify.
From Verif.Base Require Import Outcome Arr Ext PolyInterp PolyInt.
From Verif.Model Require Import Lagrange QGen Nodes Collocation Sweeps.
From Verif.Spec Require Import LagrangeSpec NodesSpec CollSpec.
From Verif.Proofs Require Import LagrangeP LagrangeInit LagrangeThms CollP.
From Verif.Properties Require Import LagrangeProps.
Set Implicit Arguments.
Unset Strict Implicit.
Unset Printing Implicit Defensive.
Import GRing.Theory Num.Theory Order.TTheory.
Local Open Scope ring_scope.

Section Soe.
Variable F : realFieldType.
Variables (flog fexp : F -> F) (underflow : seq F -> bool).
Hypothesis lg : logs_all flog fexp underflow.

(* the three coefficients at the middle of three points *)
Lemma alphaE times i : size (take 3 (drop i times)) = 3%N ->
  points_ok (take 3 (drop i times)) "USE_LEFT" -> (1 < ndist (take 3 (drop i times)))%N ->
  let pts := take 3 (drop i times) in
  exists a b c, soe_alpha flog fexp underflow times i = Ok (Fin a, Fin b, Fin c) /\
  forall p : {poly F}, (size p <= ndist pts)%N ->
    a * p.[nth 0 pts 0] + b * p.[nth 0 pts 1] + c * p.[nth 0 pts 2] = p^`().[nth 0 (dpts pts) 1].
Proof.
move=> zp pok nd1 pts; rewrite /soe_alpha -/pts; rewrite -/pts in zp pok nd1.
have lok : lag_ok flog fexp underflow pts "AUTO" "MAX" "USE_LEFT".
  split=> //; split; last exact: logs_all_ok.
  by right; left; split; [left|right].
have [self e _] := @lag_init _ flog fexp underflow _ _ false _ _ None lok isT.
rewrite e [obind _ _]/obind.
have [D eD [shD [hD _]]] := C08_first_derivative_exact lok e.
rewrite eD; have [zD rD] := is_shapeP _ _ _ shD; rewrite zp in rD.
rewrite [obind _ _]/obind /fmat (nth_map [::]) ?zD //.
have := rD 1%N nd1; case eN: (nth [::] D 1) => [|a [|b [|c []]]] //= _.
exists a, b, c; split=> // p sp; have := hD p sp; move/(congr1 (fun s => nth 0 s 1)).
rewrite /mv (nth_map [::]) ?zD // eN.
have zd : (1 < size (dpts pts))%N.
  by rewrite (perm_size (perm_undup (mem_sort <=%O pts))).
have p3 : pts = [:: nth 0 pts 0; nth 0 pts 1; nth 0 pts 2].
  by move: zp; clear; case: pts => [|x [|y [|z []]]].
rewrite /pvals (nth_map 0) // => <-; rewrite {4}p3 /dot /=; ring.
Qed.

(* the rows as functions *)
Variable al : nat -> F * F * F.
Fixpoint soeR (m : nat) : (nat -> F) * (nat -> F) :=
  match m with
  | 0 => (fun _ => 0, fun _ => 0)
  | m'.+1 =>
    let R := soeR m' in
    let: (a, b, c) := al m' in
    (fun j => if j == m' then 1 / c else if (j < m')%N then - b / c * R.1 j - a / c * R.2 j else 0, R.1)
  end.

Lemma soeR_low m j : (m <= j)%N -> (soeR m).1 j = 0.
Proof.
case: m => [|m] //= mj; case: (al m) => [[a b] c] /=.
by rewrite gtn_eqF // ltnNge (ltnW mj).
Qed.

Lemma soeR2 m : (soeR m.+1).2 = (soeR m).1.
Proof. by rewrite /=; case: (al m) => [[a b] c]. Qed.

Lemma soe_rowsE n m (alpha : seq (ext F * ext F * ext F)) : (m <= n)%N -> (0 < n)%N -> size alpha = n.-1 ->
  (forall i, (i < n.-1)%N -> (al i).2 != 0 /\ nth (NaN, NaN, NaN) alpha i = (Fin (al i).1.1, Fin (al i).1.2, Fin (al i).2)) ->
  soe_rows n alpha m = fmat (mkseq (fun i => mkseq (soeR i).1 n) m).
Proof.
move=> mn n0 za ha; elim: m mn => // m ih mn; rewrite mkseqS /fmat map_rcons -/(fmat _) -ih ?(ltnW mn) //=.
congr rcons; case: m ih mn => [|m] ih mn.
  rewrite /=; apply: (@eq_from_nth _ (Fin 0)); rewrite size_nseq ?size_map ?size_iota // => i il.
  by rewrite nth_nseq il (nth_map 0) ?size_mkseq // nth_mkseq.
rewrite [m.+1 == 0%N]/= [m.+1.-1]/=; have ml : (m < n.-1)%N by case: (n) n0 mn.
have [c0 ->] := ha m ml; rewrite /mkseq -map_comp; apply/eq_in_map => j; rewrite mem_iota add0n => /andP [_ jl].
rewrite ih ?(ltnW mn) // [soeR m.+1]/= -/(soeR m); case eA: (al m) => [[a b] c] /=.
rewrite eA /= in c0; rewrite (negbTE c0).
have gE i : (i < m.+1)%N -> eget (fmat (mkseq (fun i => mkseq (soeR i).1 n) m.+1)) i j = Fin ((soeR i).1 j).
  by move=> il; rewrite /eget /fmat (nth_map [::]) ?size_mkseq // (nth_map 0) ?nth_mkseq ?size_mkseq.
case: eqP => [//|_]; case: ltnP => jm //; case: m jm gE {ih mn ml eA} => // m jm gE.
rewrite subSS subn1 !gE //= -/(soeR m); case: (al m) => [[a' b'] c'] /=.
by congr Fin.
Qed.

(* the three term recurrence *)
Lemma soeR_rec m j : (al m).2 != 0 ->
  (al m).1.1 * (if m is m'.+1 then (soeR m').1 j else 0) + (al m).1.2 * (soeR m).1 j
  + (al m).2 * (soeR m.+1).1 j = (j == m)%:R.
Proof.
have -> : (if m is m'.+1 then (soeR m').1 j else 0) = (soeR m).2 j by case: m => // m; rewrite soeR2.
move=> c0; have low2 : (m <= j.+1)%N -> (soeR m).2 j = 0.
  by case: m {c0} => // m mj; rewrite soeR2 soeR_low.
rewrite [soeR m.+1]/=; case: (al m) c0 => [[a b] c] /= c0.
case: (ltngtP j m) => jm.
- by move: ((soeR m).1 j) ((soeR m).2 j) => x y /=; field.
- have l2 := low2 (leq_trans (ltnW jm) (leqnSn j)); have l1 := soeR_low (ltnW jm).
  by rewrite l2 l1 !mulr0 !addr0.
have l2 : (soeR m).2 j = 0 by apply: low2; rewrite jm.
have l1 : (soeR m).1 j = 0 by apply: soeR_low; rewrite jm.
by rewrite l2 l1 !mulr0 !add0r mulrC divfK.
Qed.
End Soe.
