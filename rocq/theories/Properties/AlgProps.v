(* Properties C43-C46: algebraic sweeps. *)
From Coq Require Import ZArith QArith Qcanon.
From Verif.Base Require Import Str.
From mathcomp Require Import all_ssreflect all_algebra ring zify.
From Verif.Base Require Import QcField Outcome Arr Ext PolyInterp PolyInt.
From Verif.Model Require Import Lagrange QGen Nodes Collocation Butcher Sweeps.
From Verif.Spec Require Import LagrangeSpec NodesSpec CollSpec SweepSpec.
From Verif.Proofs Require Import LagrangeP LagrangeInit LagrangeThms CollP FactorP.
From Verif.Properties Require Import NodesProps RKProps CollProps.
Set Implicit Arguments.
Unset Strict Implicit.
Unset Printing Implicit Defensive.
Import GRing.Theory Num.Theory Order.TTheory.
Local Open Scope ring_scope.

Section Alg.
Variable F : realFieldType.
Variables (A : seq (seq F)) (n : nat).
Hypothesis shA : is_shape A n n.

(* C46 *)
Theorem C46_PIC : is_shape (qd_PIC A) n n /\ forall i j, (i < n)%N -> (j < n)%N -> ent (qd_PIC A) i j = 0.
Proof.
have [zA _] := is_shapeP _ _ _ shA; rewrite /qd_PIC zA; split; first exact: mkmat_shape.
by move=> i j il jl; rewrite ent_mkmat.
Qed.
Theorem C46_Exact : qd_Exact A = A. Proof. by []. Qed.
Theorem C46_QPar : is_shape (qd_QPar A) n n /\
  forall i j, (i < n)%N -> (j < n)%N -> ent (qd_QPar A) i j = if i == j then ent A i j else 0.
Proof.
have [zA _] := is_shapeP _ _ _ shA; rewrite /qd_QPar zA.
have sh := diagm_shape (mkseq (fun i => ent A i i) n); rewrite size_mkseq in sh; split=> // i j il jl.
by rewrite ent_diagm ?size_mkseq // nth_mkseq //; case: eqP => [->|].
Qed.
Theorem C46_GS : is_shape (qd_GS A) n n /\
  forall i j, (i < n)%N -> (j < n)%N -> ent (qd_GS A) i j = if (j <= i)%N then ent A i j else 0.
Proof.
have [zA _] := is_shapeP _ _ _ shA; rewrite /qd_GS zA; split; first exact: mkmat_shape.
by move=> i j il jl; rewrite ent_mkmat.
Qed.

(* C43: the leading principal minors of order 1 .. n-1 do not vanish *)
Theorem C43_ldu : (forall k, (0 < k < n)%N -> \det (mxl k k A) != 0) ->
  exists L D U, lduFactorization A n = Ok (fmat L, fmat D, fmat U) /\
  [/\ is_shape L n n, is_shape D n n, is_shape U n n & mm n L (mm n D U) = A] /\
  (forall i j, (i < n)%N -> (j < n)%N ->
     ((i <= j)%N -> ent L i j = (i == j)%:R) /\ (i <> j -> ent D i j = 0) /\
     ((j <= i)%N -> ent U i j = (i == j)%:R)) /\
  (forall k, (k <= n)%N -> \det (mxl k k A) = \prod_(i < k) ent D i i).
Proof.
move=> minors; have [zA _] := is_shapeP _ _ _ shA.
have [L [d [U [[h1 h2 h3 h4] e]]]] := lduE shA minors.
exists (mkmat n n L), (mkmat n n (fun i j => if i == j then d i else 0)), (mkmat n n U).
have fm (f : nat -> nat -> F) : fmat (mkmat n n f) = tab n n (fun i j => Fin (f i j)).
  by rewrite /fmat /mkmat /tab map_mkseq; apply: eq_mkseq => i; rewrite map_mkseq.
split.
  rewrite /lduFactorization zA eqxx e !fm; congr (Ok (_, _, _)).
  rewrite /tab; apply: eq_mkseq_in => i il; apply: eq_mkseq_in => j jl.
  by case: eqP => // _; rewrite nth_mkseq.
have shL := mkmat_shape n n L; have shU := mkmat_shape n n U.
have shD : is_shape (mkmat n n (fun i j => if i == j then d i else 0)) n n by exact: mkmat_shape.
have prod i j : (i < n)%N -> (j < n)%N -> ent A i j = \sum_(k < n) L i k * d k * U k j.
  by move=> il jl; apply: (h4 i j) => //; exact: leq_ltn_trans (geq_minl _ _) il.
split.
  split=> //; apply: (mat_ext (mm_shape _ n shL) shA) => i j il jl.
  rewrite (ent_mm shL (mm_shape _ n shD) il jl) prod //; apply: eq_bigr => k _.
  rewrite ent_mkmat // (ent_mm shD shU (ltn_ord k) jl) -mulrA; congr (_ * _).
  rewrite (bigD1 k) //= !ent_mkmat // eqxx big1 ?addr0 // => l lk.
  by rewrite ent_mkmat // eq_sym val_eqE (negbTE lk) mul0r.
split.
  move=> i j il jl; rewrite !ent_mkmat //; split; [|split].
  - by rewrite leq_eqVlt => /orP [/eqP ->|ij]; [rewrite eqxx; case: (h1 j)|rewrite (ltn_eqF ij); case: (h2 i j ij)].
  - by move=> /eqP /negbTE ->.
  by rewrite leq_eqVlt => /orP [/eqP ->|ij]; [rewrite eqxx; case: (h1 i)|rewrite (gtn_eqF ij); case: (h2 j i ij)].
move=> k kn; rewrite (@det_unit_prod _ A n k L U d) //.
  by apply: eq_bigr => i _; rewrite ent_mkmat ?eqxx // (leq_trans (ltn_ord i)).
move=> r c rk ck; rewrite prod ?(leq_trans rk) ?(leq_trans ck) //.
rewrite -(big_mkord xpredT (fun l => L r l * d l * U l c)) -(big_mkord xpredT (fun l => L r l * d l * U l c)).
rewrite (big_cat_nat _ (n := k)) //= [X in _ + X]big_nat_cond [X in _ + X]big1 ?addr0 // => l.
by rewrite andbT => /andP [kl _]; have [-> _] := h2 r l (leq_trans rk kl); rewrite !mul0r.
Qed.

Theorem C43_not_square m : m <> n -> lduFactorization A m = Raise AssertionError.
Proof.
have [zA _] := is_shapeP _ _ _ shA => mn; rewrite /lduFactorization zA ifT //.
by apply/eqP => h; apply: mn.
Qed.

(* C44: if the first row of A vanishes all other entries of the diagonal are NaN *)
Theorem C44_zero_first_row_refuted : (1 < n)%N -> (forall j, (j < n)%N -> ent A 0 j = 0) ->
  exists2 D, qd_LDU A n = Ok D & eget D 0 0 = Fin 0 /\ forall i, (0 < i < n)%N -> eget D i i = NaN.
Proof.
have [zA _] := is_shapeP _ _ _ shA => n1 r0.
have nn : (0 < n <= n)%N by rewrite leqnn (ltnW n1).
have := ldu_zero shA r0 nn; rewrite /qd_LDU /lduFactorization zA eqxx /ldu zA /=.
case: (foldl _ _ _) => [[L d] U] [_ h2 h3]; eexists; first by [].
have n0 := ltnW n1; split; first by rewrite /eget /tab !nth_mkseq //= h2.
by move=> i /andP [i0 il]; rewrite /eget /tab !nth_mkseq // eqxx h3 // i0.
Qed.

(* C45: QDelta is lower triangular; QDelta L^T is A with its columns in the order of the pivots *)
Theorem C45_LU : exists perm L, let QD := qd_LU A in
  [/\ is_shape QD n n, is_shape L n n, perm_eq perm (iota 0 n),
      forall i j, (i < n)%N -> (j < n)%N -> (i < j)%N -> ent QD i j = 0 &
      forall i j, (i < n)%N -> (j < n)%N ->
        ((i <= j)%N -> ent L i j = (i == j)%:R) /\
        ent A i (nth 0%N perm j) = \sum_(k < n) ent QD i k * ent L j k] /\
  lu n (transp n A) = (perm, L, transp n QD).
Proof.
have [zA _] := is_shapeP _ _ _ shA; rewrite /qd_LU zA; have shT := transp_shape shA.
case e: (lu n (transp n A)) => [[perm L] U].
have [shL shU pe [hL hU hA]] := luE shT e; exists perm, L; split.
  split=> //; first exact: transp_shape.
    by move=> i j il jl ij; rewrite (ent_transp shU) // hU.
  move=> i j il jl; split=> [|]; first exact: hL.
  have pl : (nth 0%N perm j < n)%N.
    have := mem_nth 0%N (s := perm) (n := j); rewrite (perm_size pe) size_iota => /(_ jl).
    by rewrite (perm_mem pe) mem_iota add0n.
  rewrite -(ent_transp shA) // hA //; apply: eq_bigr => k _.
  by rewrite (ent_transp shU) // mulrC.
congr (_, _, _); apply: (mat_ext shU); first by apply: transp_shape; exact: transp_shape.
by move=> i j il jl; rewrite (ent_transp (transp_shape shU)) // (ent_transp shU).
Qed.

(* without row exchange, the iteration matrix of the stiff limit is nilpotent *)
Theorem C45_nilpotent perm L U : lu n (transp n A) = (perm, L, U) -> perm = iota 0 n ->
  mxl n n A \in unitmx ->
  let QD := mxl n n (qd_LU A) in QD \in unitmx /\ mpow (1%:M - invmx QD *m mxl n n A) n = 0.
Proof.
move=> e pe un; have [p' [L' [[sD sL pp lo en] e']]] := C45_LU.
move: e'; rewrite e pe => -[ep eL _]; subst p' L'.
move=> QD; have dec : QD *m (mxl n n L)^T = mxl n n A.
  apply/matrixP => i j; rewrite !mxE; have [_] := en i j (ltn_ord i) (ltn_ord j).
  by rewrite nth_iota ?add0n // => ->; apply: eq_bigr => k _; rewrite !mxE.
have uD : QD \in unitmx by move: un; rewrite -dec unitmx_mul => /andP [].
split=> //; rewrite -dec mulKmx //; apply: strict_upper_nil => i j ji; rewrite !mxE.
by have [-> //] := en j i (ltn_ord j) (ltn_ord i); rewrite eq_sym subrr.
Qed.

Theorem C45_LU2 : is_shape (qd_LU2 A) n n /\
  forall i j, (i < n)%N -> (j < n)%N -> ent (qd_LU2 A) i j = 2%:R * ent (qd_LU A) i j.
Proof.
have [p' [L' [[sD _ _ _ _] _]]] := C45_LU; have [z r] := is_shapeP _ _ _ sD.
split.
  apply/is_shapeP; rewrite size_map z; split=> // i il.
  by rewrite (nth_map [::]) ?z // size_map r.
by move=> i j il jl; rewrite /ent /qd_LU2 (nth_map [::]) ?z // (nth_map 0) ?r // mulrC.
Qed.
End Alg.

(* C44: so the LDU sweep is not finite for any collocation method with its left end as a node *)
Theorem C44_left_node_refuted (F : realFieldType) (fpi : F) eigh fsqrt flog fexp underflow leggauss roots_legendre fejer
    nt qt (M : nat) (a b : F) c Q :
  nodes_ok fpi eigh fsqrt nt qt M -> a < b -> logs_all flog fexp underflow ->
  rules_ok leggauss roots_legendre fejer M "FEJER" ->
  coll_init fpi eigh fsqrt flog fexp underflow leggauss roots_legendre fejer M%:Z nt qt a b = Ok c ->
  has_left qt -> co_Q c = fmat Q ->
  exists2 D, qd_LDU Q M = Ok D & forall i, (0 < i < M)%N -> eget D i i = NaN.
Proof.
move=> ok ab lg rl ec hl eQ.
have hd := C22_first_row ok ab lg rl ec (C22_left_is_node ok ab lg rl ec hl).
have [Q' [w [eQ' [_ [shQ _]]]]] := C21_exact ok ab lg rl ec.
have e : Q' = Q by apply: fmat_inj; rewrite -eQ' -eQ.
subst Q'; have [_ _ hM _] := ok; have [_ /(_ hl) M1] := least_pos hM.
have [|D eD [_ h]] := C44_zero_first_row_refuted shQ M1; last by exists D.
move=> j jl; move: hd; rewrite eQ; have [z r] := is_shapeP _ _ _ shQ.
rewrite -nth0 /fmat (nth_map [::]) ?z ?(ltnW M1) // => /(congr1 (fun s => nth (Fin 0) s j)).
by rewrite (nth_map 0) ?r ?(ltnW M1) // nth_nseq jl => -[].
Qed.

Print Assumptions C43_ldu.
Print Assumptions C43_not_square.
Print Assumptions C44_zero_first_row_refuted.
Print Assumptions C44_left_node_refuted.
Print Assumptions C45_LU.
Print Assumptions C45_nilpotent.
Print Assumptions C45_LU2.
Print Assumptions C46_PIC.
Print Assumptions C46_Exact.
Print Assumptions C46_QPar.
Print Assumptions C46_GS.

(* determinants of explicit matrices *)
Lemma det1 (R : comRingType) (A : seq (seq R)) : \det (mxl 1 1 A) = ent A 0 0.
Proof. by rewrite det_mx11 mxE. Qed.

(* C43: A = [[2,1],[4,5]] *)
Example C43_nonvacuous : let A := [:: [:: qc 2 1; 1]; [:: qc 4 1; qc 5 1]]%R in
  is_shape (A : seq (seq Qf)) 2 2 /\ (forall k, (0 < k < 2)%N -> (\det (mxl k k (A : seq (seq Qf))) != 0)%R) /\
  lduFactorization (F := Qf) A 2 = Ok (fmat [:: [:: 1; 0]; [:: qc 2 1; 1]]%R,
    fmat [:: [:: qc 2 1; 0]; [:: 0; qc 3 1]]%R, fmat [:: [:: 1; qc 1 2]; [:: 0; 1]]%R).
Proof.
split=> //; split; last by apply: ok_eqP; vm_compute.
by case=> [|[|k]] // _; rewrite det1; vm_compute.
Qed.

(* C44: the explicit midpoint rule *)
Example C44_nonvacuous :
  qd_LDU (F := Qf) [:: [:: 0; 0]; [:: qc 1 2; 0]]%R 2 =
    Ok [:: [:: Fin 0; Fin 0]; [:: Fin 0; NaN]]%R.
Proof. by apply: ok_eqP; vm_compute. Qed.

(* C45: two nodes, no exchange *)
Definition radau2 : seq (seq Qf) := [:: [:: qc 5 12; qc (-1) 12]; [:: qc 3 4; qc 1 4]].
Example C45_nonvacuous : (lu 2 (transp 2 radau2)).1.1 = iota 0 2 /\
  qd_LU radau2 = [:: [:: qc 5 12; 0]; [:: qc 3 4; qc 2 5]]%R /\ mxl 2 2 radau2 \in unitmx.
Proof.
split; first by vm_compute.
split; first by apply/eqP; vm_compute.
have shR : is_shape radau2 2 2 by [].
suff : mxl 2 2 radau2 *m mxl 2 2 [:: [:: qc 3 2; qc 1 2]; [:: qc (-9) 2; qc 5 2]] = 1%:M by case/mulmx1_unit.
by rewrite -(mxl_mm (k := 2)) // -mxl_eye; congr mxl; apply/eqP; vm_compute.
Qed.

(* powers of list matrices *)
Definition lpow (R : ringType) n (A : seq (seq R)) k := iter k (mm n A) (eye R n).
Lemma lpow_shape (R : ringType) n (A : seq (seq R)) k : is_shape A n n -> is_shape (lpow n A k) n n.
Proof. by move=> sh; case: k => [|k]; [exact: eye_shape|exact: (mm_shape _ n sh)]. Qed.
Lemma lpowE (R : ringType) n (A : seq (seq R)) k : is_shape A n n -> mxl n n (lpow n A k) = mpow (mxl n n A) k.
Proof.
move=> sh; elim: k => [|k ih]; first exact: mxl_eye.
by rewrite [lpow _ _ _]/= (mxl_mm (k := n)) ?ih //; exact: lpow_shape.
Qed.

(* partial pivoting exchanges rows for four equidistant nodes; the sweep is then not nilpotent *)
Theorem C45_exchange_refuted : exists c Q,
  [/\ qinit 4%:Z "EQUID" "GAUSS" 0%R 1%R = Ok c, co_Q c = fmat Q, mxl 4 4 Q \in unitmx,
      (lu 4 (transp 4 Q)).1.1 <> iota 0 4 &
      mpow (1%:M - invmx (mxl 4 4 (qd_LU Q)) *m mxl 4 4 Q)%R 4 <> 0%R].
Proof.
pose Q : seq (seq Qf) := [:: [:: qc (11) 24; qc (-59) 120; qc (37) 120; qc (-3) 40]; [:: qc (8) 15; qc (-1) 3; qc (4) 15; qc (-1) 15]; [:: qc (21) 40; qc (-9) 40; qc (3) 8; qc (-3) 40]; [:: qc (8) 15; qc (-4) 15; qc (8) 15; qc (0) 1]].
pose Qi : seq (seq Qf) := [:: [:: qc (-25) 6; qc (15) 2; qc (-5) 2; qc (5) 12]; [:: qc (-10) 3; qc (0) 1; qc (10) 3; qc (-5) 12]; [:: qc (5) 2; qc (-15) 2; qc (25) 6; qc (5) 4]; [:: qc (-20) 3; qc (15) 1; qc (-20) 1; qc (125) 12]].
pose Di : seq (seq Qf) := [:: [:: qc (-120) 59; qc (0) 1; qc (0) 1; qc (0) 1]; [:: qc (-600) 197; qc (885) 197; qc (0) 1; qc (0) 1]; [:: qc (33) 10; qc (-93) 10; qc (197) 30; qc (0) 1]; [:: qc (-20) 3; qc (15) 1; qc (-20) 1; qc (125) 12]].
have shQ : is_shape Q 4 4 by []. have shI : is_shape Qi 4 4 by []. have shD : is_shape Di 4 4 by [].
have shL : is_shape (qd_LU Q) 4 4 by have [p' [L' [[]]]] := C45_LU shQ.
exists (qcoll 4%:Z "EQUID" "GAUSS" 0%R 1%R), Q; split.
- by apply: ok_orE; vm_compute.
- by apply/eqP; vm_compute.
- suff : mxl 4 4 Q *m mxl 4 4 Qi = 1%:M by case/mulmx1_unit.
  by rewrite -(mxl_mm (k := 4)) // -mxl_eye; congr mxl; apply/eqP; vm_compute.
- by vm_compute.
have e : mxl 4 4 Di *m mxl 4 4 (qd_LU Q) = 1%:M.
  by rewrite -(mxl_mm (k := 4)) // -mxl_eye; congr mxl; apply/eqP; vm_compute.
have [_ uD] := mulmx1_unit e.
have -> : invmx (mxl 4 4 (qd_LU Q)) = mxl 4 4 Di by rewrite -[RHS]mulmx1 -(mulmxV uD) mulmxA e mul1mx.
rewrite -mxl_eye -(mxl_mm (k := 4)) // -mxl_msub ?mm_shape ?eye_shape // -lpowE.
  by move/matrixP => /(_ ord0 ord0); rewrite !mxE => /eqP; vm_compute.
by rewrite msub_shape ?eye_shape ?mm_shape.
Qed.
Print Assumptions C45_exchange_refuted.
