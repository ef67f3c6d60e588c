(* Properties C30-C36: Q-generators, Runge-Kutta tables, Dahlquist solver. *)
From Coq Require Import ZArith QArith Qcanon List.
From Verif.Base Require Import Str.
From mathcomp Require Import all_ssreflect all_algebra algC ring.
From Verif.Base Require Import QcField QcEmb Outcome Arr Ext LinSolve.
From Verif.Model Require Import Lagrange QGen Butcher.
From Verif.Spec Require Import LagrangeSpec QCoeffSpec ButcherSpec.
From Verif.Proofs Require Import StabP PadP OrderP ButcherP SchemeP.
Set Implicit Arguments.
Unset Strict Implicit.
Unset Printing Implicit Defensive.
Import GRing.Theory Num.Theory Order.TTheory.
Local Open Scope ring_scope.

Definition sample_table : table qc_ringType := @Table qc_ringType
  [:: [:: 0; 0]; [:: qc 1 2; 0]]%R [:: 0; 1]%R [:: 0; qc 1 2]%R (Some [:: 1; 0]%R) 2 1.

Section Padding.
Variable K : fieldType.
Implicit Types (t : table K).

(* row sums of A equal to c *)
Definition row_consistent (A : seq (seq K)) (c : seq K) : Prop :=
  forall i, (i < size c)%N -> vsum (nth [::] A i) = nth 0 c i.

Theorem C30_padding_invariant t pad r lam u0 tEnd N :
  table_check t -> rk_init t pad = Ok r ->
  rk_dahlquist r lam u0 tEnd N false = rk_dahlquist (rk_of t) lam u0 tEnd N false.
Proof.
move=> /table_check_wf w; rewrite /rk_init; case: pad => [p|]; last by case=> <-.
case: eqP => _; first by case=> <-.
case: ifP => //= _ [<-]; move: (size _) w => n w.
have sl := same_left w; have sr := same_right w.
case: ifP => _; case: ifP => _ //; apply: (rk_dahlquist_same _ _ _ _ w).
- apply: same_trans (@same_left _ _ _) _; exact: same_right.
- exact: same_right.
- exact: same_left.
Qed.

Theorem C30_padding_argument t (p : string) :
  (exists r, rk_init t (Some p) = Ok r) <-> p \in [:: ""; "LEFT"; "RIGHT"; "BOTH"]%string.
Proof.
rewrite /rk_init !inE; case: eqP => [->|_] /=; first by split=> // _; eexists.
by case: ifP => //= h; split; [case|rewrite (negbTE h)|move=> _; move/negbFE: h|move=> _; eexists].
Qed.

(* the added stages: LEFT adds the initial value, RIGHT the result of the step *)
Theorem C30_padded_table t r n : table_check t -> n = size (tc t) ->
  (rk_init t (Some "LEFT"%string) = Ok r -> rc r = 0 :: tc t /\ rb r = 0 :: tb t /\
     rA r = nseq n.+1 0 :: [seq 0 :: row | row <- tA t]) /\
  (rk_init t (Some "RIGHT"%string) = Ok r -> rc r = rcons (tc t) 1 /\ rb r = rcons (tb t) 0 /\
     rA r = rcons [seq rcons row 0 | row <- tA t] (rcons (tb t) 0)) /\
  (rk_init t (Some "BOTH"%string) = Ok r -> rc r = 0 :: rcons (tc t) 1 /\
     rb r = 0 :: rcons (tb t) 0 /\
     rA r = nseq n.+2 0 :: [seq 0 :: rcons row 0 | row <- tA t] ++ [:: 0 :: rcons (tb t) 0]).
Proof.
move=> /table_check_wf w en; rewrite -en in w.
have -> : rk_init t (Some "LEFT"%string) = Ok (pad_left (rk_of t)) by [].
have -> : rk_init t (Some "RIGHT"%string) = Ok (pad_right (rk_of t)) by [].
have -> : rk_init t (Some "BOTH"%string) = Ok (pad_right (pad_left (rk_of t))) by [].
split; [|split] => -[<-]; do 2 (split; first by []).
- exact: (pad_leftA w).
- exact: (pad_rightA w).
rewrite (pad_rightA (pad_left_wf w)) (pad_leftA w) /= cats1 -map_comp; congr (_ :: _).
have -> // : rcons (nseq n (0 : K)) 0 = nseq n.+1 0.
apply: (@eq_from_nth _ 0); rewrite ?size_rcons ?size_nseq // => i il.
by rewrite nth_rcons !nth_nseq size_nseq !if_same.
Qed.

(* the row sums stay equal to the nodes, RIGHT requiring weights that sum to one *)
Theorem C30_padding_consistent t pad r : table_check t -> rk_init t pad = Ok r ->
  row_consistent (tA t) (tc t) -> vsum (tb t) = 1 ->
  row_consistent (rA r) (rc r) /\ vsum (rb r) = 1.
Proof.
have L n (r0 : rk K) : rk_wf n r0 -> row_consistent (rA r0) (rc r0) /\ vsum (rb r0) = 1 ->
    row_consistent (rA (pad_left r0)) (rc (pad_left r0)) /\ vsum (rb (pad_left r0)) = 1.
  move=> w [hr hb]; split; last by rewrite /= add0r.
  rewrite (pad_leftA w) => -[|i] il.
    by rewrite -[nth _ (_ :: _) 0]/(nseq n.+1 (0 : K)) vsum_big big_nseq iter_addr_0 mul0rn.
  case: w => sc sb /is_shapeP [zA hA].
  rewrite -[nth _ (_ :: _) i.+1]/(nth [::] [seq 0 :: row | row <- rA r0] i).
  by rewrite (nth_map [::]) ?zA -?sc //= add0r hr.
have S (v : seq K) a : vsum (rcons v a) = vsum v + a.
  by rewrite -cats1 !vsum_big big_cat big_seq1.
have Rr n (r0 : rk K) : rk_wf n r0 -> row_consistent (rA r0) (rc r0) /\ vsum (rb r0) = 1 ->
    row_consistent (rA (pad_right r0)) (rc (pad_right r0)) /\ vsum (rb (pad_right r0)) = 1.
  move=> w [hr hb]; split; last by rewrite /= S addr0.
  rewrite (pad_rightA w) => i /=; rewrite size_rcons ltnS !nth_rcons size_map.
  case: w => sc sb /is_shapeP [zA hA]; rewrite zA sc.
  case: (ltngtP i n) => [ln|//|e] _; last by rewrite S addr0.
  by rewrite (nth_map [::]) ?zA // S addr0 hr // sc.
move=> /table_check_wf w; rewrite /rk_init => h hr hb.
have h0 : row_consistent (rA (rk_of t)) (rc (rk_of t)) /\ vsum (rb (rk_of t)) = 1 by [].
case: pad h => [p|]; last by case=> <-.
case: eqP => _; first by case=> <-.
case: ifP => //= _ [<-].
case: ifP => _; case: ifP => _ //.
- apply: (Rr _ _ (pad_left_wf w)); exact: (L _ _ w).
- exact: (Rr _ _ w).
- exact: (L _ _ w).
Qed.

(* C31 is false: for every table with embedded weights and every padding, the padded
   object has weights and embedded weights of different lengths *)
Theorem C31_padded_embedded_fails t pad r b2 lam u0 tEnd N : table_check t ->
  tb2 t = Some b2 -> size b2 = size (tb t) ->
  rk_init t (Some pad) = Ok r -> pad <> ""%string ->
  rk_embedded r = Ok b2 /\ (size b2 < size (rb r))%N /\
  (stagemx (size (tc t)) (tA t) (lam * (tEnd / N.+1%:R)) \in unitmx ->
   rk_dahlquist r lam u0 tEnd N.+1%:Z true = Raise ValueError).
Proof.
move=> /table_check_wf w e2 sb2; rewrite /rk_init; case: eqP => // _; case: ifP => //= hp [<-] _.
set r' := (X in rk_embedded X).
have [m [w' [lt [eq2 [sm]]]]] : exists m, rk_wf m r' /\ (size (tb t) < m)%N /\ rb2 r' = Some b2 /\
    same_method (size (tc t)) (rk_of t) m r' /\ True.
  have [sc sb _] := w; rewrite /= in sb.
  have sl := same_left (r := rk_of t) (n := size (tc t)).
  have sr := same_right (r := rk_of t) (n := size (tc t)).
  rewrite /r'; case: ifP => h1; case: ifP => h2.
  - exists (size (tc t)).+2; split; first exact: pad_right_wf (pad_left_wf w).
    rewrite sb; split; first by []. split=> //; split=> //.
    by apply: same_trans sl _; apply: same_right.
  - exists (size (tc t)).+1; split; first exact: pad_right_wf.
    by rewrite sb; do 3 split=> //.
  - exists (size (tc t)).+1; split; first exact: pad_left_wf.
    by rewrite sb; do 3 split=> //.
  - by move: hp h1 h2; rewrite !inE; do 3 case: eqP => //= _.
move=> _; have [sc' sb' sA'] := w'.
split; first by rewrite /rk_embedded eq2.
split; first by rewrite sb' sb2.
move=> un; rewrite /rk_dahlquist /solveDahlquist /rk_embedded eq2 /= sc'.
set z := lam * _ in un *.
rewrite -/(amat m (rA r') z) -[Raise ValueError]/(omapo (cons u0) (Raise ValueError)); congr omapo.
have := @loop_mismatch K m (rA r') b2 z sA' u0 N.+1; apply=> //.
  by rewrite sb2 neq_ltn lt.
by have [_ /(_ z) [->]] := sm w.
Qed.
End Padding.
Print Assumptions C30_padding_invariant.
Print Assumptions C30_padding_argument.
Print Assumptions C30_padded_table.
Print Assumptions C30_padding_consistent.
Print Assumptions C31_padded_embedded_fails.

(* the explicit midpoint rule with both paddings: four stages, same trajectory *)
Example C30_nonvacuous : table_check sample_table /\
  exists r, rk_init sample_table (Some "BOTH"%string) = Ok r /\ size (rb r) = 4%N.
Proof. by split; [vm_compute|eexists; split; first reflexivity]. Qed.

Theorem C31_padding_embedded_refuted : exists (t : table qc_ringType) r b2,
  table_check t /\ tb2 t = Some b2 /\ size b2 = size (tb t) /\
  rk_init t (Some "LEFT"%string) = Ok r /\
  rk_dahlquist (K := qc_fieldType) r 1 1 1 1%:Z true = Raise ValueError /\
  (exists v, rk_dahlquist (K := qc_fieldType) (rk_of t) 1 1 1 1%:Z true = Ok v) /\
  genCoeffs (rk_gen (F := qc_realFieldType) (fun x => x) (fun x => x) (fun _ => false) r)
     "Z2N" false true = Raise ValueError.
Proof.
have sl : strict_lower (K := qc_fieldType) 2 (tA sample_table).
  by do 2 case=> [|[|?]] //; case=> [|[|?]].
exists sample_table, (pad_left (rk_of sample_table)), [:: 1; 0]%R.
do 4 (split; first by []). split; [|split]; last by [].
  have h := C31_padded_embedded_fails (K := qc_fieldType) (t := sample_table) (pad := "LEFT"%string)
    (b2 := [:: 1; 0]%R) (r := pad_left (rk_of sample_table)) 1 1 1 0.
  by apply: (h _ _ _ _ _).2.2 => //; apply: explicit_unit sl.
have -> : rk_dahlquist (K := qc_fieldType) (rk_of sample_table) 1 1 1 1%:Z true =
  solveDahlquist (K := qc_fieldType) (tc sample_table) [:: 1; 0]%R (Ok [::]) (tA sample_table) 1 1 1 1%:Z false by [].
have e := @dahlquistE qc_fieldType (tc sample_table) [:: 1; 0]%R (Ok [::]) (tA sample_table) 1 1 1 0 2.
by rewrite e // (explicit_unit _ sl); eexists.
Qed.
Print Assumptions C31_padding_embedded_refuted.

Section Dahlquist.
Variable K : fieldType.

(* the weights used by solveDahlquist *)
Definition chosen (w : seq K) (we : outcome (seq K)) (b : bool) (w' : seq K) : Prop :=
  if b then we = Ok w' else w = w'.

Theorem C32_stability_function nodes w we w' Q lam u0 tEnd N b n :
  is_shape Q n n -> size nodes = n -> size w' = n -> chosen w we b w' ->
  let z := lam * (tEnd / N.+1%:R) in
  let R := 1 + z * (rvl n w' *m invmx (1%:M - z *: mxl n n Q) *m const_mx 1 : 'M_1) 0 0 in
  solveDahlquist nodes w we Q lam u0 tEnd N.+1%:Z b =
    if \det (1%:M - z *: mxl n n Q) == 0 then Raise LinAlgError
    else Ok [seq R ^+ i * u0 | i <- iota 0 N.+2].
Proof.
move=> sQ sn sw ch z R.
have -> : solveDahlquist nodes w we Q lam u0 tEnd N.+1%:Z b =
  solveDahlquist nodes w' we Q lam u0 tEnd N.+1%:Z false.
  by case: b ch => [->|->].
rewrite (dahlquistE _ _ _ _ _ sQ) // /stagemx unitmxE unitfE -/z; by case: eqP.
Qed.

Theorem C32_linear_in_u0 nodes w we w' Q lam u0 v0 a tEnd N b n us vs :
  is_shape Q n n -> size nodes = n -> size w' = n -> chosen w we b w' ->
  solveDahlquist nodes w we Q lam u0 tEnd N.+1%:Z b = Ok us ->
  solveDahlquist nodes w we Q lam v0 tEnd N.+1%:Z b = Ok vs ->
  solveDahlquist nodes w we Q lam (u0 + a * v0) tEnd N.+1%:Z b = Ok (vadd us (map ( *%R a) vs)).
Proof.
move=> sQ sn sw ch; rewrite !(C32_stability_function _ _ _ _ sQ sn sw ch).
set z := lam * _; set R := 1 + _; case: ifP => // _ [<-] [<-]; congr Ok.
have E (l : seq nat) : [seq R ^+ i * (u0 + a * v0) | i <- l] =
    vadd [seq R ^+ i * u0 | i <- l] [seq a * x | x <- [seq R ^+ i * v0 | i <- l]].
  by elim: l => //= i l ->; rewrite mulrDr [R ^+ i * (a * _)]mulrCA.
exact: E.
Qed.

(* the number of steps; the weights are looked up first *)
Theorem C32_bad_number_of_steps nodes w we w' Q lam u0 tEnd b : chosen w we b w' ->
  solveDahlquist nodes w we Q lam u0 tEnd 0 b = Raise ZeroDivisionError /\
  solveDahlquist nodes w we Q lam u0 tEnd (-1) b = Raise IndexError /\
  forall m, solveDahlquist nodes w we Q lam u0 tEnd (Negz m.+1) b = Raise ValueError.
Proof. by case: b => /= ->. Qed.

Theorem C33_explicit_never_fails nodes w we w' Q lam u0 tEnd N b n :
  is_shape Q n n -> size nodes = n -> size w' = n -> chosen w we b w' ->
  (forall i j, (i < n)%N -> (j < n)%N -> (i <= j)%N -> ent Q i j = 0) ->
  let z := lam * (tEnd / N.+1%:R) in
  let P := 1 + \sum_(k < n) z ^+ k.+1 * moment n Q w' k in
  solveDahlquist nodes w we Q lam u0 tEnd N.+1%:Z b = Ok [seq P ^+ i * u0 | i <- iota 0 N.+2].
Proof.
move=> sQ sn sw ch hl z P; rewrite (C32_stability_function _ _ _ _ sQ sn sw ch) -/z.
have := explicit_det z hl; rewrite /stagemx => ->; rewrite oner_eq0.
by have := explicit_stabf w' z hl; rewrite /stabf /stagemx => ->.
Qed.
End Dahlquist.
Print Assumptions C32_stability_function.
Print Assumptions C32_linear_in_u0.
Print Assumptions C32_bad_number_of_steps.
Print Assumptions C33_explicit_never_fails.

(* explicit midpoint rule: R(z) = 1 + z + z^2/2 *)
Example C33_nonvacuous :
  solveDahlquist (K := qc_fieldType) (tc sample_table) (tb sample_table) (Ok [::]) (tA sample_table)
    1 2%:R 1 2%:Z false = Ok [:: 2%:R; 2%:R * qc 13 8; 2%:R * (qc 13 8) ^+ 2].
Proof. by apply: ok_eqP; vm_compute. Qed.

Lemma nth_scheme k : (k < 38)%N -> List.In (List.nth k schemes s_FE) schemes.
Proof. by move=> /ssrnat.ltP h; apply: List.nth_In. Qed.

Section Registered.
Variables (F : numFieldType) (s : F) (sc : scheme).
(* s is the square root used in the literals of the scheme *)
Definition root_of := 0 <= s /\ s * s = (s_root sc)%:R.
Notation t := (scheme_table s sc).
Notation eps := (tol F (s_name sc)).

Theorem C34_tables_consistent : List.In sc schemes -> root_of ->
  size (tb t) = size (tc t) /\ is_shape (tA t) (size (tc t)) (size (tc t)) /\
  `|vsum (tb t) - 1| <= eps /\
  (forall b2, tb2 t = Some b2 -> size b2 = size (tc t) /\ `|vsum b2 - 1| <= eps) /\
  (s_name sc <> "RK53"%string -> forall i, (i < size (tc t))%N ->
     `|vsum (nth [::] (tA t) i) - nth 0 (tc t) i| <= eps).
Proof.
move=> i [s0 sq]; have [/andP [/eqP e sh] h2] := shape_in s i.
split=> //; split=> //; split; first exact: sum_b.
split; last by move=> *; apply: row_sums.
by move=> b2 hb; split; [rewrite (h2 _ hb)|apply: (sum_b2 i s0 sq hb)].
Qed.

Theorem C35_order_conditions : List.In sc schemes -> root_of ->
  ~~ (s_name sc \in [:: "RK32"; "ARK343ERK"]%string) ->
  order_cond (tA t) (tb t) (torder t) eps.
Proof.
move=> i [s0 sq] h; have := orders_b i s0 sq.
by rewrite /real_order /low_order (negbTE h).
Qed.

Theorem C35_embedded_order_conditions b2 : List.In sc schemes -> root_of ->
  s_name sc <> "ARK548L2SAESDIRK"%string -> tb2 t = Some b2 ->
  order_cond (tA t) b2 (torderE t) eps.
Proof.
move=> i [s0 sq] /eqP h hb; have := orders_b2 i s0 sq hb.
by rewrite /real_orderE (negbTE h).
Qed.

(* all of them have the declared order on linear problems *)
Theorem C35_linear_order : List.In sc schemes -> root_of ->
  forall k, (k < torder t)%N ->
    `|moment (size (tb t)) (tA t) (tb t) k - (k.+1`!)%:R^-1| <= eps.
Proof. by move=> i [s0 sq]; apply: moments_b. Qed.

(* hence one Dahlquist step deviates from the exponential by C |z|^(p+1), plus the
   rounding of the table *)
Theorem C35_dahlquist_order : List.In sc schemes -> root_of ->
  forall z n p, `|z| * mnorm (tA t) <= 2%:R^-1 -> n = size (tb t) -> p = torder t ->
  `|stabf n (tA t) (tb t) z - expser p z| <=
    eps * (\sum_(k < p) `|z| ^+ k.+1) +
    2%:R * n%:R * vnorm1 (tb t) * mnorm (tA t) ^+ p * `|z| ^+ p.+1.
Proof.
move=> i r z n p hz en ep; have [sb [sh _]] := C34_tables_consistent i r.
have sh' : is_shape (tA t) n n by rewrite en sb.
apply: (le_trans (stabf_remainder p sh' _ hz)) => //; rewrite ler_add2r mulr_sumr.
apply: ler_sum => k _; rewrite mulrC ler_wpmul2r ?exprn_ge0 // en.
by apply: (C35_linear_order i r); rewrite -ep.
Qed.

(* no scheme has a higher order than declared *)
Theorem C35_order_sharp : List.In sc schemes -> root_of ->
  ~ order_cond (tA t) (tb t) (torder t).+1 (qcr F (qc Z.one 100000)).
Proof.
move=> i [s0 sq] h; apply: (sharp_b i s0 sq) => u su; apply: h.
apply: (leq_trans su); rewrite ltnS /real_order; case: ifP => // _.
exact: leq_pred.
Qed.
End Registered.
Print Assumptions C34_tables_consistent.
Print Assumptions C35_order_conditions.
Print Assumptions C35_embedded_order_conditions.
Print Assumptions C35_linear_order.
Print Assumptions C35_dahlquist_order.
Print Assumptions C35_order_sharp.

(* a field with the roots: the algebraic numbers *)
Example C35_nonvacuous : List.In s_SDIRK2 schemes /\ s_root s_SDIRK2 = 2%N /\
  root_of (sqrtC 2%:R : algC) s_SDIRK2 /\ tolz (s_name s_SDIRK2) = (Z0, 1%positive).
Proof.
split; first exact: (nth_scheme (k := 14)).
split=> //; split; last by [].
by split; rewrite ?sqrtC_ge0 ?ler0n // -expr2 sqrtCK.
Qed.

(* Findings about the declared tables. *)
Theorem C34_RK53_nodes_refuted : exists sc, List.In sc schemes /\ s_name sc = "RK53"%string /\
  forall (F : numFieldType) (s : F), root_of s sc ->
  exists2 i, (i < size (tc (scheme_table s sc)))%N &
    vsum (nth [::] (tA (scheme_table s sc)) i) - nth 0 (tc (scheme_table s sc)) i
     = qcr F (qc 9 208).
Proof.
exists s_RK53; split; first exact: (nth_scheme (k := 6)).
split=> // F s [_ sq]; exists 2%N; first by [].
have gen (row : seq (q2 2)) (c : q2 2) : vsum (map (q2v s) row) - q2v s c = q2v s (vsum row - c).
  have m : vsum (map (q2v s) row) = q2v s (vsum row) := map_vsum (q2v_rmorphism sq) row.
  by rewrite m; apply: esym; apply: (rmorphB (q2v_rmorphism sq)).
rewrite -[LHS]/(vsum (map (q2v s) (nth [::] (tA (s_tab s_RK53)) 2)) - q2v s (nth 0 (tc (s_tab s_RK53)) 2)).
rewrite gen; set v := (X in q2v s X).
have -> : v = Q2 (qc 9 208) 0%R by apply/eqP; vm_compute.
by rewrite /q2v /= rmorph0 mul0r addr0.
Qed.
Print Assumptions C34_RK53_nodes_refuted.

Theorem C35_RK32_order_refuted : exists sc, List.In sc schemes /\ s_name sc = "RK32"%string /\
  torder (s_tab sc) = 3%N /\
  forall (F : numFieldType) (s : F), root_of s sc ->
    ~ order_cond (tA (scheme_table s sc)) (tb (scheme_table s sc)) 3 (qcr F (qc Z.one 100000)).
Proof.
exists s_RK32; have i : List.In s_RK32 schemes by exact: (nth_scheme (k := 4)).
by do 3 split=> //; move=> F s [s0 sq]; apply: (sharp_b i s0 sq).
Qed.
Print Assumptions C35_RK32_order_refuted.

Theorem C35_ARK343ERK_order_refuted : exists sc, List.In sc schemes /\
  s_name sc = "ARK343ERK"%string /\ torder (s_tab sc) = 4%N /\
  forall (F : numFieldType) (s : F), root_of s sc ->
    ~ order_cond (tA (scheme_table s sc)) (tb (scheme_table s sc)) 4 (qcr F (qc Z.one 100000)).
Proof.
exists s_ARK343ERK; have i : List.In s_ARK343ERK schemes by exact: (nth_scheme (k := 35)).
by do 3 split=> //; move=> F s [s0 sq]; apply: (sharp_b i s0 sq).
Qed.
Print Assumptions C35_ARK343ERK_order_refuted.

Theorem C35_embedded_order_refuted : exists sc, List.In sc schemes /\
  s_name sc = "ARK548L2SAESDIRK"%string /\ torderE (s_tab sc) = 5%N /\
  forall (F : numFieldType) (s : F), root_of s sc ->
  exists2 b2, tb2 (scheme_table s sc) = Some b2 &
    ~ order_cond (tA (scheme_table s sc)) b2 5 (qcr F (qc Z.one 100000)).
Proof.
exists s_ARK548L2SAESDIRK.
have i : List.In s_ARK548L2SAESDIRK schemes by exact: (nth_scheme (k := 25)).
do 3 split=> //; move=> F s [s0 sq]; eexists; first reflexivity.
by apply: (sharp_b2 i s0 sq).
Qed.
Print Assumptions C35_embedded_order_refuted.

(* genCoeffs *)
Section GenCoeffs.
Variable V : Type.
Implicit Types (g : qgen V) (form : string).

Theorem C36_forms g form h e : g_S g = Ok (ok_or [::] (g_S g)) ->
  (forall c, genCoeffs g form h e = Ok c ->
     (form = "Z2N"%string /\ c_mat c = g_Q g \/ form = "N2N"%string /\ g_S g = Ok (c_mat c)) /\
     c_nodes c = g_nodes g /\
     (if e then exists2 w2, g_embedded g = Ok w2 & c_weights c = W2 (g_weights g) w2
      else c_weights c = W1 (g_weights g)) /\
     (if h then exists2 v, g_hCoeffs g = Ok v & c_h c = Some v else c_h c = None)) /\
  (form <> "Z2N"%string -> form <> "N2N"%string -> genCoeffs g form h e = Raise ValueError) /\
  (form = "Z2N"%string \/ form = "N2N"%string ->
     (if e then exists2 w2, g_embedded g = Ok w2 & size w2 = size (g_weights g) else True) ->
     (if h then exists v, g_hCoeffs g = Ok v else True) ->
     exists c, genCoeffs g form h e = Ok c).
Proof.
move=> hS; rewrite /genCoeffs hS; split; [|split].
- have K mat c : (dop w <- (if e then (dop w2 <- g_embedded g; vstack2 (g_weights g) w2)
       else Ok (W1 (g_weights g)));
     dop h0 <- (if h then omapo Some (g_hCoeffs g) else Ok None);
     Ok {| c_nodes := g_nodes g; c_weights := w; c_mat := mat; c_h := h0 |}) = Ok c ->
    c_mat c = mat /\ c_nodes c = g_nodes g /\
     (if e then exists2 w2, g_embedded g = Ok w2 & c_weights c = W2 (g_weights g) w2
      else c_weights c = W1 (g_weights g)) /\
     (if h then exists2 v, g_hCoeffs g = Ok v & c_h c = Some v else c_h c = None).
    case: e => /=; last by case: h => /=; [case: (g_hCoeffs g) => //= v|] => -[<-];
      do 3 split=> //; eexists.
    case: (g_embedded g) => //= w2; rewrite /vstack2; case: ifP => //= _.
    by case: h => /=; [case: (g_hCoeffs g) => //= v|] => -[<-]; do 2 (split; first by []);
      (split; first by eexists) => //; eexists.
  case: eqP => [->|_] c; last case: eqP => [->|_] //.
    by move=> /K [e1 [e2 e3]]; split; [left|].
  by move=> /K [e1 [e2 e3]]; split; [right; rewrite e1|].
- by move=> /eqP /negbTE -> /eqP /negbTE ->.
move=> hf he hh.
have -> : (if form == "Z2N"%string then Ok (g_Q g) else if form == "N2N"%string
   then Ok (ok_or [::] (g_S g)) else Raise ValueError) =
  Ok (if form == "Z2N"%string then g_Q g else ok_or [::] (g_S g)) by case: hf => ->.
case: e he => /= [[w2 -> sw]|_]; first rewrite /= /vstack2 sw eqxx /=.
all: by case: h hh => /= [[v ->]|_] /=; eexists.
Qed.

(* a request that the object cannot serve raises the exception of the property *)
Theorem C36_errors g form (h e : bool) : form = "Z2N"%string \/ form = "N2N"%string ->
  g_S g = Ok (ok_or [::] (g_S g)) ->
  (forall x, e -> g_embedded g = Raise x -> genCoeffs g form h e = Raise x) /\
  (forall x, ~~ e -> h -> g_hCoeffs g = Raise x -> genCoeffs g form h e = Raise x).
Proof.
move=> hf hS; rewrite /genCoeffs hS.
have -> : (if form == "Z2N"%string then Ok (g_Q g) else if form == "N2N"%string
   then Ok (ok_or [::] (g_S g)) else Raise ValueError) =
  Ok (if form == "Z2N"%string then g_Q g else ok_or [::] (g_S g)) by case: hf => ->.
by split=> x; case: e => //; [move=> _ ->|case: h => // _ _ ->].
Qed.
End GenCoeffs.

(* the node-to-node matrix of a table: S has the differences of the rows of Q *)
Theorem C36_N2N_rows (F : realFieldType) flog fexp uf (r : rk F) n :
  is_shape (rA r) n n -> exists2 S, g_S (rk_gen flog fexp uf r) = Ok (fmat S) &
  is_shape S n n /\
  (forall i j, (i < n)%N -> (j < n)%N ->
    ent S i j = ent (rA r) i j - (if i is i'.+1 then ent (rA r) i' j else 0)) /\
  (* Tinv S = Q and T Q = S, the properties Tinv and T of the class *)
  mm n (trimat F n) S = rA r /\ mm n (tmat F n) (rA r) = S.
Proof.
move=> sh; have [zA hA] := is_shapeP _ _ _ sh.
exists (mm n (tmat F n) (rA r)); first by rewrite /= /smat zA.
have shT : is_shape (tmat F n) n n by exact: mkmat_shape.
have shS := mm_shape (rA r) n shT.
have eS i j : (i < n)%N -> (j < n)%N -> ent (mm n (tmat F n) (rA r)) i j =
    ent (rA r) i j - (if i is i'.+1 then ent (rA r) i' j else 0).
  move=> il jl; rewrite (ent_mm shT sh il jl) (bigD1 (Ordinal il)) //= ent_mkmat // eqxx mul1r.
  congr (_ + _); case: i il => [|i] il.
    rewrite big1 ?oppr0 // => k; rewrite -val_eqE /= => k0; rewrite ent_mkmat //.
    by rewrite eq_sym (negbTE k0) /= mul0r.
  rewrite (bigD1 (Ordinal (ltnW il))) /=; last by rewrite -val_eqE /= neq_ltn ltnSn.
  rewrite ent_mkmat ?(ltnW il) // eqxx gtn_eqF // mulN1r big1 ?addr0 // => k.
  rewrite -!val_eqE /= => /andP [k0 k1]; rewrite ent_mkmat //.
  by rewrite eq_sym (negbTE k0) eqSS eq_sym (negbTE k1) mul0r.
split=> //; split=> //; split=> //.
have shI : is_shape (trimat F n) n n by exact: mkmat_shape.
apply: (mat_ext (mm_shape _ n shI) sh) => i j il jl; rewrite (ent_mm shI shS il jl).
rewrite (eq_bigr (fun k : 'I_n => if (k <= i)%N then ent (rA r) k j - (if val k is k'.+1 then ent (rA r) k' j else 0) else 0)); last first.
  by move=> k _; rewrite ent_mkmat // eS //; case: ifP; rewrite ?mul1r ?mul0r.
rewrite -big_mkcond /= -(big_mkord (fun k => k <= i)%N (fun k => ent (rA r) k j - (if k is k'.+1 then ent (rA r) k' j else 0))).
rewrite -(big_nat_widen 0 i.+1 n xpredT) //.
elim: i {il} => [|i ih]; first by rewrite big_nat1 subr0.
by rewrite big_nat_recr //= ih addrC subrK.
Qed.
Print Assumptions C36_forms.
Print Assumptions C36_errors.

(* a table without embedded weights: asking for them raises NotImplementedError, in genCoeffs and in
   the solver; with them both rows of weights are returned *)
Theorem C36_rk_embedded (F : realFieldType) flog fexp uf (r : rk F) form (h : bool) :
  form = "Z2N"%string \/ form = "N2N"%string ->
  (rb2 r = None -> genCoeffs (rk_gen flog fexp uf r) form h true = Raise NotImplementedError /\
     forall lam u0 tEnd N, rk_dahlquist r lam u0 tEnd N true = Raise NotImplementedError) /\
  (forall b2, rb2 r = Some b2 -> size b2 = size (rb r) ->
     exists2 c, genCoeffs (rk_gen flog fexp uf r) form false true = Ok c &
       c_weights c = W2 (map (@Fin F) (rb r)) (map (@Fin F) b2)).
Proof.
move=> hf; split=> [n|b2 eb sb].
  split; last by move=> *; rewrite /rk_dahlquist /solveDahlquist /rk_embedded n.
  have [|e _] := C36_errors (g := rk_gen flog fexp uf r) h true hf; first by [].
  by apply: e => //=; rewrite /rk_embedded n.
have [|_ [_ ex]] := @C36_forms _ (rk_gen flog fexp uf r) form false true; first by [].
have [] := ex hf; [|by []|].
  by exists (map (@Fin F) b2); rewrite /= /rk_embedded ?eb // !size_map.
move=> c ec; exists c => //.
have [|] := @C36_forms _ (rk_gen flog fexp uf r) form false true; first by [].
move=> /(_ c ec) [_ [_ [[w2 ew ->] _]]] _.
by move: ew; rewrite /= /rk_embedded eb => -[<-].
Qed.
Print Assumptions C36_rk_embedded.
Print Assumptions C36_N2N_rows.

(* the explicit midpoint rule, everything requested *)
Example C36_nonvacuous :
  let g := rk_gen (F := qc_realFieldType) (fun x => x) (fun x => x) (fun _ => false) (rk_of sample_table) in
  exists c, genCoeffs g "N2N" true true = Ok c /\
   c_mat c == fmat (F := qc_realFieldType) [:: [:: 0; 0]; [:: qc 1 2; 0]]%R /\
   c_h c == Some [:: Fin (qc (-1) 1); Fin (qc 2 1)].
Proof.
eexists; split; [reflexivity|split]; by vm_compute.
Qed.
