(* Property C82: the registered Butcher tables, stored with rounded numbers. *)
From Coq Require Import ZArith QArith Qcanon List Reals Lra.
From Verif.Base Require Import Str.
From mathcomp Require Import all_ssreflect all_algebra ring.
From Verif.Base Require Import QcField QcEmb Arr RField Float64.
From Verif.Model Require Import QGen Butcher.
From Verif.Spec Require Import QCoeffSpec ButcherSpec RoundSpec StoredSpec.
From Verif.Proofs Require Import StabP OrderP ButcherP SchemeP StoredP RoundP.
From Verif.Properties Require Import RKProps RoundProps.
Set Implicit Arguments.
Unset Strict Implicit.
Unset Printing Implicit Defensive.
Import GRing.Theory Num.Theory Order.TTheory.
Local Open Scope ring_scope.

Lemma orders5 : List.forallb (fun sc => torder (s_tab sc) <= 5)%N schemes = true.
Proof. by vm_compute. Qed.

Lemma pw_lin (F : numFieldType) (e : F) k : 0 <= e -> (2 * k)%:R * e <= 1 ->
  (1 + e) ^+ k - 1 <= (2 * k)%:R * e.
Proof.
move=> e0; elim: k => [|k ih] h; first by rewrite expr0 subrr mul0r.
have hk : (2 * k)%:R * e <= 1.
  by apply: le_trans h; rewrite ler_wpmul2r // ler_nat leq_mul2l leqnSn orbT.
rewrite ler_subl_addr in ih; rewrite ler_subl_addr exprS.
apply: le_trans (ler_wpmul2l (_ : 0 <= 1 + e) (ih hk)) _; first by rewrite addr_ge0 ?ler01.
have -> : (1 + e) * ((2 * k)%:R * e + 1) = (2 * k)%:R * e + e + 1 + (2 * k)%:R * e * e by ring.
have -> : (2 * k.+1)%:R * e + 1 = (2 * k)%:R * e + e + 1 + e by rewrite mulnS natrD; ring.
by rewrite ler_add2l -[X in _ <= X]mul1r ler_wpmul2r.
Qed.

Section Stored.
Variables (F : numFieldType) (s : F) (sc : scheme) (e : F) (t' : table F).
Notation t := (scheme_table s sc).
Notation eps := (tol F (s_name sc)).
Notation K := ((magn (s_name sc))%:R : F).
Hypothesis insc : List.In sc schemes.
Hypothesis root : root_of s sc.
Hypothesis e0 : 0 <= e.
Hypothesis st : stored e t t'.

Lemma stored_size v v' : stored_vec e v v' -> size v' = size v.
Proof. by elim=> //= ? ? ? ? _ _ ->. Qed.
Lemma stored_nth v v' i : stored_vec e v v' -> stored_num e (nth 0 v i) (nth 0 v' i).
Proof.
move=> h; elim: h i => [|a a' l l' h _ ih] [|i] //=; rewrite /stored_num ?subrr ?normr0 ?mulr0 //.
Qed.
Lemma stored_row A A' i : stored_mat e A A' -> stored_vec e (nth [::] A i) (nth [::] A' i).
Proof. by move=> h; elim: h i => [|a a' l l' h _ ih] [|i] //=; rewrite ?nth_nil; try constructor. Qed.
Lemma stored_msize A A' : stored_mat e A A' -> size A' = size A.
Proof. by elim=> //= ? ? ? ? _ _ ->. Qed.

Lemma mags : chk_mags sc. Proof. exact: (get_check insc all_mags). Qed.

Theorem C82_consistent :
  table_check t' /\ `|vsum (tb t') - 1| <= eps + e * K /\
  (forall b2, tb2 t' = Some b2 -> size b2 = size (tc t') /\ `|vsum b2 - 1| <= eps + e * K) /\
  (s_name sc <> "RK53"%string -> forall i, (i < size (tc t'))%N ->
     `|vsum (nth [::] (tA t') i) - nth 0 (tc t') i| <= eps + 2%:R * e * K).
Proof.
have [sA sb sc' so _] := st; have [r0 rr] := root.
have [sbc [sh [cb [cb2 crow]]]] := C34_tables_consistent insc root.
have /and5P [_ m2 mb mc /allP mA] := mags.
have sum3 v v' : stored_vec e v v' -> vsum (map (fun a : F => `|a|) v) <= K ->
    `|vsum v - 1| <= eps -> `|vsum v' - 1| <= eps + e * K.
  move=> h hK h1; have [_ h2] := aerr_vsum h; have -> : vsum v' - 1 = (vsum v - 1) + (vsum v' - vsum v) by ring.
  apply: (le_trans (ler_norm_add _ _)); apply: ler_add => //.
  by apply: (le_trans h2); rewrite ler_wpmul2l.
split; last split; last split.
- rewrite /table_check (stored_size sb) (stored_size sc') sbc eqxx /=.
  move/is_shapeP: sh => [sz hr]; apply/is_shapeP; rewrite (stored_msize sA) sz; split=> // i il.
  by rewrite (stored_size (stored_row i sA)) hr.
- exact: (sum3 _ _ sb (chk_rowmagP rr r0 mb)).
- move=> b2 eb2; move: so; rewrite eb2 /stored_opt; case eb : (tb2 t) => [b|] // hb.
  have [sz hs] := cb2 _ eb; rewrite (stored_size hb) (stored_size sc') sz; split=> //.
  move: eb m2; rewrite /=; case: (tb2 (s_tab sc)) => //= v [ev] /andP [_ m2].
  by apply: (sum3 _ _ hb _ hs); rewrite -ev; apply: (chk_rowmagP rr r0 m2).
- move=> nm i il; rewrite (stored_size sc') in il; have h0 := crow nm i il.
  have [_ h1] := aerr_vsum (stored_row i sA); have h2 := stored_nth i sc'.
  have il' : (i < size (tA (s_tab sc)))%N.
    by move/is_shapeP: sh => [+ _]; rewrite /= size_map => ->.
  have k1 : vsum (map (fun a : F => `|a|) (nth [::] (tA t) i)) <= K.
    rewrite /= (nth_map [::]) //; apply: (chk_rowmagP rr r0); apply: mA; exact: mem_nth.
  have k2 : `|nth 0 (tc t) i| <= K.
    apply: le_trans (chk_rowmagP rr r0 mc).
    have nn v j : (j < size v)%N -> `|nth 0 v j| <= vsum (map (fun a : F => `|a|) v).
      elim: v j => // a v ih [|j] /= jl; rewrite /vsum /=.
        by rewrite ler_addl; elim: (v) => //= x w ih'; rewrite addr_ge0.
      by apply: (le_trans (ih _ jl)); rewrite ler_addr.
    exact: nn.
  have -> : vsum (nth [::] (tA t') i) - nth 0 (tc t') i =
     (vsum (nth [::] (tA t) i) - nth 0 (tc t) i) +
     ((vsum (nth [::] (tA t') i) - vsum (nth [::] (tA t) i)) - (nth 0 (tc t') i - nth 0 (tc t) i)) by ring.
  apply: (le_trans (ler_norm_add _ _)); apply: ler_add => //.
  apply: (le_trans (ler_norm_sub _ _)); rewrite -mulrA mulr_natl mulr2n; apply: ler_add.
    by apply: (le_trans h1); rewrite ler_wpmul2l.
  by apply: (le_trans h2); rewrite ler_wpmul2l.
Qed.

(* the order conditions hold up to the stored accuracy *)
Theorem C82_order : ~~ (s_name sc \in [:: "RK32"; "ARK343ERK"]%string) ->
  order_cond (tA t') (tb t') (torder t') (eps + ((1 + e) ^+ torder t' - 1) * K).
Proof.
move=> nm; have [sA sb _ _ [-> _]] := st; have [r0 rr] := root.
apply: (order_pert e0 sA sb (C35_order_conditions insc root nm)).
have /and5P [m _ _ _ _] := mags; exact: (chk_magP rr r0 m).
Qed.

Theorem C82_embedded_order b2 : s_name sc <> "ARK548L2SAESDIRK"%string -> tb2 t' = Some b2 ->
  order_cond (tA t') b2 (torderE t') (eps + ((1 + e) ^+ torderE t' - 1) * K).
Proof.
move=> nm e2; have [sA _ _ so [_ ->]] := st; have [r0 rr] := root.
move: so; rewrite e2 /stored_opt; case eb : (tb2 t) => [b|] // hb.
apply: (order_pert e0 sA hb (C35_embedded_order_conditions insc root nm eb)).
have /and5P [_ m _ _ _] := mags; move: eb m; rewrite /=; case: (tb2 (s_tab sc)) => //= v [<-] /andP [m _].
exact: (chk_magP rr r0 m).
Qed.

(* order of the step on linear problems, for all schemes *)
Theorem C82_dahlquist z n p : `|z| * mnorm (tA t') <= 2%:R^-1 -> n = size (tb t') -> p = torder t' ->
  `|stabf n (tA t') (tb t') z - expser p z| <=
    (eps + ((1 + e) ^+ p - 1) * K) * (\sum_(k < p) `|z| ^+ k.+1) +
    2%:R * n%:R * vnorm1 (tb t') * mnorm (tA t') ^+ p * `|z| ^+ p.+1.
Proof.
move=> hz en ep; have [sA sb _ _ [eo _]] := st; have [r0 rr] := root.
have [ck _] := C82_consistent; have [/eqP sbc sh] := andP ck.
have sh' : is_shape (tA t') n n by rewrite en sbc.
apply: (le_trans (stabf_remainder p sh' (esym en) hz)); rewrite ler_add2r mulr_sumr.
apply: ler_sum => k _; rewrite mulrC ler_wpmul2r ?exprn_ge0 //.
have kp : (k < torder t)%N by rewrite -eo -ep.
have := C35_linear_order insc root kp.
have sht : is_shape (tA t) (size (tb t)) (size (tb t)).
  by have [szb [h _]] := C34_tables_consistent insc root; rewrite szb.
rewrite -(elemw_tall k sh' (esym en)) -(elemw_tall k sht) // => h1.
have h := aerr_elemw e0 (tall k) sA sb.
have -> : elemw (tA t') (tb t') (tall k) - k.+1`!%:R^-1 =
  (elemw (tA t) (tb t) (tall k) - k.+1`!%:R^-1) +
  (elemw (tA t') (tb t') (tall k) - elemw (tA t) (tb t) (tall k)) by ring.
apply: (le_trans (ler_norm_add _ _)); apply: ler_add => //.
apply: (le_trans h.2); apply: ler_pmul; [exact: (pw_ge0 e0)|exact: (aerr_ge0 h)| |].
  by apply: (pw_le e0); rewrite tsize_tall.
have /and5P [m _ _ _ _] := mags; apply: (chk_magP rr r0 m); rewrite tsize_tall.
exact: kp.
Qed.

(* and no stored table has a higher order *)
Theorem C82_sharp : e <= qcr F (qc 1 100000000000000) ->
  ~ order_cond (tA t') (tb t') (torder t').+1 (qcr F (qc 1 200000)).
Proof.
move=> es ho; have [sA sb _ _ [eo _]] := st; have [r0 rr] := root.
have o5 : (torder (s_tab sc) <= 5)%N by apply: (get_check insc orders5).
have ro : (real_order sc <= torder (s_tab sc))%N by rewrite /real_order; case: ifP => // _; apply: leq_pred.
have no u : (tsize u <= (real_order sc).+1)%N -> chk_mag1 (tA (s_tab sc)) (tb (s_tab sc)) u K7 ->
    chk_far (tA (s_tab sc)) (tb (s_tab sc)) u eps5 -> False.
  move=> su /(chk_mag1P rr r0); rewrite -epsv_nat => m /(chk_farP rr r0) far.
  have h := aerr_elemw e0 u sA sb.
  have su' : (tsize u <= (torder t').+1)%N by apply: (leq_trans su); rewrite eo.
  have := ho u su'; set d := (_%:R^-1 : F) in far *; move=> near.
  have n12 : (2 * 6)%:R = qcr F (2 * 6)%:R by apply: esym; apply: (rmorph_nat (qcr_rmorphism F)).
  have b12 : (2 * 6)%:R * e <= qcr F ((2 * 6)%:R * qc 1 100000000000000).
    by rewrite qcrM -n12; apply: ler_wpmul2l es; apply: ler0n.
  have lo : `|elemw (tA t) (tb t) u - d| <=
      qcr F (qc 1 200000 + (2 * 6)%:R * qc 1 100000000000000 * qc (Zpos K7) 1).
    have -> : elemw (tA t) (tb t) u - d = (elemw (tA t') (tb t') u - d) -
      (elemw (tA t') (tb t') u - elemw (tA t) (tb t) u) by ring.
    apply: (le_trans (ler_norm_sub _ _)); rewrite qcrD; apply: ler_add; first exact: near.
    apply: (le_trans h.2); rewrite qcrM.
    apply: ler_pmul; [exact: (pw_ge0 e0)|exact: (aerr_ge0 h)| |exact: m].
    apply: le_trans (pw_le e0 (_ : _ <= 6)%N) _; first by apply: (leq_trans su); rewrite ltnS (leq_trans ro).
    apply: (le_trans (pw_lin e0 _)); last exact: b12.
    by apply: (le_trans b12); rewrite -(qcr1 F); apply: qcr_le; vm_compute.
  have := lt_le_trans far lo; rewrite /epsv => h3.
  have : qcr F (qc eps5.1 eps5.2) < qcr F (qc eps5.1 eps5.2); last by rewrite ltxx.
  by apply: (lt_le_trans h3); apply: qcr_le; vm_compute.
have /andP [c1 _] := get_check insc all_sharps; have /andP [m1 m2] := get_check insc all_mags7.
move: c1; rewrite /chk_sharp; case: ifP => [h _|_ h].
  by apply: no m1 h; rewrite tsize_tall.
by apply: no m2 h; rewrite tsize_bushy.
Qed.
End Stored.
Print Assumptions C82_consistent.
Print Assumptions C82_order.
Print Assumptions C82_embedded_order.
Print Assumptions C82_dahlquist.
Print Assumptions C82_sharp.

(* a table all of whose numbers are correctly rounded; this is what numpy stores for the tables
   without roots, whose entries are literals or single quotients of integers *)
Theorem C82_rounded (F : realFieldType) (u : F) rnd (t : table F) : std_model u rnd ->
  stored u t (round_table rnd t).
Proof.
case=> _ h _ _; have hv v : stored_vec u v (map rnd v).
  by elim: v => [|a v ih]; constructor => //; apply: h.
split=> //; [|exact: hv|exact: hv|by rewrite /=; case: (tb2 t)].
by rewrite /=; elim: (tA t) => [|r B ih]; constructor.
Qed.
Print Assumptions C82_rounded.

Notation RF := r_realFieldType.
Lemma posr_R p : posr RF p = IZR (Zpos p).
Proof.
rewrite /posr rnatE INR_IZR_INZ positive_nat_Z //.
Qed.
Lemma u64_qc : u64 = qcr RF (qc 1 9007199254740992).
Proof. by rewrite qcrE -[zr RF 1]/(1 : RF) div1r rinvE ?posr_neq0 // posr_R u64E. Qed.

(* in float64 *)
Theorem C82_float64 (s : RF) sc : List.In sc schemes -> root_of s sc ->
  ~~ (s_name sc \in [:: "RK32"; "ARK343ERK"]%string) ->
  let t' := round_table f64 (scheme_table s sc) in
  order_cond (tA t') (tb t') (torder t') (tol RF (s_name sc) + 10%:R * u64 * (magn (s_name sc))%:R).
Proof.
move=> i r nm t'; have st := C82_rounded (scheme_table s sc) C79_float64.
have [/andP [u0 _] _ _ _] := C79_float64.
move=> x sx; apply: (le_trans (C82_order i r u0 st nm sx)); rewrite ler_add2l ler_wpmul2r ?ler0n //.
have o5 : (torder (s_tab sc) <= 5)%N by apply: (get_check i orders5).
apply: (le_trans (pw_le u0 o5)); apply: pw_lin => //.
by apply/rleE; rewrite rnatE u64E -[1]/R1 -[_ * _]/(Rmult _ _) /=; lra.
Qed.
Print Assumptions C82_float64.

(* ARK548L2SAERK, the table with the largest terms, in float64: 5.6e-10 *)
Example C82_nonvacuous : List.In s_ARK548L2SAERK schemes /\ root_of (sqrt (IZR 2) : RF) s_ARK548L2SAERK /\
  torder (s_tab s_ARK548L2SAERK) = 5%N /\
  tol RF (s_name s_ARK548L2SAERK) + 10%:R * u64 * (magn (s_name s_ARK548L2SAERK))%:R
    <= qcr RF (qc 1 1000000000).
Proof.
split; first exact: (nth_scheme (k := 24)).
split.
  split; first by apply/rleE; apply: sqrt_pos.
  by rewrite -[LHS]/(Rmult (sqrt (IZR 2)) (sqrt (IZR 2))) sqrt_sqrt; [rewrite rnatE /=; lra|lra].
split=> //; rewrite u64_qc /tol /magn -epsv_nat /epsv.
have -> : 10%:R = qcr RF 10%:R by apply: esym; apply: (rmorph_nat (qcr_rmorphism RF)).
by rewrite -!qcrM -qcrD; apply: qcr_le; vm_compute.
Qed.
