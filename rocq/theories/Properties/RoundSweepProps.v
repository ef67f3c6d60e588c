(* Property C83: rounding errors of the time-stepping matrices. *)
From Coq Require Import Reals Lra.
From Verif.Base Require Import Str.
From mathcomp Require Import all_ssreflect all_algebra ring zify.
From Verif.Base Require Import Outcome Arr RField Float64.
From Verif.Model Require Import Sweeps RoundedSweeps.
From Verif.Spec Require Import SweepSpec RoundSpec.
From Verif.Proofs Require Import SweepP RoundP RoundAbsP RoundSweepP.
From Verif.Properties Require Import RoundProps TimeStepProps.
Set Implicit Arguments.
Unset Strict Implicit.
Unset Printing Implicit Defensive.
Import GRing.Theory Num.Theory Order.TTheory.
Local Open Scope ring_scope.

Section Round.
Variables (F : realFieldType) (u : F) (rnd tr : F -> F).
Hypothesis std : std_model u rnd.
Variables (nodes : seq F) (tl : F) (self rself : ts F).
Notation M := (size nodes).
Notation delta := (step nodes tl).
(* the attributes computed exactly and with rounding *)
Hypothesis e : ts_init tr false nodes tl = Ok self.
Hypothesis re : r_ts_init rnd nodes tl = Ok rself.

Lemma u_ge0 : 0 <= u. Proof. by have [/andP []] := std. Qed.
Lemma rnd_err x : `|rnd x - x| <= u * `|x|. Proof. by have [_ + _ _] := std. Qed.

(* entrywise, for nodes in any order; no rounding error in the zeros *)
Theorem C83_euler i j : (i < M)%N -> (j < M)%N ->
  [/\ is_shape (r_qd_BE rnd rself) M M, is_shape (r_qd_FE rnd rself) M M,
      `|ent (r_qd_BE rnd rself) i j - ent (qd_BE self) i j| <= u * `|ent (qd_BE self) i j| &
      `|ent (r_qd_FE rnd rself) i j - ent (qd_FE self) i j| <= u * `|ent (qd_FE self) i j|].
Proof.
move=> il jl; have [s1 h1] := BE_E e; have [s2 h2] := FE_E e.
have [s3 h3] := r_BE_E std re; have [s4 h4] := r_FE_E std re.
split=> //; rewrite ?h1 ?h2 ?h3 ?h4 //; case: ifP => _; rewrite ?rnd_err //.
  by rewrite subrr normr0 mulr0.
by rewrite subrr normr0 mulr0.
Qed.

Section Increasing.
Hypothesis inc : forall j, (j < M)%N -> 0 <= delta j.
Hypothesis u3 : 3%:R * u < 1.

Lemma small j : (j < M)%N -> aerr u (delta j) (delta j) (rnd (delta j)).
Proof. by move=> jl; split; [rewrite ger0_norm ?inc|rewrite -[X in u * X]ger0_norm ?inc ?rnd_err]. Qed.
Lemma zero_aerr ee : aerr ee 0 0 (0 : F).
Proof. by split; rewrite ?subrr normr0 ?mulr0. Qed.
Lemma rows_aerr ee (A A' : seq (seq F)) i : is_shape A M M -> is_shape A' M M -> (i < M)%N ->
  (forall j, (j < M)%N -> aerr ee (ent A i j) (ent A i j) (ent A' i j)) ->
  aerr ee (vsum (nth [::] A i)) (vsum (nth [::] A i)) (vsum (nth [::] A' i)).
Proof.
move=> /is_shapeP [_ h1] /is_shapeP [_ h2] il h; rewrite !vsumE h1 // h2 //.
elim: M h => [|n ih] h; first by rewrite !big_ord0; apply: zero_aerr.
rewrite !big_ord_recr /=; apply: aerr_add; last exact: h.
by apply: ih => j jl; apply: h; apply: ltnW.
Qed.
Lemma half_aerr ee (A a b : F) : aerr ee A a b -> aerr ee (A / 2%:R) (a / 2%:R) (b / 2%:R).
Proof.
case=> h1 h2; have p : 0 <= 2%:R^-1 :> F by rewrite invr_ge0 ler0n.
split; first by rewrite normrM (ger0_norm p) ler_wpmul2r.
by rewrite -mulrBl normrM (ger0_norm p) mulrA ler_wpmul2r.
Qed.
Lemma del_aerr j : (j < M)%N -> aerr (gg u 1) (delta j) (delta j) (rnd (delta j)).
Proof.
move=> jl; have := near_aerr std (rnd_near std (delta j)).
by rewrite (ger0_norm (inc jl)).
Qed.

Lemma trap_aerr i j : (i < M)%N -> (j < M)%N ->
  aerr (gg u 3) (ent (qd_TRAP self) i j) (ent (qd_TRAP self) i j) (ent (r_qd_TRAP rnd rself) i j).
Proof.
move=> il jl; have [s1 h1] := BE_E e; have [s2 h2] := FE_E e; have [s5 h5] := TRAP_E e.
have [s6 h6] := r_TRAP_E std re; rewrite h5 // h6 // h1 // h2 //.
case: (ltngtP j i) => ji; rewrite ?ltnn.
- apply: (aerr_rndg std); apply: half_aerr; apply: (aerr_rndg std); apply: aerr_add; [exact: del_aerr jl|exact: del_aerr (leq_ltn_trans ji il)].
- by rewrite addr0 mul0r; split; rewrite ?subrr normr0 ?mulr0.
rewrite addr0; apply: (@aerr_weak _ (gg u 2)); first by apply: (gg_mono std).
by apply: (aerr_rndg std); apply: half_aerr; apply: del_aerr.
Qed.

Theorem C83_trap i j : (i < M)%N -> (j < M)%N ->
  is_shape (r_qd_TRAP rnd rself) M M /\
  `|ent (r_qd_TRAP rnd rself) i j - ent (qd_TRAP self) i j| <= gam u 3 * `|ent (qd_TRAP self) i j|.
Proof.
move=> il jl; have [s6 _] := r_TRAP_E std re; split=> //; have h := trap_aerr il jl.
by rewrite (ger0_norm (aerr_ge0 h)); exact: (aerr_gam std u3 h).
Qed.

(* each row still integrates the constant 1 from tLeft to the node, up to the unit roundoff *)
Theorem C83_rows i : (i < M)%N ->
  [/\ `|vsum (nth [::] (r_qd_BE rnd rself) i) - (nth 0 nodes i - tl)| <= u * (nth 0 nodes i - tl),
      `|vsum (nth [::] (r_qd_FE rnd rself) i) + nth 0 (r_dTau_FE rnd rself) i - (nth 0 nodes i - tl)|
        <= u * (nth 0 nodes i - tl) &
      `|vsum (nth [::] (r_qd_TRAP rnd rself) i) + nth 0 (r_dTau_TRAP rnd rself) i - (nth 0 nodes i - tl)|
        <= gam u 3 * (nth 0 nodes i - tl)].
Proof.
move=> il; have [s1 h1] := BE_E e; have [s2 h2] := FE_E e; have [s5 h5] := TRAP_E e.
have [s3 h3] := r_BE_E std re; have [s4 h4] := r_FE_E std re; have [s6 h6] := r_TRAP_E std re.
have [nE tE dS M0 dE] := ts_E e; have [rnE rtE rdS _ rdE] := r_ts_E re; have [_ _ _ idem] := std.
have [|cB [cF cT]] := C37_consistent e; first by [].
have [_ [_ /(_ i il) eB]] := cB; have [_ [_ /(_ i il) eF]] := cF; have [_ [_ /(_ i il) eT]] := cT.
have i0 : aerr u (delta 0) (delta 0) (rnd (delta 0)) by apply: small; exact: M0.
have fin ee (a b : F) : aerr ee a a b -> a = nth 0 nodes i - tl ->
    `|b - (nth 0 nodes i - tl)| <= ee * (nth 0 nodes i - tl) by move=> [_ h] <-.
have zz x : rnd (x * 0) = 0 by rewrite mulr0 (rnd0 std).
split.
- apply: fin (rows_aerr s1 s3 il _) _.
    by move=> j jl; rewrite h1 // h3 //; case: ifP => _; [apply: small|apply: zero_aerr].
  by move: eB; rewrite nth_nseq il addr0.
- apply: fin (aerr_add (rows_aerr s2 s4 il _) _) eF.
    move=> j jl; rewrite h2 // h4 //; case: ifP => ji; [|exact: zero_aerr].
    by apply: small; apply: leq_ltn_trans il.
  by rewrite /dTau_FE /r_dTau_FE !(nth_map 0) ?nE ?rnE // zz mulr0 !add0r dE // rdE // idem.
apply: le_trans (fin (gg u 3) _ _ (aerr_add (rows_aerr s5 s6 il _) _) eT) _.
- by move=> j jl; apply: trap_aerr.
- rewrite /dTau_TRAP /r_dTau_TRAP !(nth_map 0) ?nE ?rnE // zz mulr0 !add0r dE // rdE // idem.
  apply: (@aerr_weak _ (gg u 2)); first by apply: (gg_mono std).
  by apply: (aerr_rndg std); apply: half_aerr; apply: del_aerr.
apply: ler_wpmul2r; last exact: (gg_gam std u3).
rewrite -(del_sum tl il); apply: sumr_ge0 => j _; apply: inc.
exact: leq_trans (ltn_ord j) il.
Qed.

(* the two Euler matrices are those of nodes moved by the unit roundoff *)
Theorem C83_backward : exists nodes', [/\ size nodes' = M,
  forall i, (i < M)%N -> `|nth 0 nodes' i - nth 0 nodes i| <= u * (nth 0 nodes i - tl),
  forall j, (j < M)%N -> 0 <= step nodes' tl j &
  exists2 self', ts_init tr false nodes' tl = Ok self' &
    [/\ r_qd_BE rnd rself = qd_BE self', r_qd_FE rnd rself = qd_FE self' &
        r_dTau_FE rnd rself = dTau_FE self']].
Proof.
have [rnE rtE rdS M0 rdE] := r_ts_E re; have [_ _ _ idem] := std.
pose nodes' := mkseq (fun i => tl + \sum_(j < i.+1) rnd (delta j)) M.
have sz : size nodes' = M by rewrite size_mkseq.
have ne : (0 < size nodes')%N by rewrite sz.
have [_ /(_ _) [|self' e' _]] := C37_init tr false nodes' tl; first by move=> en; move: ne; rewrite en.
have st j : (j < M)%N -> step nodes' tl j = rnd (delta j).
  move=> jl; rewrite /step nth_mkseq //; case: j jl => [|j] jl; first by rewrite big_ord_recl big_ord0 addr0 addrAC subrr add0r.
  rewrite nth_mkseq ?(ltnW jl) // [in X in X - _]big_ord_recr /=.
  by rewrite addrA addrAC subrr add0r.
have [s1 h1] := BE_E e'; have [s2 h2] := FE_E e'; have [s3 h3] := r_BE_E std re; have [s4 h4] := r_FE_E std re.
rewrite sz in s1 h1 s2 h2.
exists nodes'; split; first by rewrite size_mkseq.
- move=> i il; rewrite nth_mkseq // -(del_sum tl il).
  have -> : tl + \sum_(j < i.+1) rnd (delta j) - nth 0 nodes i =
     \sum_(j < i.+1) (rnd (delta j) - delta j).
    by rewrite sumrB (del_sum tl il) opprB addrCA addrA.
  apply: (le_trans (ler_norm_sum _ _ _)); rewrite mulr_sumr; apply: ler_sum => j _.
  have jl : (j < M)%N by exact: leq_trans (ltn_ord j) il.
  by apply: (le_trans (rnd_err _)); rewrite (ger0_norm (inc jl)).
- move=> j jl; rewrite st //; have [t -> /andP [t0 _]] := rnd_near std (delta j).
  by rewrite mulr_ge0 ?inc //; apply: le_trans t0; apply: ltW; apply: (pw_gt0 std).
exists self' => //; split.
- by apply: mat_ext s3 s1 _ => i j il jl; rewrite h3 // h1 //; case: ifP => // _; rewrite st.
- apply: mat_ext s4 s2 _ => i j il jl; rewrite h4 // h2 //; case: ifP => // ji; rewrite st //.
  exact: leq_ltn_trans il.
have [nE' tE' dS' _ dE'] := ts_E e'; rewrite sz in dS' dE'.
rewrite /r_dTau_FE /dTau_FE nE' rnE rdE // dE' // st //.
apply: (@eq_from_nth _ 0); rewrite !size_map ?size_iota // => i il.
by rewrite !(nth_map 0) ?sz // !mulr0 (rnd0 std) !add0r idem.
Qed.
End Increasing.

(* parallel sweeps *)
Theorem C83_parallel : (forall x, x \in nodes -> rnd x = x) -> tl = 0 ->
  r_qd_BEPAR rnd rself = qd_BEPAR self /\
  (forall i j, (i < M)%N -> (j < M)%N ->
     `|ent (r_qd_TRAPAR rnd rself) i j - ent (qd_TRAPAR self) i j| <= u * `|ent (qd_TRAPAR self) i j|) /\
  (forall i, (i < M)%N ->
     `|nth 0 (r_dTau_TRAPAR rnd rself) i - nth 0 (dTau_TRAPAR self) i| <= u * `|nth 0 (dTau_TRAPAR self) i|).
Proof.
move=> fl tl0; have [nE tE dS M0 dE] := ts_E e; have [rnE rtE rdS _ rdE] := r_ts_E re.
have [_ _ _ idem] := std.
have gen (f : F -> F) (s : seq F) : size s = M -> is_shape [seq [seq f x | x <- r] | r <- diagm s] M M /\
    forall i j, (i < M)%N -> (j < M)%N ->
      ent [seq [seq f x | x <- r] | r <- diagm s] i j = f (if i == j then nth 0 s i else 0).
  move=> zs; have sh := diagm_shape s; rewrite zs in sh; have [z h] := is_shapeP _ _ _ sh.
  split.
    apply/is_shapeP; rewrite size_map z; split=> // k kl.
    by rewrite (nth_map [::]) ?z // size_map h.
  by move=> i j il jl; rewrite /ent (nth_map [::]) ?z // (nth_map 0) ?h // -/(ent _ i j) ent_diagm ?zs.
have hz := size_map (fun x : F => x / 2%:R) nodes; have hz' := size_map (fun x => rnd (x / 2%:R)) nodes.
rewrite /r_qd_BEPAR /qd_BEPAR /r_qd_TRAPAR /qd_TRAPAR /r_dTau_TRAPAR /dTau_TRAPAR nE rnE tE rtE tl0.
split; last split.
- have [s1 h1] := gen (fun x => rnd (x - 0)) nodes erefl; have [s2 h2] := gen (fun x => x - 0) nodes erefl.
  apply: mat_ext s1 s2 _ => i j il jl; rewrite h1 // h2 // subr0.
  by case: ifP => _; rewrite ?(rnd0 std) // fl // mem_nth.
- move=> i j il jl; have [_ ->] := gen (fun x => rnd (x - 0)) _ hz' => //.
  have [_ ->] := gen (fun x => x - 0) _ hz => //; rewrite !subr0; case: ifP => _.
    by rewrite !(nth_map 0) // idem rnd_err.
  by rewrite (rnd0 std) subrr normr0 mulr0.
by move=> i il; rewrite !(nth_map 0) // !subr0 idem rnd_err.
Qed.
End Round.
Print Assumptions C83_euler.
Print Assumptions C83_trap.
Print Assumptions C83_rows.
Print Assumptions C83_backward.
Print Assumptions C83_parallel.

(* float64, three increasing nodes *)
Section Example83.
Notation RF := r_realFieldType.
Let nodes : seq RF := [:: 3%:R^-1; 2%:R / 3%:R; 1].
Example C83_nonvacuous : std_model (F := RF) u64 f64 /\ 3%:R * u64 < 1 :> RF /\
  (forall j, (j < size nodes)%N -> 0 <= step nodes 0 j) /\
  exists self rself, [/\ ts_init id false nodes 0 = Ok self, r_ts_init f64 nodes 0 = Ok rself &
    `|vsum (nth [::] (r_qd_TRAP f64 rself) 2) + nth 0 (r_dTau_TRAP f64 rself) 2 - 1| <= 4%:R * u64].
Proof.
have u3 : 3%:R * u64 < 1 :> RF.
  by apply/rltE; rewrite rnatE u64E -[1]/R1 -[_ * _]/(Rmult _ _) /=; lra.
have inc j : (j < size nodes)%N -> 0 <= step nodes 0 j.
  case: j => [|[|[|//]]] _; rewrite /step /= ?subr0 ?invr_ge0 ?ler0n //.
    by have -> : 2%:R / 3%:R - 3%:R^-1 = 3%:R^-1 :> RF; [field|rewrite invr_ge0 ler0n].
  by have -> : 1 - 2%:R / 3%:R = 3%:R^-1 :> RF; [field|rewrite invr_ge0 ler0n].
split; first exact: C79_float64.
split=> //; split=> //; do 2 eexists; split; [reflexivity|reflexivity|].
have [//|_ _ h] := C83_rows (tr := id) C79_float64 (nodes := nodes) (tl := 0) erefl erefl inc u3 (i := 2%N).
have n2 : nth 0 nodes 2 - 0 = 1 :> RF by rewrite subr0.
rewrite n2 mulr1 in h; apply: (le_trans h).
have u0 : 0 < u64 :> RF by apply/rltE; rewrite u64E -[0]/R0; lra.
rewrite /gam ler_pdivr_mulr ?subr_gt0 //.
have -> : 4%:R * u64 * (1 - 3%:R * u64) = 3%:R * u64 + u64 * (1 - 12%:R * u64) :> RF by ring.
rewrite ler_addl; apply: mulr_ge0; first exact: ltW.
by rewrite subr_ge0; apply/rleE; rewrite rnatE u64E -[1]/R1 -[_ * _]/(Rmult _ _) /=; lra.
Qed.
End Example83.
