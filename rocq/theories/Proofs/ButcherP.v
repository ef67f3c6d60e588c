(* Computations on the registered Butcher tables. *)
From Coq Require Import ZArith QArith Qcanon List.
From Verif.Base Require Import Str.
From mathcomp Require Import all_ssreflect all_algebra ring.
From Verif.Base Require Import QcField QcEmb Arr.
From Verif.Model Require Import QGen Butcher.
From Verif.Spec Require Import QCoeffSpec ButcherSpec.
From Verif.Proofs Require Import OrderP.
Set Implicit Arguments.
Unset Strict Implicit.
Unset Printing Implicit Defensive.
Import GRing.Theory Num.Theory Order.TTheory.
Local Open Scope ring_scope.

Section Ball.
Variables (P2 : Z) (dv : Z -> Z).
Notation blit := (blit P2).
Notation bmul := (bmul dv).
(* ball of a + b sqrt(d) *)
Definition bsqrt (d : nat) : ball := (Z.sqrt (Z.mul (Z.of_nat d) (Z.mul P2 P2)), Z.one).
Definition blit2 (d : nat) (v : q2 d) : ball :=
  if im v == 0 then blit (re v) else badd (blit (re v)) (bmul (blit (im v)) (bsqrt d)).
Definition bsmall (x : ball) (eps : Z * positive) : bool :=
  Z.leb (Z.mul (Z.add (Z.abs x.1) x.2) (Zpos eps.2)) (Z.mul eps.1 P2).
(* |x - 1/dens| > eps *)
Definition bfar (x : ball) (dens : nat) (eps : Z * positive) : bool :=
  Z.ltb (Z.mul (Z.mul eps.1 P2) (Z.of_nat dens))
        (Z.mul (Z.sub (Z.abs (Z.sub (Z.mul (Z.of_nat dens) x.1) P2)) (Z.mul (Z.of_nat dens) x.2)) (Zpos eps.2)).

Definition epsv (F : numFieldType) (eps : Z * positive) : F := qcr F (qc eps.1 eps.2).

Hypothesis P2_pos : Z.lt 0 P2.
Hypothesis dvE : forall a, dv a = Z.div a P2.
Variables (F : numFieldType) (d : nat) (s : F).
Notation inb := (inb P2).
Notation inbs := (inbs P2).
Notation inbm := (inbm P2).

Hypothesis sq : s * s = d%:R.
Hypothesis s0 : 0 <= s.
Notation zr := (zr F).

Lemma inb_sqrt : inb (bsqrt d) s.
Proof.
rewrite /inb /=; set N := Z.mul _ _; have N0 : Z.le 0 N by apply: Z.mul_nonneg_nonneg; [apply: Nat2Z.is_nonneg|apply: Z.mul_nonneg_nonneg; apply: Z.lt_le_incl].
have [h1 h2] := Z.sqrt_spec N N0; set m := Z.sqrt N in h1 h2 *.
have m0 : 0 <= zr m by apply: zr_ge0; apply: Z.sqrt_nonneg.
set S := s * zr P2; have S0 : 0 <= S by rewrite mulr_ge0 // ltW //; apply: (P2_gt0 F P2_pos).
have eS : S ^+ 2 = zr N by rewrite expr2 /S mulrACA sq /N !zrM zr_nat.
have l1 : zr m <= S.
  by rewrite -ler_sqr ?nnegrE //= eS expr2 -zrM; apply: zr_le.
have l2 : S <= zr m + 1.
  rewrite -ler_sqr ?nnegrE ?addr_ge0 ?ler01 //= eS expr2 -[1](zr1 F) -zrD -zrM; apply: zr_le.
  by apply: Z.lt_le_incl; rewrite Z.add_1_r.
by rewrite ger0_norm ?subr_ge0 // ler_subl_addl.
Qed.

Lemma inb_lit2 (v : q2 d) : inb (blit2 v) (q2v s v).
Proof.
rewrite /blit2 /q2v; case: eqP => [->|_]; first by rewrite rmorph0 mul0r addr0; apply: inb_lit.
by apply: inb_add; [apply: inb_lit|apply: (inb_mul P2_pos dvE); [apply: inb_lit|apply: inb_sqrt]].
Qed.

Lemma inbs_lit (v : seq (q2 d)) : inbs (map (@blit2 d) v) (map (q2v s) v).
Proof. by elim: v => [|a v ih] /=; constructor => //; apply: inb_lit2. Qed.
Lemma inbm_lit (A : seq (seq (q2 d))) :
  inbm (map (map (@blit2 d)) A) (map (map (q2v s)) A).
Proof. by elim: A => [|a A ih] /=; constructor => //; apply: inbs_lit. Qed.

Lemma bsmallP x (a : F) eps : inb x a -> bsmall x eps -> `|a| <= epsv F eps.
Proof.
move=> h /Z.leb_le /(@zr_le F); rewrite !zrM zrD zr_abs => hn.
have pp : 0 < zr (Zpos eps.2) by apply: posr_gt0.
rewrite /epsv qcrE ler_pdivl_mulr; last exact: pp.
rewrite -(ler_pmul2r (P2_gt0 F P2_pos)) (le_trans _ hn) // mulrAC ler_pmul2r //.
rewrite -{1}(ger0_norm (ltW (P2_gt0 F P2_pos))) -normrM.
have -> : a * zr P2 = zr x.1 + (a * zr P2 - zr x.1) by rewrite addrC subrK.
by rewrite (le_trans (ler_norm_add _ _)) // ler_add2l.
Qed.

Lemma bfarP x (a : F) n eps : (0 < n)%N -> inb x a -> bfar x n eps ->
  epsv F eps < `|a - n%:R^-1|.
Proof.
move=> n0 h /Z.ltb_lt /(@zr_lt F); rewrite !zrM zrD zr_opp zr_abs zrM zrD zr_opp !zrM zr_nat => hn.
have dp : 0 < n%:R :> F by rewrite ltr0n.
have pp : 0 < zr (Zpos eps.2) by apply: posr_gt0.
rewrite /epsv qcrE ltr_pdivr_mulr; last exact: pp.
have k0 : 0 < n%:R * zr P2 by rewrite mulr_gt0 ?(P2_gt0 F P2_pos).
rewrite -(ltr_pmul2l k0).
have com (u v w : F) : u * v * w = w * v * u by ring.
apply: lt_le_trans (_ : (`|n%:R * zr x.1 - zr P2| - n%:R * zr x.2) * zr (Zpos eps.2) <= _).
  by rewrite com.
rewrite mulrA ler_pmul2r // -{1}(ger0_norm (ltW k0)) -normrM.
have -> : n%:R * zr P2 * (a - n%:R^-1) = (n%:R * zr x.1 - zr P2) - n%:R * (zr x.1 - a * zr P2).
  by have := lt0r_neq0 dp; move: (zr P2) (zr x.1) n%:R => p u v v0; field.
apply: le_trans (ler_sub_dist _ _).
by rewrite ler_add2l ler_opp2 normrM ger0_norm ?(ltW dp) // ler_pmul2l // distrC.
Qed.
End Ball.

(* checks on the tables, at scale 2^64 *)
Definition scale : Z := Z.pow 2 64.
Definition shift (a : Z) : Z := Z.shiftr a 64.
Lemma scale_pos : Z.lt 0 scale. Proof. by []. Qed.
Lemma shiftE a : shift a = Z.div a scale.
Proof. exact: Z.shiftr_div_pow2. Qed.

Definition bal d := blit2 scale shift (d := d).
Definition chk_order d (A : seq (seq (q2 d))) (b : seq (q2 d)) (p : nat) (eps : Z * positive) : bool :=
  if Z.eqb eps.1 Z0 then order_chk (R := q2_ringType d) A b p
  else let A' := map (map (@bal d)) A in let b' := map (@bal d) b in
       checkall (nseq (size b') (bone scale)) (bmulv shift) (bmv shift A') p
         (fun dens v => bnear scale (bdot shift b' v) dens eps).
Fixpoint tall (k : nat) : tree := if k is k'.+1 then Node [:: tall k'] else Node [::].
Definition chk_tall d (A : seq (seq (q2 d))) (b : seq (q2 d)) (p : nat) (eps : Z * positive) : bool :=
  if Z.eqb eps.1 Z0 then
    all (fun k => elemw (R := q2_ringType d) A b (tall k) * (tdens (tall k))%:R == 1) (iota 0 p)
  else
    let A' := map (map (@bal d)) A in let b' := map (@bal d) b in
    all (fun k => bnear scale (belemw scale shift A' b' (tall k)) (tdens (tall k)) eps) (iota 0 p).
Definition chk_far d (A : seq (seq (q2 d))) (b : seq (q2 d)) (t : tree) (eps : Z * positive) : bool :=
  let A' := map (map (@bal d)) A in let b' := map (@bal d) b in
  bfar scale (belemw scale shift A' b' t) (tdens t) eps.
Definition chk_zero d (v : q2 d) (eps : Z * positive) : bool :=
  (v == 0) || bsmall scale (bal v) eps.

Section Checks.
Variables (F : numFieldType) (d : nat) (s : F).
Hypothesis sq : s * s = d%:R.
Hypothesis s0 : 0 <= s.
Notation f := (q2v (d := d) s).

Lemma epsv_ge0 eps : Z.leb 0 eps.1 -> 0 <= epsv F eps.
Proof.
move=> /Z.leb_le h; rewrite /epsv qcrE divr_ge0 //; first exact: (zr_ge0 F h).
by rewrite ltW // posr_gt0.
Qed.

Lemma elemw_v A b t : elemw (map (map f) A) (map f b) t = f (elemw (R := q2_ringType d) A b t).
Proof. exact: (map_elemw (q2v_rmorphism sq)). Qed.

Lemma exact_v A b t : elemw (R := q2_ringType d) A b t * (tdens t)%:R == 1 ->
  elemw (map (map f) A) (map f b) t = (tdens t)%:R^-1.
Proof.
move=> /eqP e; have d0 : (tdens t)%:R != 0 :> F by rewrite pnatr_eq0 -lt0n tdens_gt0.
have := congr1 (q2v_rmorphism sq) e; rewrite rmorphM rmorph1 rmorph_nat /= => e'.
by rewrite elemw_v -[LHS](mulfK d0) e' mul1r.
Qed.

Lemma near_v A b t eps :
  bnear scale (belemw scale shift (map (map (@bal d)) A) (map (@bal d) b) t) (tdens t) eps ->
  `|elemw (map (map f) A) (map f b) t - (tdens t)%:R^-1| <= epsv F eps.
Proof.
apply: (bnearP scale_pos); first exact: tdens_gt0.
apply: (inb_elemw scale_pos shiftE); first exact: (inbm_lit scale_pos shiftE sq s0).
exact: (inbs_lit scale_pos shiftE sq s0).
Qed.

Lemma chk_orderP A b p eps : Z.leb 0 eps.1 -> chk_order A b p eps ->
  order_cond (map (map f) A) (map f b) p (epsv F eps).
Proof.
move=> e0; rewrite /chk_order; case: ifP => _ h t st.
  by rewrite (exact_v (order_chkP h st)) subrr normr0 epsv_ge0.
by apply: near_v; have := checkallP h st.
Qed.

Lemma chk_tallP A b p eps k : Z.leb 0 eps.1 -> chk_tall A b p eps -> (k < p)%N ->
  `|elemw (map (map f) A) (map f b) (tall k) - (tdens (tall k))%:R^-1| <= epsv F eps.
Proof.
move=> e0; rewrite /chk_tall; have ki : (k < p)%N -> k \in iota 0 p by rewrite mem_iota.
case: ifP => _ /allP h /ki /h.
  by move=> /exact_v ->; rewrite subrr normr0 epsv_ge0.
exact: near_v.
Qed.

Lemma chk_farP A b t eps : chk_far A b t eps ->
  epsv F eps < `|elemw (map (map f) A) (map f b) t - (tdens t)%:R^-1|.
Proof.
apply: (bfarP scale_pos); first exact: tdens_gt0.
apply: (inb_elemw scale_pos shiftE); first exact: (inbm_lit scale_pos shiftE sq s0).
exact: (inbs_lit scale_pos shiftE sq s0).
Qed.

Lemma chk_zeroP (v : q2 d) eps : Z.leb 0 eps.1 -> chk_zero v eps -> `|f v| <= epsv F eps.
Proof.
move=> e0 /orP [/eqP ->|].
  by have /= -> := rmorph0 (q2v_rmorphism sq); rewrite normr0 epsv_ge0.
apply: (bsmallP scale_pos); exact: (inb_lit2 scale_pos shiftE sq s0).
Qed.
End Checks.

(* the tall trees are the linear order conditions *)
Lemma tsize_tall k : tsize (tall k) = k.+1.
Proof. by elim: k => //= k ->; rewrite addn0. Qed.
Lemma tdens_tall k : tdens (tall k) = k.+1`!.
Proof. by elim: k => //= k ->; rewrite tsize_tall addn0 muln1 -factS. Qed.

Lemma stagew_tall (K : fieldType) n (A : seq (seq K)) k : is_shape A n n ->
  cvl n (stagew n A (tall k)) = iter k (mulmx (mxl n n A)) (const_mx 1) /\
  size (stagew n A (tall k)) = n.
Proof.
move=> hA; have [sA _] := is_shapeP A n n hA.
elim: k => [|k [ih sz]] /=.
  by split; rewrite ?size_nseq //; apply/matrixP => i j; rewrite !mxE nth_nseq ltn_ord.
have e1 (v : seq K) : size v = n -> [seq p.1 * p.2 | p <- zip v (nseq n 1)] = v.
  move=> sv; apply: (@eq_from_nth _ 0); rewrite size_map size_zip size_nseq sv minnn // => i il.
  by rewrite (nth_map (0, 0)) ?size_zip ?size_nseq ?sv ?minnn // nth_zip ?size_nseq //= nth_nseq il mulr1.
by rewrite e1 ?size_mv // (cvl_mv hA) ?ih.
Qed.

Lemma elemw_tall (K : fieldType) n (A : seq (seq K)) b k : is_shape A n n -> size b = n ->
  elemw A b (tall k) = moment n A b k.
Proof.
move=> hA sb; have [e sz] := stagew_tall k hA.
rewrite /elemw sb /moment -e (@dotE _ _ _ n) // mxE; apply: eq_bigr => i _.
by rewrite !mxE.
Qed.

(* ---- the registered schemes ---- *)
Definition chk_consistent (sc : scheme) : bool :=
  let t := s_tab sc in let e := tolz (s_name sc) in
  [&& table_check t, (if tb2 t is Some b2 then size b2 == size (tb t) else true),
      chk_zero (vsum (tb t) - 1) e,
      (if tb2 t is Some b2 then chk_zero (vsum b2 - 1) e else true) &
      (s_name sc == "RK53"%string) ||
      all (fun i => chk_zero (vsum (nth [::] (tA t) i) - nth 0 (tc t) i) e) (iota 0 (size (tc t)))].

Definition low_order : seq string := [:: "RK32"; "ARK343ERK"]%string.
Definition real_order (sc : scheme) : nat :=
  if s_name sc \in low_order then (torder (s_tab sc)).-1 else torder (s_tab sc).
Definition real_orderE (sc : scheme) : nat :=
  if s_name sc == "ARK548L2SAESDIRK"%string then (torderE (s_tab sc)).-1 else torderE (s_tab sc).
Definition chk_orders (sc : scheme) : bool :=
  let t := s_tab sc in let e := tolz (s_name sc) in
  [&& chk_order (tA t) (tb t) (real_order sc) e, chk_tall (tA t) (tb t) (torder t) e &
      (if tb2 t is Some b2 then chk_order (tA t) b2 (real_orderE sc) e else true)].
(* a tree with one more node violates the condition by more than 1/100000 *)
Definition eps5 : Z * positive := (Z.one, 100000%positive).
Definition bushy (p : nat) : tree := Node (nseq p (Node [::])).
Lemma tsize_bushy p : tsize (bushy p) = p.+1.
Proof. by rewrite /=; congr _.+1; elim: p => //= p ->. Qed.
Definition chk_sharp d (A : seq (seq (q2 d))) b p : bool :=
  if chk_far A b (tall p) eps5 then true else chk_far A b (bushy p) eps5.
Definition chk_sharps (sc : scheme) : bool :=
  let t := s_tab sc in
  chk_sharp (tA t) (tb t) (real_order sc) &&
  (if tb2 t is Some b2 then chk_sharp (tA t) b2 (real_orderE sc) else true).

Lemma all_consistent : List.forallb chk_consistent schemes = true.
Proof. vm_cast_no_check (erefl true). Qed.
Lemma all_orders : List.forallb chk_orders schemes = true.
Proof. vm_cast_no_check (erefl true). Qed.
Lemma all_sharps : List.forallb chk_sharps schemes = true.
Proof. vm_cast_no_check (erefl true). Qed.
