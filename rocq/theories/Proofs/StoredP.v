(* Order conditions of stored tables. *)
From Coq Require Import ZArith QArith Qcanon List.
From Verif.Base Require Import Str.
From mathcomp Require Import all_ssreflect all_algebra ring.
From Verif.Base Require Import QcField QcEmb Arr.
From Verif.Model Require Import QGen Butcher.
From Verif.Spec Require Import QCoeffSpec ButcherSpec StoredSpec.
From Verif.Proofs Require Import OrderP ButcherP.
Set Implicit Arguments.
Unset Strict Implicit.
Unset Printing Implicit Defensive.
Import GRing.Theory Num.Theory Order.TTheory.
Local Open Scope ring_scope.

Section Pert.
Variables (F : numFieldType) (e : F).
(* b replaces a, which is at most A in modulus *)
Definition aerr (e A a b : F) : Prop := `|a| <= A /\ `|b - a| <= e * A.
Lemma aerr_ge0 E A a b : aerr E A a b -> 0 <= A.
Proof. by case=> h _; apply: le_trans h. Qed.
Lemma aerr_add E A B a b a' b' : aerr E A a a' -> aerr E B b b' -> aerr E (A + B) (a + b) (a' + b').
Proof.
move=> [h1 h2] [g1 g2]; split; first by apply: (le_trans (ler_norm_add _ _)); rewrite ler_add.
have -> : a' + b' - (a + b) = (a' - a) + (b' - b) by ring.
by apply: (le_trans (ler_norm_add _ _)); rewrite mulrDr ler_add.
Qed.
Lemma aerr_mul E f A B a b a' b' : 0 <= E -> aerr E A a a' -> aerr f B b b' ->
  aerr ((1 + E) * (1 + f) - 1) (A * B) (a * b) (a' * b').
Proof.
move=> E0 h g; have A0 := aerr_ge0 h; have B0 := aerr_ge0 g.
case: h g => [h1 h2] [g1 g2]; split; first by rewrite normrM ler_pmul.
have na : `|a'| <= (1 + E) * A.
  have -> : a' = a + (a' - a) by ring.
  by apply: (le_trans (ler_norm_add _ _)); rewrite mulrDl mul1r ler_add.
have -> : a' * b' - a * b = a' * (b' - b) + b * (a' - a) by ring.
apply: (le_trans (ler_norm_add _ _)); rewrite !normrM.
apply: le_trans (_ : (1 + E) * A * (f * B) + B * (E * A) <= _); first by rewrite ler_add // ler_pmul.
by rewrite le_eqVlt; apply/orP; left; apply/eqP; ring.
Qed.

Hypothesis e0 : 0 <= e.
Notation nrm := (map (fun a : F => `|a|)).
Notation pw k := ((1 + e) ^+ k - 1).

Lemma pw_ge0 k : 0 <= pw k.
Proof. by rewrite subr_ge0 exprn_ege1 // ler_addl. Qed.
Lemma pwD j k : (1 + pw j) * (1 + pw k) - 1 = pw (j + k).
Proof. by rewrite ![1 + _]addrC !subrK exprD. Qed.
Lemma pw_le j k : (j <= k)%N -> pw j <= pw k.
Proof. by move=> h; rewrite ler_add2r ler_weexpn2l // ler_addl. Qed.

Fixpoint al3 (E : F) (W w w' : seq F) : Prop :=
  match W, w, w' with
  | [::], [::], [::] => True
  | A :: Y, a :: y, b :: z => aerr E A a b /\ al3 E Y y z
  | _, _, _ => False
  end.

Lemma al3_vec v v' : stored_vec e v v' -> al3 (pw 1) (nrm v) v v'.
Proof.
elim=> // a a' l l' h _ ih /=; split=> //; split=> //.
by rewrite expr1 addrAC subrr add0r.
Qed.
Lemma al3_dot j k B b b' W w w' : al3 (pw j) B b b' -> al3 (pw k) W w w' ->
  aerr (pw (j + k)) (dot B W) (dot b w) (dot b' w').
Proof.
elim: B b b' W w w' => [|x B ih] [|y b] [|z b'] //.
  by move=> [|??] [|??] [|??] // _ _; rewrite /dot /=; split; rewrite ?subrr ?normr0 ?mulr0.
move=> [|p W] [|q w] [|r w'] //; first by move=> _ _; rewrite /dot /=; split; rewrite ?subrr ?normr0 ?mulr0.
move=> /= [h hs] [g gs]; rewrite /dot /=; apply: aerr_add; last exact: (ih _ _ _ _ _ hs gs).
rewrite -pwD; apply: aerr_mul => //; exact: pw_ge0.
Qed.
Lemma al3_mul j k U u u' V v v' : al3 (pw j) U u u' -> al3 (pw k) V v v' ->
  al3 (pw (j + k)) [seq p.1 * p.2 | p <- zip U V] [seq p.1 * p.2 | p <- zip u v]
    [seq p.1 * p.2 | p <- zip u' v'].
Proof.
elim: U u u' V v v' => [|x U ih] [|y u] [|z u'] //.
  by move=> [|??] [|??] [|??].
move=> [|p V] [|q v] [|r v'] // [h hs] [g gs] /=; split; last exact: ih.
rewrite -pwD; apply: aerr_mul => //; exact: pw_ge0.
Qed.
Lemma al3_mv k A A' W w w' : stored_mat e A A' -> al3 (pw k) W w w' ->
  al3 (pw k.+1) (mv (map nrm A) W) (mv A w) (mv A' w').
Proof.
move=> h hw; elim: h => //= r r' B B' hr _ ih; split=> //.
exact: (al3_dot (al3_vec hr) hw).
Qed.
Lemma al3_one n : al3 (pw 0) (nseq n 1) (nseq n 1) (nseq n 1).
Proof. by elim: n => //= n ih; split=> //; split; rewrite ?subrr ?normr1 ?normr0 ?mul0r. Qed.

Lemma al3_stagew n A A' t : stored_mat e A A' ->
  al3 (pw (tsize t).-1) (stagew n (map nrm A) t) (stagew n A t) (stagew n A' t).
Proof.
move=> hA; elim/tree_ind2: t => s ih /=; elim: s ih => [|t s ihs] ih /=; first exact: al3_one.
apply: al3_mul; last by apply: ihs => t' h; apply: ih; right.
have -> : tsize t = (tsize t).-1.+1 by case: (t).
by apply: al3_mv => //; apply: ih; left.
Qed.

Lemma aerr_elemw A A' b b' t : stored_mat e A A' -> stored_vec e b b' ->
  aerr (pw (tsize t)) (elemw (map nrm A) (nrm b) t) (elemw A b t) (elemw A' b' t).
Proof.
move=> hA hb; have -> : tsize t = (1 + (tsize t).-1)%N by case: (t).
have sb : size b' = size b by elim: hb => //= ? ? ? ? _ _ ->.
by rewrite /elemw sb size_map; apply: al3_dot; [apply: al3_vec|apply: al3_stagew].
Qed.

Lemma aerr_vsum v v' : stored_vec e v v' -> aerr e (vsum (nrm v)) (vsum v) (vsum v').
Proof.
elim=> [|a a' l l' h _ ih]; first by rewrite /vsum /=; split; rewrite ?subrr ?normr0 ?mulr0.
by rewrite /vsum /=; apply: aerr_add => //; split.
Qed.

Lemma order_pert A A' b b' p eps K : stored_mat e A A' -> stored_vec e b b' ->
  order_cond A b p eps -> (forall t, (tsize t <= p)%N -> elemw (map nrm A) (nrm b) t <= K) ->
  order_cond A' b' p (eps + pw p * K).
Proof.
move=> hA hb ho hK t st; have h := aerr_elemw t hA hb; have W0 := aerr_ge0 h.
have -> : elemw A' b' t - (tdens t)%:R^-1 =
  (elemw A b t - (tdens t)%:R^-1) + (elemw A' b' t - elemw A b t) by ring.
apply: (le_trans (ler_norm_add _ _)); apply: ler_add; first exact: ho.
apply: (le_trans h.2); apply: ler_pmul => //; [exact: pw_ge0|exact: pw_le|exact: hK].
Qed.
End Pert.

(* ---- computed magnitudes ---- *)
Definition babs (x : ball) : ball := (Z.abs x.1, x.2).
Definition bala d (v : q2 d) : ball := babs (bal v).
Definition chk_mag d (A : seq (seq (q2 d))) (b : seq (q2 d)) (p : nat) (K : positive) : bool :=
  let A' := map (map (@bala d)) A in let b' := map (@bala d) b in
  checkall (nseq (size b') (bone scale)) (bmulv shift) (bmv shift A') p
    (fun _ v => bsmall scale (bdot shift b' v) (Zpos K, 1%positive)).
Definition chk_rowmag d (v : seq (q2 d)) (K : positive) : bool :=
  bsmall scale (foldr (@badd) bzero (map (@bala d) v)) (Zpos K, 1%positive).
Definition chk_mag1 d (A : seq (seq (q2 d))) (b : seq (q2 d)) (t : tree) (K : positive) : bool :=
  let A' := map (map (@bala d)) A in let b' := map (@bala d) b in
  bsmall scale (belemw scale shift A' b' t) (Zpos K, 1%positive).
Definition chk_mags (sc : scheme) : bool :=
  let t := s_tab sc in let K := magnp (s_name sc) in
  [&& chk_mag (tA t) (tb t) (torder t) K,
      (if tb2 t is Some b2 then chk_mag (tA t) b2 (torderE t) K && chk_rowmag b2 K else true),
      chk_rowmag (tb t) K, chk_rowmag (tc t) K & all (fun r => chk_rowmag r K) (tA t)].
Definition K7 : positive := 10000000%positive.
Definition chk_mags7 (sc : scheme) : bool :=
  let t := s_tab sc in
  chk_mag1 (tA t) (tb t) (tall (real_order sc)) K7 && chk_mag1 (tA t) (tb t) (bushy (real_order sc)) K7.

Lemma all_mags : List.forallb chk_mags schemes = true.
Proof. vm_cast_no_check (erefl true). Qed.
Lemma all_mags7 : List.forallb chk_mags7 schemes = true.
Proof. vm_cast_no_check (erefl true). Qed.

Section Mag.
Variables (F : numFieldType) (d : nat) (s : F).
Hypothesis sq : s * s = d%:R.
Hypothesis s0 : 0 <= s.
Notation f := (q2v (d := d) s).
Notation nrm := (map (fun a : F => `|a|)).

Lemma inb_abs (x : ball) (a : F) : inb scale x a -> inb scale (babs x) `|a|.
Proof.
rewrite /inb -[(babs x).1]/(Z.abs x.1) -[(babs x).2]/x.2 zr_abs => h; apply: le_trans h.
have p0 : 0 < zr F scale := P2_gt0 F scale_pos; move: (zr F scale) p0 => P p0.
by rewrite -{1}(gtr0_norm p0) -normrM; apply: ler_dist_dist.
Qed.
Lemma inbs_abs (v : seq (q2 d)) : inbs scale (map (@bala d) v) (nrm (map f v)).
Proof.
elim: v => [|a v ih] /=; constructor => //; apply: inb_abs.
exact: (inb_lit2 scale_pos shiftE sq s0).
Qed.
Lemma inbm_abs (A : seq (seq (q2 d))) : inbm scale (map (map (@bala d)) A) (map nrm (map (map f) A)).
Proof. by elim: A => [|a A ih] /=; constructor => //; apply: inbs_abs. Qed.

Lemma epsv_nat K : epsv F (Zpos K, 1%positive) = (Pos.to_nat K)%:R.
Proof.
have := zr_nat F (Pos.to_nat K); rewrite positive_nat_Z => <-.
by rewrite /epsv qcrE; apply: divr1.
Qed.

Lemma elemw_ge0 (A : seq (seq F)) b t : 0 <= elemw (map nrm A) (nrm b) t.
Proof.
have hb : stored_vec 0 b b by elim: (b) => [|x v ih]; constructor => //; rewrite /stored_num subrr normr0 mul0r.
have hA : stored_mat 0 A A.
  elim: (A) => [|r B ih]; constructor => //.
  by elim: (r) => [|x v ih']; constructor => //; rewrite /stored_num subrr normr0 mul0r.
exact: (aerr_ge0 (aerr_elemw (lexx 0) t hA hb)).
Qed.

Lemma chk_magP A b p K : chk_mag A b p K -> forall t, (tsize t <= p)%N ->
  elemw (map nrm (map (map f) A)) (nrm (map f b)) t <= (Pos.to_nat K)%:R.
Proof.
move=> h t st; rewrite -epsv_nat -[X in X <= _]ger0_norm ?elemw_ge0 //.
have hi := inb_elemw scale_pos shiftE t (inbm_abs A) (inbs_abs b).
exact: (bsmallP scale_pos hi (checkallP h st)).
Qed.
Lemma chk_mag1P A b t K : chk_mag1 A b t K ->
  elemw (map nrm (map (map f) A)) (nrm (map f b)) t <= (Pos.to_nat K)%:R.
Proof.
move=> h; rewrite -epsv_nat -[X in X <= _]ger0_norm ?elemw_ge0 //.
have hi := inb_elemw scale_pos shiftE t (inbm_abs A) (inbs_abs b).
exact: (bsmallP scale_pos hi h).
Qed.
Lemma chk_rowmagP v K : chk_rowmag v K -> vsum (nrm (map f v)) <= (Pos.to_nat K)%:R.
Proof.
move=> h; rewrite -epsv_nat -[X in X <= _]ger0_norm; last first.
  by elim: (v) => //= a w ih; rewrite addr_ge0.
apply: (bsmallP scale_pos) h; elim: v => [|a v ih] /=; first exact: inb_zero.
apply: inb_add => //; apply: inb_abs; exact: (inb_lit2 scale_pos shiftE sq s0).
Qed.
End Mag.
