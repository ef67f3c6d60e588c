(* Fixed-point interval arithmetic with 112 fractional bits, and enclosures of elements, polynomials
   and matrices over an ordered field. *)
From Coq Require Import ZArith Lia.
From mathcomp Require Import all_ssreflect all_algebra ring.
From Verif.Base Require Import QcEmb PolyInt.
Set Implicit Arguments.
Unset Strict Implicit.
Unset Printing Implicit Defensive.
Import GRing.Theory Num.Theory Order.TTheory.
Local Open Scope ring_scope.
Delimit Scope Z_scope with cz.

Definition intv := (Z * Z)%type.
Definition SC : Z := (2 ^ 112)%cz.
Arguments SC : simpl never.
Definition shr (x : Z) : Z := Z.shiftr x 112.
Arguments shr : simpl never.
Definition izero : intv := (0%cz, 0%cz).
Definition ione : intv := (SC, SC).
Definition iadd (x y : intv) : intv := ((x.1 + y.1)%cz, (x.2 + y.2)%cz).
Definition iopp (x : intv) : intv := ((- x.2)%cz, (- x.1)%cz).
Definition isub (x y : intv) : intv := ((x.1 - y.2)%cz, (x.2 - y.1)%cz).
Definition imul (x y : intv) : intv :=
  if Z.leb 0 x.1 && Z.leb 0 y.1 then (shr (x.1 * y.1), (shr (x.2 * y.2) + 1)%cz)
  else if Z.leb x.2 0 && Z.leb y.2 0 then (shr (x.2 * y.2), (shr (x.1 * y.1) + 1)%cz)
  else if Z.leb 0 x.1 && Z.leb y.2 0 then (shr (x.2 * y.1), (shr (x.1 * y.2) + 1)%cz)
  else if Z.leb x.2 0 && Z.leb 0 y.1 then (shr (x.1 * y.2), (shr (x.2 * y.1) + 1)%cz)
  else
  let a := (x.1 * y.1)%cz in let b := (x.1 * y.2)%cz in
  let c := (x.2 * y.1)%cz in let d := (x.2 * y.2)%cz in
  (shr (Z.min (Z.min a b) (Z.min c d)), (shr (Z.max (Z.max a b) (Z.max c d)) + 1)%cz).
(* inverse of an interval of positive elements *)
Definition iinvp (x : intv) : intv := ((SC * SC / x.2)%cz, (SC * SC / x.1 + 1)%cz).
Definition inz (x : intv) : bool := Z.ltb 0 x.1 || Z.ltb x.2 0.
Definition iinv (x : intv) : intv := if Z.ltb 0 x.1 then iinvp x else iopp (iinvp (iopp x)).
Definition irat (n : Z) (d : positive) : intv := let q := (n * SC / Zpos d)%cz in (q, (q + 1)%cz).
(* upper bound of the absolute value, as a multiple of the scale *)
Definition iabs (x : intv) : Z := Z.max (Z.abs x.1) (Z.abs x.2).

Arguments zr F z : simpl never.
Section Encl.
Variable F : realFieldType.
Implicit Types (x y : F).
Notation z := (@zr F).
Definition sc : F := z SC.
Definition inI (x : F) (I : intv) : Prop := z I.1 <= x * sc /\ x * sc <= z I.2.

Lemma zlt0 a : Z.lt 0 a -> 0 < z a. Proof. exact: (@zr_lt F 0 a). Qed.
Lemma zgt0 a : Z.lt a 0 -> z a < 0. Proof. exact: (@zr_lt F a 0). Qed.
Lemma scE : sc = z SC. Proof. by []. Qed.
Lemma sc_gt0 : 0 < sc. Proof. exact: zlt0. Qed.
Opaque SC.
Lemma sc_neq0 : sc != 0. Proof. exact: lt0r_neq0 sc_gt0. Qed.
Lemma z1 : z 1 = 1. Proof. by rewrite /= /posr. Qed.
Lemma zB a b : z (a - b) = z a - z b. Proof. by rewrite /Z.sub zrD zr_opp. Qed.

Lemma shr_lo (m : Z) : z (shr m) * sc <= z m.
Proof.
rewrite /shr Z.shiftr_div_pow2 // -zrM; apply: zr_le; rewrite Z.mul_comm; exact: Z.mul_div_le.
Qed.
Lemma shr_hi (m : Z) : z m <= z (shr m + 1) * sc.
Proof.
rewrite /shr Z.shiftr_div_pow2 // -zrM; apply: zr_le; rewrite Z.mul_comm -/SC.
have := Z.mul_succ_div_gt m SC (erefl _); rewrite /Z.succ; apply: Z.lt_le_incl.
Qed.

Opaque shr.
Lemma in_zero : inI 0 izero. Proof. by rewrite /inI mul0r /= lexx. Qed.
Lemma in_one : inI 1 ione. Proof. by rewrite /inI mul1r; rewrite /ione /sc [(_, _).1]/= [(_, _).2]/= lexx. Qed.
Opaque sc.
Lemma in_add x y I J : inI x I -> inI y J -> inI (x + y) (iadd I J).
Proof. by move=> [a b] [c d]; rewrite /inI mulrDl /iadd !zrD; split; apply: ler_add. Qed.
Lemma in_opp x I : inI x I -> inI (- x) (iopp I).
Proof. by move=> [a b]; rewrite /inI mulNr /iopp !zr_opp !ler_opp2. Qed.
Lemma in_sub x y I J : inI x I -> inI y J -> inI (x - y) (isub I J).
Proof. by move=> [a b] [c d]; rewrite /inI mulrBl /isub !zB; split; apply: ler_sub. Qed.

Lemma zmin a b (u : F) : z a <= u \/ z b <= u -> z (Z.min a b) <= u.
Proof. by case=> h; apply: le_trans h; apply: zr_le; [apply: Z.le_min_l|apply: Z.le_min_r]. Qed.
Lemma zmax a b (u : F) : u <= z a \/ u <= z b -> u <= z (Z.max a b).
Proof. by case=> h; apply: (le_trans h); apply: zr_le; [apply: Z.le_max_l|apply: Z.le_max_r]. Qed.

Lemma mul_lo (a b c d u v : F) : a <= u -> u <= b -> c <= v -> v <= d ->
  [\/ a * c <= u * v, a * d <= u * v, b * c <= u * v | b * d <= u * v].
Proof.
move=> au ub cv vd; case: (leP 0 v) => v0.
  case: (leP 0 a) => a0.
    by constructor 1; apply: le_trans (ler_wpmul2r v0 au); apply: ler_wpmul2l.
  by constructor 2; apply: le_trans (ler_wpmul2r v0 au); apply: ler_wnmul2l => //; apply: ltW.
case: (leP 0 b) => b0.
  by constructor 3; apply: le_trans (ler_wnmul2r (ltW v0) ub); apply: ler_wpmul2l.
by constructor 4; apply: le_trans (ler_wnmul2r (ltW v0) ub); apply: ler_wnmul2l => //; apply: ltW.
Qed.
Lemma mul_hi (a b c d u v : F) : a <= u -> u <= b -> c <= v -> v <= d ->
  [\/ u * v <= a * c, u * v <= a * d, u * v <= b * c | u * v <= b * d].
Proof.
move=> au ub cv vd.
have h1 : - b <= - u by rewrite ler_opp2.
have h2 : - u <= - a by rewrite ler_opp2.
by case: (mul_lo h1 h2 cv vd); rewrite !mulNr ler_opp2 => h; [constructor 3|constructor 4|constructor 1|constructor 2].
Qed.

Lemma mul_pp (a b c d u v : F) : 0 <= a -> 0 <= c -> a <= u -> u <= b -> c <= v -> v <= d ->
  a * c <= u * v /\ u * v <= b * d.
Proof.
move=> a0 c0 au ub cv vd; have u0 := le_trans a0 au; have v0 := le_trans c0 cv.
by split; apply: ler_pmul.
Qed.
Lemma mul_nn (a b c d u v : F) : b <= 0 -> d <= 0 -> a <= u -> u <= b -> c <= v -> v <= d ->
  b * d <= u * v /\ u * v <= a * c.
Proof.
move=> b0 d0 au ub cv vd; rewrite -[b * d]mulrNN -[u * v]mulrNN -[a * c]mulrNN.
by apply: mul_pp; rewrite ?oppr_ge0 ?ler_opp2.
Qed.
Lemma mul_pn (a b c d u v : F) : 0 <= a -> d <= 0 -> a <= u -> u <= b -> c <= v -> v <= d ->
  b * c <= u * v /\ u * v <= a * d.
Proof.
move=> a0 d0 au ub cv vd.
have d1 : 0 <= - d by rewrite oppr_ge0.
have v1 : - d <= - v by rewrite ler_opp2.
have v2 : - v <= - c by rewrite ler_opp2.
have [h1 h2] := mul_pp a0 d1 au ub v1 v2.
by split; rewrite -ler_opp2 -!mulrN.
Qed.
Lemma mul_np (a b c d u v : F) : b <= 0 -> 0 <= c -> a <= u -> u <= b -> c <= v -> v <= d ->
  a * d <= u * v /\ u * v <= b * c.
Proof.
move=> b0 c0 au ub cv vd; rewrite (mulrC a) (mulrC b) (mulrC u); exact: mul_pn.
Qed.

Lemma in_scale (m1 m2 : Z) x y : z m1 <= (x * sc) * (y * sc) /\ (x * sc) * (y * sc) <= z m2 ->
  inI (x * y) (shr m1, (shr m2 + 1)%cz).
Proof.
move=> [h1 h2]; have e : x * y * sc * sc = (x * sc) * (y * sc) by rewrite -mulrA mulrACA.
split; rewrite -(ler_pmul2r sc_gt0) e.
  exact: le_trans (shr_lo _) h1.
exact: le_trans h2 (shr_hi _).
Qed.
Lemma zge0 a : Z.leb 0 a -> 0 <= z a. Proof. by move/Z.leb_le/(@zr_le F). Qed.
Lemma zle0 a : Z.leb a 0 -> z a <= 0. Proof. by move/Z.leb_le/(@zr_le F). Qed.
Lemma in_mul x y I J : inI x I -> inI y J -> inI (x * y) (imul I J).
Proof.
case: I J => [a b] [c d]; rewrite /inI /imul -/(inI _ _) ![(_, _).1]/fst ![(_, _).2]/snd.
move=> [h1 h2] [h3 h4].
case: ifP => [/andP [/zge0 p1 /zge0 p2]|_].
  by apply: in_scale; rewrite !zrM; apply: mul_pp.
case: ifP => [/andP [/zle0 p1 /zle0 p2]|_].
  by apply: in_scale; rewrite !zrM; apply: mul_nn.
case: ifP => [/andP [/zge0 p1 /zle0 p2]|_].
  by apply: in_scale; rewrite !zrM; apply: mul_pn.
case: ifP => [/andP [/zle0 p1 /zge0 p2]|_].
  by apply: in_scale; rewrite !zrM; apply: mul_np.
apply: in_scale; split.
  apply: zmin.
  by case: (mul_lo h1 h2 h3 h4); rewrite -zrM => h; [left|left|right|right]; apply: zmin; [left|right|left|right].
apply: zmax.
by case: (mul_hi h1 h2 h3 h4); rewrite -zrM => h; [left|left|right|right]; apply: zmax; [left|right|left|right].
Qed.

Lemma div_lo (n d : Z) : (0 < d)%cz -> z (n / d) * z d <= z n.
Proof. by move=> d0; rewrite -zrM; apply: zr_le; rewrite Z.mul_comm; apply: Z.mul_div_le. Qed.
Lemma div_hi (n d : Z) : (0 < d)%cz -> z n <= z (n / d + 1) * z d.
Proof.
move=> d0; rewrite -zrM; apply: zr_le; rewrite Z.mul_comm.
by have := Z.mul_succ_div_gt n d d0; rewrite /Z.succ; apply: Z.lt_le_incl.
Qed.
Lemma sc2E : sc * sc = z (SC * SC). Proof. by rewrite scE zrM. Qed.
Lemma scnE n : z n * sc = z (n * SC). Proof. by rewrite scE zrM. Qed.
Lemma inv_sc x (s : F) : x != 0 -> s != 0 -> x^-1 * s = s * s / (x * s).
Proof. by move=> x0 s0; field; rewrite x0 s0. Qed.
Lemma inv_mono (s c d : F) : 0 < s -> 0 < c -> c <= d -> s / d <= s / c.
Proof. by move=> s0 c0 cd; rewrite ler_pmul2l // lef_pinv // posrE // (lt_le_trans c0). Qed.
Lemma zpos_inv b : 0 < z b -> (0 < b)%cz.
Proof.
move=> h; case: (Z_lt_le_dec 0 b) => // /(@zr_le F) hb.
by have := lt_le_trans h hb; rewrite ltxx.
Qed.
Lemma invp_aux (x s : F) (S a b : Z) : z S = s -> 0 < s -> (0 < a)%cz -> z a <= x * s -> x * s <= z b ->
  z (S * S / b) <= x^-1 * s /\ x^-1 * s <= z (S * S / a + 1).
Proof.
move=> sE s0 a0 h1 h2; have za : 0 < z a by apply: zlt0.
have xs : 0 < x * s by apply: lt_le_trans h1.
have x0 : 0 < x by move: xs; rewrite pmulr_lgt0.
have zb : 0 < z b by apply: lt_le_trans h2.
have b0 := zpos_inv zb.
have e : x^-1 * s = z (S * S) / (x * s) by rewrite zrM sE; apply: inv_sc; rewrite lt0r_neq0.
have ss : 0 < z (S * S) by rewrite zrM sE mulr_gt0.
rewrite e; split.
  apply: le_trans (inv_mono ss xs h2); rewrite ler_pdivl_mulr //; exact: div_lo.
apply: le_trans (inv_mono ss za h1) _; rewrite ler_pdivr_mulr //; exact: div_hi.
Qed.
Lemma in_invp x I : Z.ltb 0 I.1 -> inI x I -> inI x^-1 (iinvp I).
Proof.
case: I => [a b]; rewrite /inI /iinvp [(a, b).1]/fst [(a, b).2]/snd => /Z.ltb_lt a0 [h1 h2].
exact: (invp_aux (esym scE) sc_gt0 a0 h1 h2).
Qed.

Lemma in_inv x I : inz I -> inI x I -> inI x^-1 (iinv I).
Proof.
rewrite /inz /iinv; case: ifP => /= [h _|_ h] xi; first exact: in_invp.
rewrite -[x^-1]opprK; apply: in_opp; rewrite -invrN; apply: in_invp; last exact: in_opp.
by move: h; case: I {xi} => a b /= /Z.ltb_lt h; apply/Z.ltb_lt; lia.
Qed.
Lemma inz_neq0 x I : inz I -> inI x I -> x != 0.
Proof.
case: I => a b; rewrite /inz /= => /orP [] /Z.ltb_lt h [/= h1 h2]; apply/eqP => x0; move: h1 h2; rewrite x0 mul0r.
  by rewrite leNgt zlt0.
by move=> _; rewrite leNgt zgt0.
Qed.

Lemma in_rat n d : inI (z n / posr F d) (irat n d).
Proof.
have d0 := posr_gt0 F d; rewrite /inI /irat /= mulrAC.
split; [rewrite ler_pdivl_mulr // scnE; exact: (@div_lo (n * SC) (Zpos d) (erefl _))|rewrite ler_pdivr_mulr // scnE; exact: (@div_hi (n * SC) (Zpos d) (erefl _))].
Qed.

Lemma in_abs x I : inI x I -> `|x| * sc <= z (iabs I).
Proof.
case: I => a b [/= h1 h2]; have -> : `|x| * sc = `|x * sc| by rewrite normrM (gtr0_norm sc_gt0).
rewrite ler_norml; apply/andP; split.
  apply: le_trans _ h1; rewrite -zr_opp; apply: zr_le; rewrite /iabs /=; lia.
by apply: (le_trans h2); apply: zr_le; rewrite /iabs /=; lia.
Qed.
End Encl.
