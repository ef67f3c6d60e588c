(* Without rounding the rounded model is the exact one, whatever the order of the operations. *)
From Verif.Base Require Import Str.
From mathcomp Require Import all_ssreflect all_algebra.
From Verif.Base Require Import Outcome Arr Ext.
From Verif.Model Require Import Lagrange Rounded.
From Verif.Spec Require Import RoundSpec.
From Verif.Proofs Require Import LagrangeP.
Set Implicit Arguments.
Unset Strict Implicit.
Unset Printing Implicit Defensive.
Import GRing.Theory Num.Theory Order.TTheory.
Local Open Scope ring_scope.

Section Exact.
Variable F : realFieldType.
Notation ext := (ext F).

Lemma eaddC : commutative (@eadd F).
Proof. by case=> [x|||] [y|||] //=; rewrite addrC. Qed.
Lemma eaddA : associative (@eadd F).
Proof. by case=> [x|||] [y|||] [z|||] //=; rewrite addrA. Qed.
Lemma add0e : left_id (Fin 0) (@eadd F).
Proof. by case=> [x|||] //=; rewrite add0r. Qed.
Lemma adde0 : right_id (Fin 0) (@eadd F).
Proof. by move=> x; rewrite eaddC add0e. Qed.
Canonical eadd_law := Monoid.Law eaddA add0e adde0.
Canonical eadd_comlaw := Monoid.ComLaw eaddC.

Lemma inf_ofE (x : F) : inf_of x = match sgz x with Posz 0 => NaN | Posz _ => PInf | Negz _ => NInf end.
Proof. by rewrite /inf_of; case: sgzP => //=; rewrite ?ltxx // => h; rewrite ?h // ltNge ltW. Qed.
Lemma emulC : commutative (@emul F).
Proof. by case=> [x|||] [y|||] //=; rewrite mulrC. Qed.
Lemma sgz3 (x : F) : [\/ sgz x = Posz 0, sgz x = Posz 1 | sgz x = Negz 0].
Proof. by case: sgzP => _; [constructor 1|constructor 2|constructor 3]. Qed.
Lemma emulA : associative (@emul F).
Proof.
case=> [x|||] [y|||] [z|||] //=; rewrite ?mulrA //;
  try (case: (sgz3 x) => ex); try (case: (sgz3 y) => ey); try (case: (sgz3 z) => ez);
  by do 3![rewrite ?inf_ofE ?sgzN ?sgzM ?ex ?ey ?ez //=].
Qed.
Lemma mul1e : left_id (Fin 1) (@emul F).
Proof. by case=> [x|||] //=; rewrite ?mul1r // /inf_of ?ltr01 // ltr0N1 ltrN10. Qed.
Lemma mule1 : right_id (Fin 1) (@emul F).
Proof. by move=> x; rewrite emulC mul1e. Qed.
Canonical emul_law := Monoid.Law emulA mul1e mule1.
Canonical emul_comlaw := Monoid.ComLaw emulC.

Notation id' := (@id F).
Lemma rext_id a : rext id' a = a. Proof. by case: a. Qed.
Lemma teval_big (op : Monoid.com_law (Fin (0 : F))) s t : teval op s t = \big[op/Fin 0]_(i <- leaves t) nth NaN s i.
Proof.
elim: t => [i|l IHl r IHr]; first by rewrite big_seq1.
by rewrite -[leaves _]/(leaves l ++ leaves r) big_cat -IHl -IHr.
Qed.
Lemma teval_big1 (op : Monoid.com_law (Fin (1 : F))) s t : teval op s t = \big[op/Fin 1]_(i <- leaves t) nth NaN s i.
Proof.
elim: t => [i|l IHl r IHr]; first by rewrite big_seq1.
by rewrite -[leaves _]/(leaves l ++ leaves r) big_cat -IHl -IHr.
Qed.
Lemma teval_op (op op' : ext -> ext -> ext) s t : (forall a b, op a b = op' a b) -> teval op s t = teval op' s t.
Proof. by move=> h; elim: t => //= l -> r ->. Qed.

Variables sumt prodt : nat -> stree.
Hypothesis hs : any_order sumt.
Hypothesis hp : any_order prodt.
Lemma rsum_id s : rsum id' sumt s = esum s.
Proof.
case: s => // a s'; set s := a :: s'; have n0 : (0 < size s)%N by [].
rewrite -[LHS]/(teval _ s _) (teval_op (op' := @eadd F)); last by move=> x y; rewrite /radd rext_id.
have -> : esum s = \big[eadd_comlaw/Fin 0]_(a <- s) a by rewrite unlock.
by rewrite (teval_big eadd_comlaw) (perm_big _ (hs n0)) (big_nth NaN) /index_iota subn0.
Qed.
Lemma rprod_id s : rprod id' prodt s = eprod s.
Proof.
case: s => // a s'; set s := a :: s'; have n0 : (0 < size s)%N by [].
rewrite -[LHS]/(teval _ s _) (teval_op (op' := @emul F)); last by move=> x y; rewrite /rmul rext_id.
have -> : eprod s = \big[emul_comlaw/Fin 1]_(a <- s) a by rewrite unlock.
by rewrite (teval_big1 emul_comlaw) (perm_big _ (hp n0)) (big_nth NaN) /index_iota subn0.
Qed.
Lemma rmul_id a b : rmul id' a b = emul a b. Proof. exact: rext_id. Qed.
Lemma rdiv_id a b : rdiv id' a b = ediv a b. Proof. exact: rext_id. Qed.
Lemma radd_id a b : radd id' a b = eadd a b. Proof. exact: rext_id. Qed.

Lemma r_weights_id flog fexp und pts sw sr :
  r_weights id' prodt pts sw = compute_weights flog fexp und pts "FAST" sw sr.
Proof.
rewrite /r_weights /compute_weights /=.
have -> : r_analytic id' prodt (r_diffs id' pts) = analytic (diffs pts).
  by rewrite /r_analytic /analytic; apply: eq_map => r; rewrite rdiv_id rprod_id.
case: sw => //; case: (analytic _) => // a s; congr Ok; apply: eq_map => x; exact: rdiv_id.
Qed.
Lemma r_init_id flog fexp und pts sw sr d fv :
  r_init id' prodt pts sw d fv = lagrange_init flog fexp und pts "FAST" sw sr d fv.
Proof. by rewrite /r_init /lagrange_init -(r_weights_id flog fexp und _ sw sr). Qed.
Lemma r_interp_row_id self t : r_interp_row id' sumt self t = interp_row self t.
Proof.
rewrite /r_interp_row /interp_row.
have -> : [seq rdiv id' (Fin 1) (Fin (t - x)) | x <- uniquePoints self] =
          [seq ediv (Fin 1) (Fin (t - x)) | x <- uniquePoints self].
  by apply: eq_map => x; rewrite rdiv_id.
set D := if _ then _ else _; have -> : [seq rmul id' p.1 p.2 | p <- zip D (weights self)] =
  [seq emul p.1 p.2 | p <- zip D (weights self)] by apply: eq_map => x; rewrite rmul_id.
by rewrite rsum_id; apply: eq_map => x; rewrite rdiv_id.
Qed.
Lemma r_interpM_id self ts b : r_interpM id' sumt self ts b = getInterpolationMatrix self ts b.
Proof. by apply: eq_map => t; rewrite r_interp_row_id. Qed.
Lemma r_call_id self ts fv : r_call id' sumt self ts fv = call self ts fv.
Proof.
rewrite /r_call /call; case: (if fv is Some f then _ else _) => // f; case: ifP => // _; congr Ok.
rewrite r_interpM_id; apply: eq_map => r; rewrite rsum_id; congr esum; apply: eq_map => x; exact: rmul_id.
Qed.
Lemma r_integ_row_id self iN iW ab : r_integ_row id' sumt self iN iW ab = integ_row self iN iW ab.
Proof.
case: ab => a b; rewrite /r_integ_row /integ_row; apply: eq_map => j; rewrite rsum_id; congr esum.
rewrite -map_comp; have -> : [seq r_interp_row id' sumt self (r_teval id' (a, b) tau) | tau <- iN] =
  [seq (interp_row self \o (fun tau => (b - a) / 2%:R * tau + (b + a) / 2%:R)) i | i <- iN].
  by apply: eq_map => x; rewrite r_interp_row_id.
by apply: eq_map => x; rewrite !rmul_id.
Qed.
Lemma r_iDiff_id self : r_iDiff id' self = deriv_iDiff self.
Proof. by apply: eq_map => x; apply: eq_map => y; rewrite rdiv_id. Qed.
Lemma r_base_id self : r_base id' self = deriv_base self.
Proof.
rewrite /r_base r_iDiff_id; apply: eq_map => x; apply: eq_map => y; by rewrite rmul_id rdiv_id.
Qed.
Lemma r_fill_id D : r_fill_diag id' sumt D = fill_diag D.
Proof. by apply: eq_map => i; rewrite /= rsum_id. Qed.
Lemma r_D1_id self : r_D1 id' sumt self = deriv_D1 self.
Proof. by rewrite /r_D1 r_base_id r_fill_id. Qed.
Lemma r_D2_id self : r_D2 id' sumt self = deriv_D2 self.
Proof.
rewrite /r_D2 r_base_id r_iDiff_id r_fill_id; congr fill_diag; apply: eq_map => x; rewrite rsum_id.
by apply: eq_map => y; rewrite !rmul_id radd_id.
Qed.
Lemma r_integM_id lg rl fj self ivs nq b :
  r_integM id' sumt lg rl fj self ivs nq b = getIntegrationMatrix lg rl fj self ivs nq b.
Proof.
rewrite /r_integM /getIntegrationMatrix; case: (quad_rule _ _ _ _ _) => //= rule.
by congr Ok; apply: eq_map => ab; rewrite r_integ_row_id.
Qed.
Lemma r_derivM_id self o b : r_derivM id' sumt self o b = getDerivativeMatrix self o b.
Proof. by rewrite /r_derivM r_D1_id r_D2_id. Qed.
End Exact.
