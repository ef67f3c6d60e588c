(* Construction of a LagrangeApproximation, duplicated points, and exactness of the rows. *)
From Verif.Base Require Import Str.
From mathcomp Require Import all_ssreflect all_algebra ring zify.
From Verif.Base Require Import Outcome Arr Ext PolyInterp PolyInt.
From Verif.Model Require Import Lagrange.
From Verif.Proofs Require Import LagrangeP.
Set Implicit Arguments.
Unset Strict Implicit.
Unset Printing Implicit Defensive.
Import GRing.Theory Num.Theory Order.TTheory.
Local Open Scope ring_scope.

Section Unique.
Variable F : realFieldType.
Implicit Types pts : seq F.

Lemma np_unique_srt pts : sorted <%O (np_unique pts).
Proof.
rewrite lt_sorted_uniq_le undup_uniq /=.
by apply: (subseq_sorted le_trans (undup_subseq _)); apply: sort_le_sorted.
Qed.

Lemma mem_np_unique pts : np_unique pts =i pts.
Proof. by move=> y; rewrite mem_undup mem_sort. Qed.

Lemma size_np_unique pts : (size (np_unique pts) == size pts) = uniq pts.
Proof.
have h := ltn_size_undup (sort <=%O pts); rewrite size_sort sort_uniq in h.
have le := size_undup (sort <=%O pts); rewrite size_sort in le.
by rewrite -[uniq pts]negbK -h -leqNgt eqn_leq le.
Qed.

Lemma np_unique_gt0 pts : (0 < size (np_unique pts))%N = (0 < size pts)%N.
Proof.
have := mem_np_unique pts; case: pts => [|a s] // h.
have : a \in np_unique (a :: s) by rewrite h inE eqxx.
by case: (np_unique _).
Qed.

Definition dup_known (d : string) : bool := (d == "USE_LEFT"%string) || (d == "USE_RIGHT"%string).

(* points for which the class behaves as documented *)
Definition admissible pts (d : string) : Prop :=
  (0 < size pts)%N /\ (sorted <%O pts \/ ~~ uniq pts /\ dup_known d).

(* position of the value used for the k-th distinct point *)
Definition selv pts (d : string) (v : F) : nat :=
  if uniq pts || (d == "USE_LEFT"%string) then index v pts else last_index v pts.

Lemma last_index_lt v pts : v \in pts -> (last_index v pts < size pts)%N.
Proof.
move=> vin; rewrite /last_index -subnDA ltn_subrL add1n /=.
by case: pts vin.
Qed.

Lemma nth_last_index v pts : v \in pts -> nth 0 pts (last_index v pts) = v.
Proof.
move=> vin.
have il : (index v (rev pts) < size pts)%N by rewrite -size_rev index_mem mem_rev.
by rewrite /last_index -subnDA add1n -nth_rev // nth_index // mem_rev.
Qed.

Lemma last_index_max v pts k : (last_index v pts < k < size pts)%N -> nth 0 pts k != v.
Proof.
move=> /andP [h kl].
have -> : nth 0 pts k = nth 0 (rev pts) (size pts - k).-1.
  rewrite nth_rev;
    last by move: (size pts) kl => s kl; lia.
  by congr (nth _ _ _); rewrite prednK ?subn_gt0 // subKn // ltnW.
have hh : ((size pts - k).-1 < index v (rev pts))%N.
  move: h; rewrite /last_index.
  have : (index v (rev pts) <= size pts)%N by rewrite -(size_rev pts) index_size.
  move: (index v (rev pts)) (size pts) kl => i s; lia.
by apply/negP => e; have := before_find 0 hh; rewrite /= e.
Qed.

Lemma selv_lt pts d v : v \in pts -> (selv pts d v < size pts)%N.
Proof. by move=> vin; rewrite /selv; case: ifP => _; rewrite ?index_mem ?last_index_lt. Qed.
Lemma nth_selv pts d v : v \in pts -> nth 0 pts (selv pts d v) = v.
Proof. by move=> vin; rewrite /selv; case: ifP => _; rewrite ?nth_index ?nth_last_index. Qed.

End Unique.

Section Dup.
Variable F : realFieldType.
Variables (pts : seq F) (d : string).
Hypothesis adm : admissible pts d.
Let n := size pts.
Let u := np_unique pts.
Let m := size u.

Definition seln (k : nat) : nat := selv pts d (nth 0 u k).
Definition selb (j : nat) : bool := selv pts d (nth 0 pts j) == j.
(* column expansion of a row over the distinct points *)
Definition outc (g : nat -> F) (j : nat) : F :=
  if selb j then g (index (nth 0 pts j) u) else 0.

Lemma u_in k : (k < m)%N -> nth 0 u k \in pts.
Proof. by move=> kl; rewrite -mem_np_unique mem_nth. Qed.

Lemma seln_lt k : (k < m)%N -> (seln k < n)%N.
Proof. by move=> kl; apply: selv_lt; apply: u_in. Qed.
Lemma nth_seln k : (k < m)%N -> nth 0 pts (seln k) = nth 0 u k.
Proof. by move=> kl; apply: nth_selv; apply: u_in. Qed.
Lemma seln_sel k : (k < m)%N -> selb (seln k).
Proof. by move=> kl; rewrite /selb nth_seln. Qed.

Lemma outc_sum (g f : nat -> F) :
  \sum_(j < n) outc g j * f j = \sum_(k < m) g k * f (seln k).
Proof.
have us : uniq u := lt_sorted_uniq (np_unique_srt pts).
rewrite [RHS](eq_bigr (fun k : 'I_m => \sum_(j < n) (if seln k == j then g k * f j else 0))).
  rewrite exchange_big /=; apply: eq_bigr => j _; rewrite /outc.
  have jin : nth 0 pts j \in u by rewrite mem_np_unique mem_nth.
  have kl : (index (nth 0%R pts j) u < m)%N by rewrite index_mem.
  case: ifP => sj.
    rewrite (bigD1 (Ordinal kl)) //= {1}/seln nth_index // -/(selb j) sj big1 ?addr0 // => k.
    rewrite -val_eqE /= => nk; case: eqP => // e; case/negP: nk; apply/eqP.
    by rewrite -e -/(seln k) nth_seln // index_uniq.
  rewrite mul0r big1 // => k _; case: eqP => // e.
  by move: sj; rewrite /selb -e nth_seln // eqxx.
move=> k _; rewrite (bigD1 (Ordinal (seln_lt (ltn_ord k)))) //= eqxx big1 ?addr0 // => j.
by rewrite -val_eqE /= eq_sym => /negPf ->.
Qed.

Variable self : lagr F.
Hypothesis ptE : points self = pts.
Hypothesis dpE : (if n != m then omapo Some (setupDuplicates d pts u) else Ok None) = Ok (dup self).

Lemma handleDupE (g : nat -> F) :
  handleDup self (mkseq (fun k => Fin (g k)) m) = mkseq (fun j => Fin (outc g j)) n.
Proof.
rewrite /handleDup; move: dpE; rewrite eq_sym size_np_unique.
have mk v : v \in pts -> (index v u < m)%N by move=> vin; rewrite index_mem mem_np_unique.
case: (boolP (uniq pts)) => [un|nu] /=.
  case=> <-; have -> : m = n by apply/eqP; rewrite size_np_unique.
  have srt : sorted <%O pts by case: adm => _ [|[]]; rewrite ?un.
  apply: eq_mkseq_in => j jl; congr Fin; rewrite /outc /selb /selv un /u.
  by rewrite np_unique_sorted // index_uniq ?eqxx.
rewrite /setupDuplicates; case: ifP => //= dk [<-] /=.
have -> : (if d == "USE_LEFT"%string then [seq index v pts | v <- u]
           else [seq last_index v pts | v <- u]) = [seq selv pts d v | v <- u].
  by rewrite /selv (negPf nu) /=; case: (d == _).
rewrite size_map; apply: eq_mkseq_in => j jl.
rewrite mem_filter mem_iota add0n jl andbT (nth_map 0) // /outc.
have jin := mem_nth 0 jl.
have -> : (j \in [seq selv pts d v | v <- u]) = selb j.
  apply/mapP/idP => [[v vu e]|/eqP e].
    by rewrite /selb e nth_selv // -mem_np_unique.
  by exists (nth 0 pts j); rewrite ?mem_np_unique.
case: (selb j) => //=; by rewrite nth_mkseq ?mk.
Qed.

End Dup.

Section Init.
Variable F : realFieldType.
Variables (flog fexp : F -> F).
Variable underflow : seq F -> bool.
Notation init := (lagrange_init flog fexp underflow).

(* everything needed about a constructed object *)
Record good (pts : seq F) (d : string) (self : lagr F) : Prop := Good {
  g_pts : points self = pts;
  g_upts : uniquePoints self = np_unique pts;
  g_dup : (if size pts != size (np_unique pts)
           then omapo Some (setupDuplicates d pts (np_unique pts)) else Ok None) = Ok (dup self);
  g_w : exists2 c, c != 0 &
    weights self = mkseq (fun j => Fin (c * bwn (np_unique pts) j)) (size (np_unique pts)) }.

Definition fv_ok (pts : seq F) (fv : option (seq F)) : bool :=
  if fv is Some f then size f == size pts else true.

Lemma init_good pts d wc sw sr fv :
  admissible pts d ->
  valid_setting underflow (np_unique pts) wc sr ->
  (uses_logs underflow (np_unique pts) wc -> exp_log_laws flog fexp) ->
  fv_ok pts fv ->
  exists2 self, init pts wc sw sr d fv = Ok self & good pts d self /\ fVals self = fv.
Proof.
move=> adm hv hl hf; rewrite /lagrange_init.
have n0 : (0 < size (np_unique pts))%N by rewrite np_unique_gt0; case: adm.
have [c c0 ->] := compute_weightsE (np_unique_srt pts) n0 sw hv hl.
have upE : (if size pts != size (np_unique pts) then np_unique pts else pts) = np_unique pts.
  rewrite eq_sym size_np_unique; case: (boolP (uniq pts)) => //= un.
  by rewrite np_unique_sorted //; case: adm => _ [|[]]; rewrite ?un.
rewrite upE.
have [dd dE] : exists dd, (if size pts != size (np_unique pts)
           then omapo Some (setupDuplicates d pts (np_unique pts)) else Ok None) = Ok dd.
  rewrite eq_sym size_np_unique; case: (boolP (uniq pts)) => /= nu; first by exists None.
  case: adm => _ [/lt_sorted_uniq|[_]]; first by rewrite (negPf nu).
  by rewrite /setupDuplicates -/(dup_known d) => ->; eexists.
rewrite dE /=.
case: fv hf => [f /eqP ->|_]; rewrite ?eqxx /=; eexists; try reflexivity.
all: by split=> //; split=> //; exists c.
Qed.

Lemma init_inv pts d wc sw sr fv self :
  admissible pts d -> valid_setting underflow (np_unique pts) wc sr ->
  (uses_logs underflow (np_unique pts) wc -> exp_log_laws flog fexp) ->
  init pts wc sw sr d fv = Ok self -> good pts d self /\ fVals self = fv.
Proof.
move=> adm hv hl e.
have hf : fv_ok pts fv.
  case: fv e => [f|] //; rewrite /lagrange_init.
  case: (if _ then _ else _) => //= dd.
  by case: compute_weights => //= w; case: eqP.
by have [s] := @init_good pts d wc sw sr fv adm hv hl hf; rewrite e => -[<-].
Qed.

Section Good.
Variables (pts : seq F) (d : string) (self : lagr F).
Hypothesis adm : admissible pts d.
Hypothesis gd : good pts d self.
Let u := np_unique pts.
Let us : sorted <%O u := np_unique_srt pts.
Let u0 : (0 < size u)%N.
Proof. by rewrite np_unique_gt0; case: adm. Qed.

Lemma good_interp t : interp_row self t = mkseq (fun j => Fin (ell u j).[t]) (size u).
Proof. by case: (g_w gd) => c c0 wE; exact: (interp_rowE us u0 c0 (g_upts gd) wE). Qed.

Lemma good_interp_dup t : handleDup self (interp_row self t) =
  mkseq (fun j => Fin (outc pts d (fun k => (ell u k).[t]) j)) (size pts).
Proof. by rewrite good_interp (handleDupE adm (g_dup gd)). Qed.

(* exactness on values read at the selected positions *)
Lemma outc_exact (L : nat -> {poly F} -> F) (g : nat -> F) (f : nat -> F) (p : {poly F}) v :
  (\sum_(k < size u) g k * p.[nth 0 u k] = v) ->
  (forall j, (j < size pts)%N -> selb pts d j -> f j = p.[nth 0 pts j]) ->
  \sum_(j < size pts) outc pts d g j * f j = v.
Proof.
move=> <- h; rewrite outc_sum; apply: eq_bigr => k _; congr (_ * _).
have kl := ltn_ord k; rewrite h ?seln_lt ?seln_sel // nth_seln //.
Qed.

(* definite integral of the cardinal polynomials *)
Definition rule_exact (r : seq F * seq F) (deg : nat) : Prop :=
  size r.2 = size r.1 /\
  forall P : {poly F}, (size P <= deg.+2)%N ->
    \sum_(q < size r.1) nth 0 r.2 q * P^`().[nth 0 r.1 q] = P.[1] - P.[-1].

Lemma rule_pint r deg (p : {poly F}) : rule_exact r deg -> (size p <= deg.+1)%N ->
  \sum_(q < size r.1) nth 0 r.2 q * p.[nth 0 r.1 q] = pint p (-1) 1.
Proof.
move=> [_ h] sp; rewrite /pint -(h (aint p)) ?deriv_aint //.
by apply: leq_trans (size_aint _) _.
Qed.

Lemma good_integ r deg ab : rule_exact r deg -> (size u <= deg.+1)%N ->
  integ_row self r.1 r.2 ab = mkseq (fun j => Fin (pint (ell u j) ab.1 ab.2)) (size u).
Proof.
move=> ex sz; case: (g_w gd) => c c0 wE.
rewrite (integ_rowE us u0 c0 (g_upts gd) wE) //; last by case: ex.
apply: eq_mkseq_in => j jl; congr Fin.
pose s := (ab.2 - ab.1) / 2%:R; pose t := (ab.2 + ab.1) / 2%:R.
have sl : (size (ell u j \Po aff s t) <= deg.+1)%N.
  apply: leq_trans (size_comp_aff _ _ _) _; apply: leq_trans sz; exact: size_ell.
have := rule_pint ex sl; move/(congr1 (fun y => s * y)); rewrite pint_aff.
have -> : s * (-1) + t = ab.1 by rewrite /s /t; field.
have -> : s * 1 + t = ab.2 by rewrite /s /t; field.
move=> <-; rewrite mulr_sumr; apply: eq_bigr => q _.
rewrite horner_comp aff_horner -/s -/t.
have com (a b e : F) : a * b * e = e * (b * a) by ring.
exact: com.
Qed.

Lemma sum_pint_ell (p : {poly F}) a b : (size p <= size u)%N ->
  \sum_(k < size u) pint (ell u k) a b * p.[nth 0 u k] = pint p a b.
Proof.
move=> sp; have e : \sum_(k < size u) p.[nth 0 u k] *: ell u k = p.
  rewrite [in RHS](interpE (xs_inj us) sp); apply: eq_bigr => k _.
  by rewrite ellE.
rewrite -[in RHS]e pint_sum; apply: eq_bigr => k _.
by rewrite [RHS]pintZ mulrC.
Qed.

Lemma good_D1 : deriv_D1 self =
  mkseq (fun i => mkseq (fun j => Fin (ell u j)^`().[nth 0 u i]) (size u)) (size u).
Proof. by case: (g_w gd) => c c0 wE; exact: (deriv_D1E us c0 (g_upts gd) wE). Qed.
Lemma good_D2 : deriv_D2 self =
  mkseq (fun i => mkseq (fun j => Fin (ell u j)^`()^`().[nth 0 u i]) (size u)) (size u).
Proof. by case: (g_w gd) => c c0 wE; exact: (deriv_D2E us c0 (g_upts gd) wE). Qed.

End Good.
End Init.
