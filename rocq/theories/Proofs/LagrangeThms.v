(* Proofs of the LagrangeApproximation properties. *)
From Verif.Base Require Import Str.
From mathcomp Require Import all_ssreflect all_algebra ring zify.
From Verif.Base Require Import Outcome Arr Ext PolyInterp PolyInt.
From Verif.Model Require Import Lagrange.
From Verif.Proofs Require Import LagrangeP LagrangeInit.
From Verif.Spec Require Import LagrangeSpec.
Set Implicit Arguments.
Unset Strict Implicit.
Unset Printing Implicit Defensive.
Import GRing.Theory Num.Theory Order.TTheory.
Local Open Scope ring_scope.

Section Thms.
Variable F : realFieldType.
Variables (flog fexp : F -> F).
Variable underflow : seq F -> bool.
Notation init := (lagrange_init flog fexp underflow).
Implicit Types (p P : {poly F}) (pts times f : seq F) (d wc sr : string) (self : lagr F).

Definition lag_ok pts wc sr d : Prop :=
  points_ok pts d /\ setting_ok pts wc sr /\ logs_ok flog fexp underflow pts wc.

Lemma points_admissible pts d : points_ok pts d -> admissible pts d.
Proof.
case=> n0 [srt|[nu [] ->]]; split=> //; [by left|right|right]; by split.
Qed.

Lemma ndistE pts : ndist pts = size (np_unique pts).
Proof.
apply: perm_size; apply: uniq_perm; rewrite ?undup_uniq // => y.
by rewrite mem_undup mem_np_unique.
Qed.

Lemma lag_valid pts wc sr d : lag_ok pts wc sr d -> valid_setting underflow (np_unique pts) wc sr.
Proof.
case=> _ [st _]; rewrite /valid_setting -ndistE.
by case: st => [->|[[[] -> [] ->]|[-> h]]] //=; rewrite ?implybT.
Qed.

Lemma lag_logs pts wc sr d : lag_ok pts wc sr d ->
  uses_logs underflow (np_unique pts) wc -> exp_log_laws flog fexp.
Proof.
case=> _ [_ lg]; rewrite /uses_logs; case: lg => [->|[[-> h]|//]] //=.
by rewrite h.
Qed.

Lemma lag_init pts wc sw sr d fv : lag_ok pts wc sr d -> fv_ok pts fv ->
  exists2 self, init pts wc sw sr d fv = Ok self & good pts d self /\ fVals self = fv.
Proof.
move=> h hf; apply: init_good => //; last exact: (lag_logs h).
  by apply: points_admissible; case: h.
exact: (lag_valid h).
Qed.

Lemma lag_good pts wc sw sr d fv self : lag_ok pts wc sr d ->
  init pts wc sw sr d fv = Ok self -> good pts d self /\ fVals self = fv.
Proof.
move=> h; apply: init_inv; first by apply: points_admissible; case: h.
  exact: (lag_valid h).
exact: (lag_logs h).
Qed.

(* selected positions *)
Lemma selb_used pts d j : points_ok pts d -> (j < size pts)%N -> reflect (used d pts j) (selb pts d j).
Proof.
move=> [n0 hp] jl; rewrite /selb /selv.
have jin := mem_nth 0 jl.
case: (boolP (uniq pts)) => [un|nu] /=.
  rewrite index_uniq // eqxx; constructor; split=> //; case: ifP => _ k.
    by move=> /andP [jk kl] /eqP; rewrite nth_uniq // => /eqP e; rewrite e ltnn in jk.
  move=> kj /eqP; rewrite nth_uniq //; last exact: ltn_trans kj jl.
  by move=> /eqP e; rewrite e ltnn in kj.
have left_ : (d == "USE_RIGHT"%string) = false -> d == "USE_LEFT"%string.
  case: hp => [/lt_sorted_uniq un|[_ hd]]; first by rewrite un in nu.
  by case: hd => ->.
rewrite /used; case: (boolP (d == "USE_RIGHT"%string)) => [/eqP ->|/negbTE /left_ ->] /=.
  apply: (iffP eqP) => [e|[_ h]].
    by split=> // k kk; apply/eqP; apply: last_index_max; rewrite e.
  apply/eqP; rewrite eqn_leq leqNgt; apply/andP; split; last rewrite leqNgt.
    apply/negP => lt; apply: (h (last_index (nth 0 pts j) pts)); last exact: nth_last_index.
    by rewrite lt last_index_lt.
  by apply/negP => lt; have := @last_index_max _ (nth 0 pts j) pts j; rewrite lt jl eqxx => /(_ isT).
apply: (iffP eqP) => [e|[_ h]].
  split=> // k kj kx; move: kj; rewrite -e -kx => kj.
  by have := before_find 0 kj; rewrite /= eqxx.
apply/eqP; rewrite eqn_leq; apply/andP; split; last rewrite leqNgt.
  by rewrite leqNgt; apply/negP => lt; have := before_find 0 lt; rewrite /= eqxx.
by apply/negP => lt; apply: (h _ lt); rewrite nth_index.
Qed.

Section Obj.
Variables (pts : seq F) (d : string) (self : lagr F).
Hypothesis pok : points_ok pts d.
Hypothesis gd : good pts d self.
Let adm := points_admissible pok.
Let u := np_unique pts.
Let us : sorted <%O u := np_unique_srt pts.

(* expanded rows *)
Definition xrow (dup : bool) (g : nat -> F) : seq F :=
  if dup then mkseq (outc pts d g) (size pts) else mkseq g (size u).
Definition ncol (dup : bool) : nat := if dup then size pts else size u.

Lemma size_xrow b g : size (xrow b g) = ncol b.
Proof. by rewrite /xrow /ncol; case: b; rewrite size_mkseq. Qed.

Lemma expand b (row : seq (ext F)) g : row = mkseq (fun k => Fin (g k)) (size u) ->
  (if b then handleDup self row else row) = map (@Fin F) (xrow b g).
Proof.
move=> ->; rewrite /xrow; case: b; rewrite map_mkseq //.
exact: (handleDupE adm (g_dup gd)).
Qed.

Lemma interpE_M times b : getInterpolationMatrix self times b =
  fmat [seq xrow b (fun k => (ell u k).[t]) | t <- times].
Proof.
rewrite /getInterpolationMatrix /fmat -map_comp; apply: eq_map => t /=.
by apply: expand; apply: good_interp gd t; exact: adm.
Qed.

Lemma shape_map (A : Type) (s : seq A) b (G : A -> nat -> F) :
  is_shape [seq xrow b (G t) | t <- s] (size s) (ncol b).
Proof.
rewrite /is_shape size_map eqxx all_map (eq_all (a2 := predT)) ?all_predT // => t.
by rewrite /= size_xrow eqxx.
Qed.

Lemma dot_xrow_dup (g : nat -> F) f v (p : {poly F}) : size f = size pts ->
  (\sum_(k < size u) g k * p.[nth 0 u k] = v) ->
  (forall j, used d pts j -> nth 0 f j = p.[nth 0 pts j]) ->
  dot (xrow true g) f = v.
Proof.
move=> sf e h; rewrite (@dotE _ _ _ (size pts)) ?size_mkseq //.
rewrite -(@outc_exact _ pts d (fun _ _ => 0) g (nth 0 f) p v e); last first.
  by move=> j jl /(selb_used pok jl); apply: h.
by apply: eq_bigr => j _; rewrite /xrow nth_mkseq.
Qed.

Lemma dot_xrow_unique (g : nat -> F) f v (p : {poly F}) : f = pvals p u ->
  (\sum_(k < size u) g k * p.[nth 0 u k] = v) -> dot (xrow false g) f = v.
Proof.
move=> -> <-; rewrite /pvals (@dotE _ _ _ (size u)) ?size_map ?size_iota //.
by apply: eq_bigr => k _; rewrite /xrow nth_mkseq // (nth_map 0).
Qed.

Lemma dot_xrow_pvals (g : nat -> F) v (p : {poly F}) :
  (\sum_(k < size u) g k * p.[nth 0 u k] = v) -> dot (xrow true g) (pvals p pts) = v.
Proof.
move=> e; apply: (dot_xrow_dup _ e); first by rewrite size_map.
by move=> j [jl _]; rewrite (nth_map 0).
Qed.

Lemma interp_exact times p f : (size p <= ndist pts)%N -> size f = size pts ->
  (forall j, used d pts j -> nth 0 f j = p.[nth 0 pts j]) ->
  mv [seq xrow true (fun k => (ell u k).[t]) | t <- times] f = pvals p times.
Proof.
rewrite ndistE => sp sf hf; rewrite /mv /pvals -map_comp; apply: eq_map => t /=.
by apply: (@dot_xrow_dup _ _ _ p) => //; apply: ell_interp.
Qed.

Lemma interp_vsum t : vsum (xrow true (fun k => (ell u k).[t])) = 1.
Proof.
have := @dot_xrow_pvals (fun k => (ell u k).[t]) 1 1%:P.
rewrite (@dotE _ _ _ (size pts)) ?size_mkseq ?size_map // => e.
rewrite vsumE size_mkseq -e.
  by apply: eq_bigr => j _; rewrite (nth_map 0) // hornerC mulr1.
rewrite -[RHS](@sum_ell _ u us t) ?np_unique_gt0; last by case: pok.
by apply: eq_bigr => k _; rewrite hornerC mulr1.
Qed.

Lemma u_index v : v \in pts -> nth 0 u (index v u) = v.
Proof. by move=> vin; rewrite nth_index // mem_np_unique. Qed.

Lemma u_index_lt v : v \in pts -> (index v u < size u)%N.
Proof. by move=> vin; rewrite index_mem mem_np_unique. Qed.

Lemma interp_copy j : used d pts j ->
  xrow true (fun k => (ell u k).[nth 0 pts j]) = mkseq (fun j' => (j' == j)%:R) (size pts).
Proof.
move=> uj; have jl : (j < size pts)%N by case: uj.
have jin := mem_nth 0 jl.
apply: eq_mkseq_in => i il; rewrite /outc.
have iin := mem_nth 0 il.
case: (selb_used pok il) => ui.
  rewrite -(u_index jin) ell_node ?u_index_lt //.
  congr (_%:R); congr nat_of_bool; apply/eqP/eqP => [e|->//].
  have nij : nth 0 pts i = nth 0 pts j by rewrite -(u_index iin) -(u_index jin) e.
  have := introT (selb_used pok jl) uj; have := introT (selb_used pok il) ui.
  by rewrite /selb nij => /eqP -> /eqP.
by case: eqP => // e; rewrite e in ui.
Qed.

(* integration *)
Variables (leggauss roots_legendre fejer : nat -> outcome (seq F * seq F)).
Notation integM := (getIntegrationMatrix leggauss roots_legendre fejer).

Lemma integE_M nq ivs b : rules_ok leggauss roots_legendre fejer (size pts) nq ->
  integM self ivs nq b = Ok (fmat [seq xrow b (fun k => pint (ell u k) ab.1 ab.2) | ab <- ivs]).
Proof.
move=> hr; have su : (size u <= size pts)%N.
  by apply: leq_trans (size_undup _) _; rewrite size_sort.
have n0 : (0 < size pts)%N by case: pok.
rewrite /getIntegrationMatrix.
suff [r rE [deg dg ex]] : exists2 r, quad_rule leggauss roots_legendre fejer self nq = Ok r &
    exists2 deg, (size u <= deg.+1)%N & rule_exact r deg.
  rewrite rE /= /fmat -map_comp; congr Ok; apply: eq_map => ab /=.
  by apply: expand; apply: (good_integ adm gd ab ex dg).
rewrite /quad_rule (g_pts gd) addn1.
move: hr; rewrite /rules_ok.
move: (size pts) su n0 => s su n0.
have half : (s <= 2 * (s.+1 %/ 2))%N.
  by have := divn_eq s.+1 2; have := ltn_pmod s.+1 (isT : (0 < 2)%N); lia.
case=> [[-> [r -> ex]]|[[-> [r -> ex]]|[-> [r rE ex]]]] /=; exists r => //.
- by exists (2 * (s.+1 %/ 2) - 1)%N => //; lia.
- by exists (2 * (s.+1 %/ 2) - 1)%N => //; lia.
- rewrite -rE modn2 /=; congr fejer; case: (odd s); rewrite ?subn0 ?subn1 //.
- exists (if odd s then s else s.-1) => //; case: ifP; lia.
Qed.

Lemma integ_exact ivs P f : (size P <= (ndist pts).+1)%N -> size f = size pts ->
  (forall j, used d pts j -> nth 0 f j = P^`().[nth 0 pts j]) ->
  mv [seq xrow true (fun k => pint (ell u k) ab.1 ab.2) | ab <- ivs] f =
  [seq P.[ab.2] - P.[ab.1] | ab <- ivs].
Proof.
rewrite ndistE => sp sf hf; rewrite /mv -map_comp; apply: eq_map => ab /=.
apply: (@dot_xrow_dup _ _ _ P^`()) => //; rewrite sum_pint_ell ?pint_deriv //.
by rewrite (leq_trans (size_poly _ _)) //; move: sp; case: (size P).
Qed.

(* derivatives *)
Definition Dmat (k : nat) (b : bool) : seq (seq F) :=
  [seq xrow b (fun j => (ell u j)^`(k).[x]) | x <- u].

Lemma fin_map_pts (G : F -> seq (ext F)) (h : nat -> F -> F) b :
  (forall x, x \in u -> G x = mkseq (fun j => Fin (h j x)) (size u)) ->
  [seq (if b then handleDup self (G x) else G x) | x <- u] = fmat [seq xrow b (h^~ x) | x <- u].
Proof.
move=> e; rewrite /fmat -map_comp; apply/eq_in_map => x xu /=.
exact: expand (e x xu).
Qed.

Lemma derivE_1 b : (if b then map (handleDup self) (deriv_D1 self) else deriv_D1 self) = fmat (Dmat 1 b).
Proof.
rewrite (good_D1 gd) -(@fin_map_pts (fun x => mkseq (fun j => Fin (ell u j)^`().[x]) (size u))) //.
by case: b; rewrite ?(map_pts u) // map_mkseq.
Qed.
Lemma derivE_2 b : (if b then map (handleDup self) (deriv_D2 self) else deriv_D2 self) = fmat (Dmat 2 b).
Proof.
rewrite (good_D2 gd) -(@fin_map_pts (fun x => mkseq (fun j => Fin (ell u j)^`()^`().[x]) (size u))) //.
by case: b; rewrite ?(map_pts u) // map_mkseq.
Qed.

Lemma derivE_M o b : getDerivativeMatrix self o b =
  match o with
  | OInt (Posz 1) => Ok (DOne (fmat (Dmat 1 b)))
  | OInt (Posz 2) => Ok (DOne (fmat (Dmat 2 b)))
  | OStr s => if s == "ALL"%string then Ok (DBoth (fmat (Dmat 1 b)) (fmat (Dmat 2 b)))
              else Raise NotImplementedError
  | _ => Raise NotImplementedError
  end.
Proof. by rewrite /getDerivativeMatrix derivE_1 derivE_2; case: o => [[[|[|[|]]]|]|]. Qed.

Lemma ell_derivn k (p : {poly F}) t : (k = 1 \/ k = 2)%N -> (size p <= size u)%N ->
  \sum_(j < size u) (ell u j)^`(k).[t] * p.[nth 0 u j] = p^`(k).[t].
Proof. by case=> -> sp; [apply: ell_deriv|apply: ell_deriv2]. Qed.

Lemma Dmat_exact k p f : (k = 1 \/ k = 2)%N -> (size p <= ndist pts)%N -> size f = size pts ->
  (forall j, used d pts j -> nth 0 f j = p.[nth 0 pts j]) ->
  mv (Dmat k true) f = pvals p^`(k) (dpts pts).
Proof.
rewrite ndistE => hk sp sf hf; rewrite /mv /pvals -map_comp; apply: eq_map => x /=.
by apply: (@dot_xrow_dup _ _ _ p) => //; apply: ell_derivn.
Qed.

Lemma Dmat_shape k b : is_shape (Dmat k b) (ndist pts) (ncol b).
Proof. by rewrite ndistE; apply: shape_map. Qed.

Lemma Dmat_sum0 k : (k = 1 \/ k = 2)%N -> all (fun r => vsum r == 0) (Dmat k true).
Proof.
move=> hk; apply/allP => r /mapP [x _ ->]; apply/eqP.
have := @dot_xrow_pvals (fun j => (ell u j)^`(k).[x]) 0 1%:P.
rewrite (@dotE _ _ _ (size pts)) ?size_mkseq ?size_map // => e.
rewrite vsumE size_mkseq -[RHS]e.
  by apply: eq_bigr => j _; rewrite (nth_map 0) // hornerC mulr1.
rewrite ell_derivn // ?size_polyC ?oner_eq0 ?np_unique_gt0; last by case: pok.
by case: hk => ->; rewrite derivnS ?derivn1 derivC ?derivC ?deriv0 ?horner0.
Qed.

End Obj.

End Thms.

Section Thms2.
Variable F : realFieldType.
Variables (flog fexp : F -> F).
Variable underflow : seq F -> bool.
Notation init := (lagrange_init flog fexp underflow).
Notation lag_ok := (lag_ok flog fexp underflow).
Implicit Types (p P : {poly F}) (pts times f : seq F) (d wc sr : string) (self : lagr F).

Lemma fmat_inj : injective (@fmat F).
Proof. by apply: inj_map; apply: inj_map => a b [->]. Qed.

(* matrices with repeated points against matrices of the distinct points *)
Lemma np_unique_dpts pts : np_unique (np_unique pts) = np_unique pts.
Proof. by rewrite np_unique_sorted ?np_unique_srt. Qed.

Lemma lag_ok_dpts pts wc sr d : lag_ok pts wc sr d -> lag_ok (dpts pts) wc sr d.
Proof.
move=> [[n0 _] [st lg]]; split; [|split].
- split; first by rewrite [size _](_ : _ = size (np_unique pts)) // np_unique_gt0.
  by left; apply: np_unique_srt.
- case: st => [->|[st|[-> h]]]; [by left|by right; left|right; right; split=> //].
  by rewrite ndistE [dpts _](_ : _ = np_unique pts) // np_unique_dpts -ndistE.
- case: lg => [->|[[-> h]|h]]; [by left|right; left|by right; right].
  by split=> //; rewrite -{1}h; congr underflow; apply: np_unique_dpts.
Qed.

Lemma expand_dup pts d (g : nat -> F) f f' : points_ok pts d ->
  size f = size pts -> size f' = ndist pts ->
  (forall j k, used d pts j -> (k < ndist pts)%N -> nth 0 pts j = nth 0 (dpts pts) k ->
     nth 0 f j = nth 0 f' k) ->
  dot (xrow pts d true g) f = dot (xrow (dpts pts) d true g) f'.
Proof.
move=> pok sf sf' h.
have uu := lt_sorted_uniq (np_unique_srt pts).
rewrite ndistE in sf' h.
rewrite (@dotE _ _ _ (size pts)) ?size_mkseq // (@dotE _ _ _ (size (np_unique pts))) ?size_mkseq //.
rewrite (eq_bigr (fun j : 'I_(size pts) => outc pts d g j * nth 0 f j)); last first.
  by move=> j _; rewrite /xrow nth_mkseq.
rewrite outc_sum; apply: eq_bigr => k _; have kl := ltn_ord k.
rewrite /xrow nth_mkseq // /outc np_unique_dpts.
have ksel : selb (np_unique pts) d k.
  by rewrite /selb /selv uu /= index_uniq.
rewrite ksel index_uniq //; congr (_ * _); apply: h => //; last first.
  by rewrite nth_seln.
by apply/selb_used; rewrite ?seln_lt ?seln_sel.
Qed.

Lemma interpolant_exists pts d f : points_ok pts d -> size f = size pts ->
  exists2 p : {poly F}, (size p <= ndist pts)%N &
    forall j, used d pts j -> nth 0 f j = p.[nth 0 pts j].
Proof.
move=> pok sf; set u := np_unique pts.
have us := np_unique_srt pts.
exists (\sum_(k < size u) nth 0 f (seln pts d k) *: ell u k).
  rewrite ndistE; apply: leq_trans (size_sum _ _ _) _; apply/bigmax_leqP => k _.
  by apply: leq_trans (size_scale_leq _ _) _; apply: size_ell.
move=> j uj; have jl : (j < size pts)%N by case: uj.
have jin := mem_nth 0 jl.
have kl := u_index_lt jin.
have sj := introT (selb_used pok jl) uj.
have nE k : (k < size u)%N -> (ell u k).[nth 0 pts j] = (index (nth 0 pts j) u == k)%:R.
  by move=> kl'; rewrite -{1}(u_index jin) ell_node.
rewrite horner_sum (bigD1 (Ordinal kl)) //= hornerZ nE // eqxx mulr1.
rewrite /seln u_index // (eqP sj) big1 ?addr0 // => k nk.
rewrite hornerZ nE //; rewrite eq_sym -val_eqE /= in nk.
by rewrite (negPf nk) mulr0.
Qed.

(* errors *)
Lemma compute_weights_cases pts wc sw sr : (0 < size pts)%N ->
  compute_weights flog fexp underflow pts wc sw sr =
   Raise NotImplementedError \/ is_ok (compute_weights flog fexp underflow pts wc sw sr).
Proof.
case: pts => // a s _; rewrite /compute_weights.
have sc ds : (0 < size ds)%N -> is_ok (if sw then if ds is [::] then Raise ValueError
    else let m := emax (map (@eabs F) ds) in Ok [seq ediv a m | a <- ds] else Ok ds).
  by case: ds => //; case: sw.
have ana : (0 < size (analytic (diffs (a :: s))))%N by rewrite size_map size_mkseq.
have lg : logScale flog fexp (a :: s) sr (diffs (a :: s)) = Raise NotImplementedError \/
    exists2 ds, logScale flog fexp (a :: s) sr (diffs (a :: s)) = Ok ds & (0 < size ds)%N.
  rewrite /logScale; case: (sr == "ZERO"%string); last case: (sr == "MAX"%string).
  - by right; eexists; first reflexivity; rewrite /= !(size_map, size_zip, size_iota, minnn).
  - by right; eexists; first reflexivity; rewrite /= !(size_map, size_zip, size_iota, minnn).
  - by left.
have lg' : obind (logScale flog fexp (a :: s) sr (diffs (a :: s)))
   (fun invProd => if sw then if invProd is [::] then Raise ValueError
    else let m := emax (map (@eabs F) invProd) in Ok [seq ediv a m | a <- invProd] else Ok invProd)
   = Raise NotImplementedError \/ is_ok (obind (logScale flog fexp (a :: s) sr (diffs (a :: s)))
   (fun invProd => if sw then if invProd is [::] then Raise ValueError
    else let m := emax (map (@eabs F) invProd) in Ok [seq ediv a m | a <- invProd] else Ok invProd)).
  by case: lg => [->|[ds -> h]] /=; [left|right; apply: sc].
case: ifP => _; first by case: ifP => _; [exact: lg'|right; apply: sc].
case: ifP => _; first by right; apply: sc.
case: ifP => _; first exact: lg'.
case: ifP => _; last by left.
by right; apply: sc; rewrite !(size_map, size_zip, size_iota, minnn).
Qed.

Definition weights_known pts wc sr : Prop :=
  (wc = "FAST" \/ wc = "CHEBFUN" \/
   wc = "AUTO" /\ (underflow pts -> sr = "ZERO" \/ sr = "MAX") \/
   wc = "STABLE" /\ (sr = "ZERO" \/ sr = "MAX"))%string.

Lemma compute_weights_okP pts wc sw sr : (0 < size pts)%N ->
  is_ok (compute_weights flog fexp underflow pts wc sw sr) <-> weights_known pts wc sr.
Proof.
case: pts => // a s _; rewrite /compute_weights /weights_known.
have scE (ds : seq (ext F)) : (0 < size ds)%N -> is_ok (if sw then if ds is [::] then Raise ValueError
    else let m := emax (map (@eabs F) ds) in Ok [seq ediv a m | a <- ds] else Ok ds).
  by case: ds => //; case: sw.
have ana : (0 < size (analytic (diffs (a :: s))))%N by rewrite size_map size_mkseq.
have lg : is_ok (obind (logScale flog fexp (a :: s) sr (diffs (a :: s)))
   (fun invProd => if sw then if invProd is [::] then Raise ValueError
    else let m := emax (map (@eabs F) invProd) in Ok [seq ediv a m | a <- invProd] else Ok invProd))
   <-> (sr = "ZERO" \/ sr = "MAX")%string.
  rewrite /logScale; case: (sr =P "ZERO"%string) => h1; last case: (sr =P "MAX"%string) => h2.
  - by split=> [_|_]; [left|apply: scE; rewrite !(size_map, size_zip, size_iota, minnn)].
  - by split=> [_|_]; [right|apply: scE; rewrite !(size_map, size_zip, size_iota, minnn)].
  - by split=> // -[].
case: (wc =P "AUTO"%string) => [->|h1].
  case: ifP => hu.
    split=> [/lg h|]; first by right; right; left; split.
    by case=> [//|[//|[[_ h]|[//]]]]; apply/lg; apply: h.
  by split=> _; [right; right; left|apply: scE].
case: (wc =P "FAST"%string) => [->|h2]; first by split=> _; [left|apply: scE].
case: (wc =P "STABLE"%string) => [->|h3].
  split=> [/lg h|]; first by right; right; right; split.
  by case=> [//|[//|[[//]|[_ h]]]]; apply/lg.
case: (wc =P "CHEBFUN"%string) => [->|h4].
  split=> _; first by right; left.
  by apply: scE; rewrite !(size_map, size_zip, size_iota, minnn).
by split=> //; case=> [|[|[[]|[]]]].
Qed.

Lemma init_errors pts wc sw sr d fv : (0 < size pts)%N ->
  let known := (uniq pts \/ d = "USE_LEFT" \/ d = "USE_RIGHT")%string /\
               weights_known (dpts pts) wc sr in
  let sized := match fv with Some f => size f = size pts | None => True end in
  ((exists self, init pts wc sw sr d fv = Ok self) <-> known /\ sized) /\
  (init pts wc sw sr d fv = Raise NotImplementedError <-> ~ known) /\
  (init pts wc sw sr d fv = Raise ValueError <-> known /\ ~ sized).
Proof.
move=> n0 known sized.
have n0' : (0 < size (np_unique pts))%N by rewrite np_unique_gt0.
have dupE : (if size pts != size (np_unique pts)
     then omapo Some (setupDuplicates d pts (np_unique pts)) else Ok None) = Raise NotImplementedError
     /\ ~ (uniq pts \/ d = "USE_LEFT" \/ d = "USE_RIGHT")%string \/
   (exists dd, (if size pts != size (np_unique pts)
     then omapo Some (setupDuplicates d pts (np_unique pts)) else Ok None) = Ok dd)
     /\ (uniq pts \/ d = "USE_LEFT" \/ d = "USE_RIGHT")%string.
  rewrite eq_sym size_np_unique; case: (boolP (uniq pts)) => /= nu.
    by right; split; [exists None|left].
  rewrite /setupDuplicates.
  case: (d =P "USE_LEFT"%string) => h1 /=; first by right; split; [eexists|right; left].
  case: (d =P "USE_RIGHT"%string) => h2 /=; first by right; split; [eexists|right; right].
  by left; split=> // -[|[]].
rewrite /lagrange_init.
case: dupE => [[-> h]|[[dd ->] h]] /=.
  split; [|split]; split=> //.
  - by case.
  - by case=> -[].
  - by move=> _ [].
  - by case=> -[].
have [wE|wok] := @compute_weights_cases (np_unique pts) wc sw sr n0'.
  have nk : ~ weights_known (dpts pts) wc sr.
    by move=> /(compute_weights_okP wc sw sr n0'); rewrite wE.
  rewrite wE /=; split; [|split]; split=> //.
  - by case.
  - by case=> -[].
  - by move=> _ [].
  - by case=> -[].
have wk : weights_known (dpts pts) wc sr by apply/(compute_weights_okP wc sw sr n0').
have kn : known by split.
case: compute_weights wok => //= w _.
rewrite /sized; case: fv {sized} => [f|].
  case: eqP => /= e.
    split; first by split=> // _; eexists.
    by split; split=> // -[].
  split; first by split=> -[].
  by split; split.
split; [|split]; split=> //.
- by move=> _; eexists.
- by case.
Qed.

End Thms2.
