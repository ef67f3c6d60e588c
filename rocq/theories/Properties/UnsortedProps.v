(* Property C14: LagrangeApproximation on distinct points in any order. *)
From Coq Require Import QArith Qcanon.
From Verif.Base Require Import Str.
From mathcomp Require Import all_ssreflect all_algebra ring.
From Verif.Base Require Import QcField Outcome Arr Ext PolyInterp PolyInt.
From Verif.Model Require Import Lagrange.
From Verif.Spec Require Import LagrangeSpec.
From Verif.Proofs Require Import LagrangeP LagrangeInit LagrangeThms UnsortedP.
Set Implicit Arguments.
Unset Strict Implicit.
Unset Printing Implicit Defensive.
Import GRing.Theory Num.Theory Order.TTheory.
Local Open Scope ring_scope.

Section Props.
Variable F : realFieldType.
Variables (flog fexp : F -> F) (underflow : seq F -> bool).
Variables (leggauss roots_legendre fejer : nat -> outcome (seq F * seq F)).
Notation init := (lagrange_init flog fexp underflow).
Notation integM := (getIntegrationMatrix leggauss roots_legendre fejer).
Implicit Types (p P : {poly F}) (pts times : seq F) (d wc sr nq : string) (sw : bool).

(* the barycentric weight of the point number j of a list *)
Definition baryw pts (j : nat) : F :=
  (\prod_(k < size pts | k != j :> nat) (nth 0 pts j - nth 0 pts k))^-1.
(* the weights of the increasing list, taken by position, are proportional to those of the list *)
Definition same_weights pts : Prop :=
  exists2 c, c != 0 & forall j, (j < size pts)%N -> baryw (dpts pts) j = c * baryw pts j.

Notation okd pts wc sr :=
  [/\ uniq pts, (0 < size pts)%N, setting_ok pts wc sr & logs_ok flog fexp underflow pts wc].

(* construction always succeeds; a given point is always reproduced; elsewhere a row is the
   barycentric formula with the weights of the increasing points *)
Theorem C14_rows pts wc sw sr d : okd pts wc sr ->
  exists2 self, init pts wc sw sr d None = Ok self &
  (forall i, (i < size pts)%N -> getInterpolationMatrix self [:: nth 0 pts i] true =
     fmat [:: mkseq (fun j => (j == i)%:R) (size pts)]) /\
  (forall t, t \notin pts ->
     let q j := baryw (dpts pts) j / (t - nth 0 pts j) in
     let s := \sum_(k < size pts) q k in
     (s != 0 -> getInterpolationMatrix self [:: t] true = fmat [:: mkseq (fun j => q j / s) (size pts)]) /\
     (s = 0 -> forall M, getInterpolationMatrix self [:: t] true <> fmat M)).
Proof.
move=> [un n0 st lg]; have [self e [ptE upE dpE [c c0 wE]]] := unsorted_init sw d un n0 st lg.
have sz : size (np_unique pts) = size pts by apply/eqP; rewrite size_np_unique.
have b0 j : (j < size pts)%N -> bwn (np_unique pts) j != 0.
  by move=> jl; apply: (bwn_neq0 (np_unique_srt pts)); rewrite sz.
have v0 j : (j < size pts)%N -> c * bwn (np_unique pts) j != 0.
  by move=> jl; rewrite mulf_neq0 ?b0.
exists self => //; split=> [i il|t tn q s].
  by rewrite /getInterpolationMatrix /= /handleDup dpE (w_at un v0 upE wE) // map_mkseq.
have tx j : (j < size pts)%N -> t - nth 0 pts j != 0.
  by move=> jl; rewrite subr_eq0; apply: contra tn => /eqP ->; rewrite mem_nth.
have q0 j : (j < size pts)%N -> q j != 0.
  by move=> jl; rewrite mulf_neq0 ?b0 ?invr_neq0 ?tx.
have qE j : wq pts (fun j => c * bwn (np_unique pts) j) t j = c * q j by rewrite /wq -mulrA.
have sE : \sum_(k < size pts) wq pts (fun j => c * bwn (np_unique pts) j) t k = c * s.
  by rewrite mulr_sumr; apply: eq_bigr => k _.
rewrite /getInterpolationMatrix /= /handleDup dpE (w_off upE wE tn) sE; split=> [s0|s0 M].
  rewrite map_mkseq; congr [:: _]; apply: eq_mkseq_in => j jl.
  by rewrite qE ediv_fin ?mulf_neq0 // -mulf_div divff // mul1r.
case: M => [//|r M] [h _]; have := congr1 (fun x => nth NaN x 0) h.
have sr0 : (0 < size r)%N by have := congr1 size h; rewrite size_mkseq size_map => <-.
rewrite nth_mkseq // (nth_map 0) // qE s0 mulr0 => hh.
by have [] := fin_ediv (mulf_neq0 c0 (q0 0%N n0)) hh; rewrite eqxx.
Qed.

(* interpolation at one new point is right exactly when the weights agree, and then all of the
   matrices are right *)
Theorem C14_exact_iff pts wc sw sr d self t : okd pts wc sr -> t \notin pts ->
  init pts wc sw sr d None = Ok self ->
  (same_weights pts <->
   exists2 r, getInterpolationMatrix self [:: t] true = fmat [:: r] &
     size r = size pts /\ forall p, (size p <= size pts)%N -> dot r (pvals p pts) = p.[t]).
Proof.
move=> [un n0 st lg] tn ei; have [self' e [ptE upE dpE [c c0 wE]]] := unsorted_init sw d un n0 st lg.
move: e; rewrite ei => -[e]; rewrite -{}e in ptE upE dpE wE.
have sz : size (np_unique pts) = size pts by apply/eqP; rewrite size_np_unique.
have v0 j : (j < size pts)%N -> c * bwn (np_unique pts) j != 0.
  by move=> jl; rewrite mulf_neq0 //; apply: (bwn_neq0 (np_unique_srt pts)); rewrite sz.
split=> [[c' c0' h]|[r e [sr' ex]]].
  have wE' : weights self = mkseq (fun j => Fin (c * c' * bwn pts j)) (size pts).
    by rewrite wE; apply: eq_mkseq_in => j jl; congr Fin; rewrite -mulrA; congr (_ * _); apply: h.
  exists (mkseq (fun j => (ell pts j).[t]) (size pts)).
    by rewrite (u_interp un n0 (mulf_neq0 c0 c0') upE dpE wE').
  by split=> [|p sp]; rewrite ?size_mkseq //; apply: u_row; apply: ell_interpU.
move: e; rewrite /getInterpolationMatrix /= /handleDup dpE => -[e].
have [c' c0' h] := exact_prop un v0 upE wE n0 tn sr' e ex.
exists (c^-1 * c'); first by rewrite mulf_neq0 ?invr_neq0.
by move=> j jl; apply: (mulfI c0); rewrite !mulrA divff // mul1r; apply: h.
Qed.

Theorem C14_derivative_iff pts wc sw sr d self : okd pts wc sr ->
  init pts wc sw sr d None = Ok self ->
  (same_weights pts <->
   exists2 D, getDerivativeMatrix self (OInt 1) true = Ok (DOne (fmat D)) &
     is_shape D (size pts) (size pts) /\
     forall p, (size p <= size pts)%N -> mv D (pvals p pts) = pvals p^`() pts).
Proof.
move=> [un n0 st lg] ei; have [self' e [ptE upE dpE [c c0 wE]]] := unsorted_init sw d un n0 st lg.
move: e; rewrite ei => -[e]; rewrite -{}e in ptE upE dpE wE.
have sz : size (np_unique pts) = size pts by apply/eqP; rewrite size_np_unique.
have v0 j : (j < size pts)%N -> c * bwn (np_unique pts) j != 0.
  by move=> jl; rewrite mulf_neq0 //; apply: (bwn_neq0 (np_unique_srt pts)); rewrite sz.
split=> [[c' c0' h]|[D e [sh ex]]].
  have wE' : weights self = mkseq (fun j => Fin (c * c' * bwn pts j)) (size pts).
    by rewrite wE; apply: eq_mkseq_in => j jl; congr Fin; rewrite -mulrA; congr (_ * _); apply: h.
  eexists; first exact: (u_deriv1 un (mulf_neq0 c0 c0') upE dpE wE').
  split; first by apply/is_shapeP; rewrite size_map; split=> // i il; rewrite (nth_map 0) // size_mkseq.
  move=> p sp; rewrite /mv -map_comp; apply: eq_map => t /=.
  by apply: u_row; apply: ell_derivU.
have e' : deriv_D1 self = fmat D.
  case: e => <-; rewrite -[LHS]map_id; apply: eq_map => r.
  by rewrite /handleDup dpE.
have [c' c0' h] := deriv_prop un v0 upE wE n0 sh e' ex.
exists (c^-1 * c'); first by rewrite mulf_neq0 ?invr_neq0.
by move=> j jl; apply: (mulfI c0); rewrite !mulrA divff // mul1r; apply: h.
Qed.

Theorem C14_all_exact pts wc sw sr d : okd pts wc sr -> same_weights pts ->
  exists2 self, init pts wc sw sr d None = Ok self &
  (forall times, exists2 M, getInterpolationMatrix self times true = fmat M &
     is_shape M (size times) (size pts) /\
     forall p, (size p <= size pts)%N -> mv M (pvals p pts) = pvals p times) /\
  (forall ivs nq, rules_ok leggauss roots_legendre fejer (size pts) nq ->
     exists2 M, integM self ivs nq true = Ok (fmat M) & is_shape M (size ivs) (size pts) /\
     forall P, (size P <= (size pts).+1)%N ->
       mv M (pvals P^`() pts) = [seq P.[ab.2] - P.[ab.1] | ab <- ivs]) /\
  (exists D1 D2, [/\ getDerivativeMatrix self (OStr "ALL") true = Ok (DBoth (fmat D1) (fmat D2)),
     is_shape D1 (size pts) (size pts), is_shape D2 (size pts) (size pts) &
     forall p, (size p <= size pts)%N -> mv D1 (pvals p pts) = pvals p^`() pts /\
       mv D2 (pvals p pts) = pvals p^`()^`() pts]).
Proof.
move=> [un n0 st lg] [c' c0' h].
have [self e [ptE upE dpE [c c0 wE]]] := unsorted_init sw d un n0 st lg.
have wE' : weights self = mkseq (fun j => Fin (c * c' * bwn pts j)) (size pts).
  by rewrite wE; apply: eq_mkseq_in => j jl; congr Fin; rewrite -mulrA; congr (_ * _); apply: h.
have cc0 := mulf_neq0 c0 c0'.
have sh (T : Type) (G : T -> nat -> F) (s : seq T) :
    is_shape [seq mkseq (G t) (size pts) | t <- s] (size s) (size pts).
  by apply/is_shapeP; rewrite size_map; split=> // i; elim: s i => [|x s ih] [|i] //= il; [rewrite size_mkseq|apply: ih].
exists self => //; split; [|split].
- move=> times; eexists; first exact: (u_interp un n0 cc0 upE dpE wE').
  split=> [|p sp]; first exact: sh.
  by rewrite /mv -map_comp; apply: eq_map => t /=; apply: u_row; apply: ell_interpU.
- move=> ivs nq hr; eexists; first exact: (u_integ un n0 cc0 ptE upE dpE wE' _ hr).
  split=> [|P sP]; first exact: (sh _ (fun ab j => pint (ell pts j) ab.1 ab.2)).
  rewrite /mv -map_comp; apply: eq_map => ab /=; apply: u_row; rewrite u_sum_pint ?pint_deriv //.
  case: (P =P 0) => [->|/eqP nz]; first by rewrite deriv0 size_poly0.
  by rewrite -ltnS (leq_trans (lt_size_deriv nz)).
do 2!eexists; split; first exact: (u_deriv un cc0 upE dpE wE').
- exact: sh.
- exact: sh.
by move=> p sp; split; rewrite /mv -map_comp; apply: eq_map => t /=; apply: u_row;
  [apply: ell_derivU|apply: ell_deriv2U].
Qed.

(* orders for which the weights agree: increasing points, two points, and decreasing points that
   are symmetric *)
Theorem C14_sorted pts : sorted <%O pts -> same_weights pts.
Proof.
move=> srt; exists 1; first exact: oner_neq0.
by move=> j jl; rewrite mul1r -[dpts pts]/(np_unique pts) np_unique_sorted.
Qed.

Theorem C14_decreasing_symmetric pts m : sorted >%O pts ->
  (forall j, (j < size pts)%N -> nth 0 pts j + nth 0 pts (size pts - j.+1) = m) -> same_weights pts.
Proof.
move=> srt sym; have sr : sorted <%O (rev pts) by rewrite rev_sorted.
have dE : dpts pts = rev pts.
  rewrite -(np_unique_sorted sr) /np_unique /dpts; congr undup.
  apply: (sorted_eq le_trans le_anti); rewrite ?sort_le_sorted //.
  by rewrite perm_sort perm_sym perm_sort perm_rev.
have nE j : (j < size pts)%N -> nth 0 (rev pts) j = m - nth 0 pts j.
  by move=> jl; rewrite nth_rev // -(sym j jl) addrC addKr.
exists ((-1) ^+ (size pts).-1); first by rewrite expf_neq0 ?oppr_eq0 ?oner_neq0.
move=> j jl; rewrite dE /baryw size_rev.
rewrite (eq_bigr (fun k : 'I_(size pts) => - 1 * (nth 0 pts j - nth 0 pts k))); last first.
  by move=> k _; rewrite !nE // mulN1r opprB; move: (nth 0 pts j) (nth 0 pts k) => x y; ring.
rewrite big_split /= prodr_const invfM; congr (_ * _).
have -> : #|[pred k : 'I_(size pts) | k != j :> nat]| = (size pts).-1.
  by rewrite -[in RHS](card_ord (size pts)) -(cardC1 (Ordinal jl)); apply: eq_card => k; rewrite !inE.
by rewrite -exprVn invrN invr1.
Qed.

Theorem C14_two_points (x y : F) : x != y -> same_weights [:: x; y].
Proof.
move=> xy; case: (ltP x y) => [h|]; first by apply: C14_sorted; rewrite /= h.
rewrite le_eqVlt eq_sym (negPf xy) /= => h; apply: (@C14_decreasing_symmetric _ (x + y)); first by rewrite /= h.
by case=> [|[|]] //= _; rewrite addrC.
Qed.
End Props.

Print Assumptions C14_rows.
Print Assumptions C14_exact_iff.
Print Assumptions C14_derivative_iff.
Print Assumptions C14_all_exact.
Print Assumptions C14_sorted.
Print Assumptions C14_decreasing_symmetric.
Print Assumptions C14_two_points.

(* In general the weights do not agree: between the points 0, 2, 1 the rows even have a pole. *)
Notation Qf := qc_realFieldType.
Notation nolog := (fun x : Qf => x).
Notation qinit pts := (lagrange_init nolog nolog (fun _ : seq Qf => false) pts "AUTO" false "MAX" "USE_LEFT" None).
Definition c14p : seq Qf := [:: qc 0 1; qc 2 1; qc 1 1].
Definition c14s : lagr Qf := ok_or (Lagr [::] [::] [::] None None) (qinit c14p).
Definition is_fin (x : ext Qf) : bool := if x is Fin _ then true else false.

Theorem C14_pole_refuted : exists (pts : seq Qf) t self,
  [/\ uniq pts, t \notin pts, (0 < t < 1)%R & qinit pts = Ok self] /\
  forall M, getInterpolationMatrix self [:: t] true <> fmat M.
Proof.
exists c14p, (qc 2 3), c14s; split.
  by split; [vm_compute|vm_compute|vm_compute|apply: ok_orE; vm_compute].
move=> M e.
have h : all (all is_fin) (getInterpolationMatrix c14s [:: qc 2 3] true).
  by rewrite e; apply/allP => r /mapP [s _ ->]; apply/allP => x /mapP [y _ ->].
by have := h; have -> : all (all is_fin) (getInterpolationMatrix c14s [:: qc 2 3] true) = false by vm_compute.
Qed.
Print Assumptions C14_pole_refuted.

(* settings for which the theorems above apply, and a decreasing list for which all is well *)
Example C14_hypotheses : [/\ uniq c14p, (0 < size c14p)%N, setting_ok c14p "AUTO" "MAX" &
  logs_ok nolog nolog (fun _ => false) c14p "AUTO"].
Proof.
split; [by vm_compute|by []| |].
- by right; left; split; [left|right].
- by right; left; split.
Qed.

Example C14_disagree : ~ same_weights c14p.
Proof.
move=> /(C14_exact_iff (flog := nolog) (fexp := nolog) (underflow := fun _ => false) (wc := "AUTO") (sw := false)
  (sr := "MAX") (d := "USE_LEFT") (self := c14s) (t := qc 2 3) C14_hypotheses).
case; [by vm_compute|by apply: ok_orE; vm_compute|] => r e _.
have h : all (all is_fin) (getInterpolationMatrix c14s [:: qc 2 3] true).
  by rewrite e /= andbT; apply/allP => x /mapP [y _ ->].
by have := h; have -> : all (all is_fin) (getInterpolationMatrix c14s [:: qc 2 3] true) = false by vm_compute.
Qed.

Example C14_reversed : same_weights ([:: qc 5 1; qc 3 1; qc 1 1; qc (-1) 1] : seq Qf).
Proof.
apply: (@C14_decreasing_symmetric _ _ (qc 4 1)); first by vm_compute.
by case=> [|[|[|[|j]]]] // _; apply/eqP; vm_compute.
Qed.
