(* Properties C01-C06, C08-C11, C14: LagrangeApproximation (qmat/lagrange.py). *)
From Coq Require Import QArith Qcanon.
From Verif.Base Require Import Str.
From mathcomp Require Import all_ssreflect all_algebra ring.
From Verif.Base Require Import QcField Outcome Arr Ext PolyInterp PolyInt.
From Verif.Model Require Import Lagrange.
From Verif.Spec Require Import LagrangeSpec.
From Verif.Proofs Require Import LagrangeP LagrangeInit LagrangeThms.
Set Implicit Arguments.
Unset Strict Implicit.
Unset Printing Implicit Defensive.
Import GRing.Theory Num.Theory Order.TTheory.
Local Open Scope ring_scope.

Section Props.
Variable F : realFieldType.
Variables (flog fexp : F -> F) (underflow : seq F -> bool).
Variables (leggauss roots_legendre fejer : nat -> outcome (seq F * seq F)).
Notation init := (lagrange_init flog fexp underflow).
Notation interpM := (@getInterpolationMatrix F).
Notation integM := (getIntegrationMatrix leggauss roots_legendre fejer).
Notation derivM := (@getDerivativeMatrix F).
Implicit Types (p P : {poly F}) (pts times f : seq F) (d wc sr nq : string) (sw : bool).

(* admissible points, documented setting, log/exp laws when they are evaluated *)
Notation ok pts wc sr d :=
  (points_ok pts d /\ setting_ok pts wc sr /\ logs_ok flog fexp underflow pts wc).

Theorem C01_interpolation_exact pts wc sw sr d times : ok pts wc sr d ->
  exists2 self, init pts wc sw sr d None = Ok self &
  exists2 M, interpM self times true = fmat M & is_shape M (size times) (size pts) /\
    forall p, (size p <= ndist pts)%N -> mv M (pvals p pts) = pvals p times.
Proof.
move=> h; have [self e [g _]] := lag_init sw h (isT : fv_ok pts None).
exists self => //; eexists; first exact: (interpE_M h.1 g).
split; first exact: shape_map.
move=> p sp; apply: interp_exact sp _ _ => //; [by case: h|by rewrite size_map|].
by move=> j [jl _]; rewrite (nth_map 0).
Qed.

Theorem C02_rows_sum_to_one_and_copy pts wc sw sr d fv self times : ok pts wc sr d ->
  init pts wc sw sr d fv = Ok self ->
  exists2 M, interpM self times true = fmat M & is_shape M (size times) (size pts) /\
    forall i, (i < size times)%N ->
      vsum (nth [::] M i) = 1 /\
      forall j, used d pts j -> nth 0 times i = nth 0 pts j ->
        nth [::] M i = mkseq (fun j' => (j' == j)%:R) (size pts).
Proof.
move=> h /(lag_good h) [g _]; eexists; first exact: (interpE_M h.1 g).
split; first exact: shape_map.
move=> i il; rewrite (nth_map 0) //; split; first by apply: interp_vsum; case: h.
by move=> j uj ->; apply: interp_copy => //; case: h.
Qed.

Theorem C03_settings_interchangeable pts d fv fv' wc sw sr self wc' sw' sr' self' :
  ok pts wc sr d -> ok pts wc' sr' d ->
  init pts wc sw sr d fv = Ok self -> init pts wc' sw' sr' d fv' = Ok self' ->
  (forall times b, interpM self times b = interpM self' times b) /\
  (forall ivs nq b, rules_ok leggauss roots_legendre fejer (size pts) nq ->
     integM self ivs nq b = integM self' ivs nq b) /\
  (forall o b, derivM self o b = derivM self' o b) /\
  (exists2 c, c != 0 & weights self' = map (emul (Fin c)) (weights self)).
Proof.
move=> h h' /(lag_good h) [g _] /(lag_good h') [g' _]; split; [|split; [|split]].
- by move=> ts b; rewrite (interpE_M h.1 g) (interpE_M h.1 g').
- by move=> ivs nq b hr; rewrite (integE_M h.1 g _ _ hr) (integE_M h.1 g' _ _ hr).
- by move=> o b; rewrite (derivE_M h.1 g) (derivE_M h.1 g').
case: (g_w g) => c c0 ->; case: (g_w g') => c' c0' ->.
exists (c' / c); first by rewrite mulf_neq0 ?invr_eq0.
rewrite map_mkseq; apply: eq_mkseq_in => j _ /=; congr Fin.
by move: (bwn _ _) => b; field.
Qed.

Theorem C04_duplicated_points pts d wc sw sr fv fv' self self' :
  ok pts wc sr d ->
  init pts wc sw sr d fv = Ok self -> init (dpts pts) wc sw sr d fv' = Ok self' ->
  (* A : matrix for the points, A' : matrix for the distinct points *)
  let agree A A' := exists2 M, A = fmat M & exists2 M', A' = fmat M' &
    (forall r, r \in M -> size r = size pts /\
       forall j, (j < size pts)%N -> ~ used d pts j -> nth 0 r j = 0) /\
    (forall r, r \in M' -> size r = ndist pts) /\
    (forall f f', size f = size pts -> size f' = ndist pts ->
      (forall j k, used d pts j -> (k < ndist pts)%N -> nth 0 pts j = nth 0 (dpts pts) k ->
         nth 0 f j = nth 0 f' k) ->
      mv M f = mv M' f') in
  (forall times, agree (interpM self times true) (interpM self' times true)) /\
  (forall ivs nq, rules_ok leggauss roots_legendre fejer (size pts) nq ->
     rules_ok leggauss roots_legendre fejer (ndist pts) nq ->
     exists2 A, integM self ivs nq true = Ok A &
     exists2 A', integM self' ivs nq true = Ok A' & agree A A') /\
  (forall k, k = 1%N \/ k = 2%N -> exists2 A, derivM self (OInt k) true = Ok (DOne A) &
     exists2 A', derivM self' (OInt k) true = Ok (DOne A') & agree A A').
Proof.
move=> h /(lag_good h) [g _] /(lag_good (lag_ok_dpts h)) [g' _] agree.
have h' := lag_ok_dpts h; have pok := h.1; have pok' := h'.1.
have dE : np_unique (dpts pts) = np_unique pts := np_unique_dpts pts.
have sd : size (dpts pts) = ndist pts by rewrite ndistE.
have ag (A : Type) (s : seq A) (G : A -> nat -> F) :
    agree (fmat [seq xrow pts d true (G t) | t <- s])
          (fmat [seq xrow (dpts pts) d true (G t) | t <- s]).
  eexists; first reflexivity; eexists; first reflexivity; split; [|split].
  - move=> r rin; split.
      have /allP := (andP (shape_map pts d s true G)).2; move=> /(_ r rin) /eqP.
      exact.
    move=> j jl nu; elim: s rin => //= a s ih; rewrite inE => /orP [/eqP ->|/ih //].
    rewrite /xrow nth_mkseq // /outc; case: ifP => // /(selb_used pok jl).
    by move/nu.
  - move=> r rin; rewrite -sd.
    have /allP := (andP (shape_map (dpts pts) d s true G)).2; move=> /(_ r rin) /eqP.
    exact.
  move=> f f' sf sf' hf; rewrite /mv -!map_comp; apply: eq_map => a /=.
  exact: expand_dup.
split; [|split].
- move=> times; rewrite (interpE_M pok g) (interpE_M pok' g') dE.
  exact: (ag _ times (fun t k => (ell (np_unique pts) k).[t])).
- move=> ivs nq hr hr'; rewrite (integE_M pok g _ _ hr).
  rewrite -sd in hr'; rewrite (integE_M pok' g' _ _ hr') dE.
  eexists; first reflexivity; eexists; first reflexivity.
  exact: (ag _ ivs (fun ab k => pint (ell (np_unique pts) k) ab.1 ab.2)).
move=> k hk; rewrite (derivE_M pok g) (derivE_M pok' g') /Dmat dE.
by case: hk => ->; (eexists; first reflexivity); (eexists; first reflexivity);
  apply: (ag _ _ (fun t k => (ell (np_unique pts) k)^`(_).[t])).
Qed.

Theorem C05_integration_exact pts wc sw sr d fv self ivs nq : ok pts wc sr d ->
  init pts wc sw sr d fv = Ok self ->
  rules_ok leggauss roots_legendre fejer (size pts) nq ->
  exists2 M, integM self ivs nq true = Ok (fmat M) & is_shape M (size ivs) (size pts) /\
    forall P, (size P <= (ndist pts).+1)%N ->
      mv M (pvals P^`() pts) = [seq P.[ab.2] - P.[ab.1] | ab <- ivs].
Proof.
move=> h /(lag_good h) [g _] hr; eexists; first exact: (integE_M h.1 g _ _ hr).
split; first exact: shape_map.
move=> P sP; apply: integ_exact sP _ _ => //; [by case: h|by rewrite size_map|].
by move=> j [jl _]; rewrite (nth_map 0).
Qed.

Theorem C06_integration_additive pts wc sw sr d fv self nq (a b c : F) : ok pts wc sr d ->
  init pts wc sw sr d fv = Ok self ->
  rules_ok leggauss roots_legendre fejer (size pts) nq ->
  exists rab rbc rac rba raa,
    integM self [:: (a, b); (b, c); (a, c); (b, a); (a, a)] nq true =
      Ok (fmat [:: rab; rbc; rac; rba; raa]) /\
    rac = vadd rab rbc /\ rba = map -%R rab /\ raa = nseq (size pts) 0.
Proof.
move=> h /(lag_good h) [g _] hr; do 5 eexists; split; first exact: (integE_M h.1 g _ _ hr).
have ad (G H K : nat -> F) : (forall k, G k = H k + K k) ->
   xrow pts d true G = vadd (xrow pts d true H) (xrow pts d true K).
  move=> e; rewrite /vadd map_zip_mkseq; apply: eq_mkseq_in => j _ /=.
  by rewrite /outc; case: ifP => _; rewrite ?addr0.
split; first by apply: ad => k; rewrite pint_add.
split.
  rewrite /xrow map_mkseq; apply: eq_mkseq_in => j _; rewrite /outc; case: ifP => _.
    by rewrite pint_sym.
  by rewrite oppr0.
apply: (@eq_from_nth _ 0); rewrite size_mkseq ?size_nseq // => j jl.
by rewrite nth_mkseq // nth_nseq jl /outc; case: ifP => //; rewrite pint_refl.
Qed.

Theorem C08_first_derivative_exact pts wc sw sr d fv self : ok pts wc sr d ->
  init pts wc sw sr d fv = Ok self ->
  exists2 D, derivM self (OInt 1) true = Ok (DOne (fmat D)) &
    is_shape D (ndist pts) (size pts) /\
    (forall p, (size p <= ndist pts)%N -> mv D (pvals p pts) = pvals p^`() (dpts pts)) /\
    all (fun r => vsum r == 0) D.
Proof.
move=> h /(lag_good h) [g _]; rewrite (derivE_M h.1 g); eexists; first reflexivity.
split; first exact: Dmat_shape.
split; last by apply: Dmat_sum0; [case: h|left].
move=> p sp; apply: (@Dmat_exact _ _ _ h.1 1) sp _ _; [by left|by rewrite size_map|].
by move=> j [jl _]; rewrite (nth_map 0).
Qed.

Theorem C09_second_derivative_exact pts wc sw sr d fv self : ok pts wc sr d ->
  init pts wc sw sr d fv = Ok self ->
  exists D1, exists2 D2, derivM self (OStr "ALL") true = Ok (DBoth (fmat D1) (fmat D2)) &
    derivM self (OInt 1) true = Ok (DOne (fmat D1)) /\
    derivM self (OInt 2) true = Ok (DOne (fmat D2)) /\
    is_shape D2 (ndist pts) (size pts) /\
    (forall p, (size p <= ndist pts)%N -> mv D2 (pvals p pts) = pvals p^`()^`() (dpts pts)) /\
    all (fun r => vsum r == 0) D2 /\
    (sorted <%O pts -> D2 = mm (size pts) D1 D1).
Proof.
move=> h /(lag_good h) [g _]; rewrite !(derivE_M h.1 g); eexists; eexists; first reflexivity.
split; first by []. split; first by [].
split; first exact: Dmat_shape.
split.
  move=> p sp; apply: (@Dmat_exact _ _ _ h.1 2) sp _ _; [by right|by rewrite size_map|].
  by move=> j [jl _]; rewrite (nth_map 0).
split; first by apply: Dmat_sum0; [case: h|right].
move=> srt; have un := lt_sorted_uniq srt.
have nd : ndist pts = size pts by rewrite /ndist undup_id.
have uE := np_unique_sorted srt.
have sh k := @Dmat_shape F pts d k true; rewrite nd in sh.
apply: (mat_ext (sh 2%N)); first exact: mm_shape (sh 1%N).
move=> i j il jl; rewrite (ent_mm (sh 1%N) (sh 1%N) il jl).
have entE k i0 j0 : (i0 < size pts)%N -> (j0 < size pts)%N ->
    ent (Dmat pts d k true) i0 j0 = (ell pts j0)^`(k).[nth 0 pts i0].
  move=> i0l j0l; rewrite /ent /Dmat uE (nth_map 0) // /xrow nth_mkseq // /outc.
  by rewrite /selb /selv un /= uE index_uniq // eqxx.
rewrite entE //; have sz : (size (ell pts j)^`() <= size pts)%N.
  by apply: leq_trans (size_poly _ _) _; apply: leq_trans (leq_pred _) _; apply: size_ell.
rewrite derivnS derivn1 -(ell_deriv srt _ sz); apply: eq_bigr => k _.
by rewrite !entE // derivn1.
Qed.

(* every way the constructor can end, for any option strings *)
Theorem C10_constructor_outcomes pts wc sw sr d fv : (0 < size pts)%N ->
  let known := (uniq pts \/ d = "USE_LEFT" \/ d = "USE_RIGHT")%string /\
    (wc = "FAST" \/ wc = "CHEBFUN" \/
     wc = "AUTO" /\ (underflow (dpts pts) -> sr = "ZERO" \/ sr = "MAX") \/
     wc = "STABLE" /\ (sr = "ZERO" \/ sr = "MAX"))%string in
  let sized := match fv with Some f => size f = size pts | None => True end in
  ((exists self, init pts wc sw sr d fv = Ok self) <-> known /\ sized) /\
  (init pts wc sw sr d fv = Raise NotImplementedError <-> ~ known) /\
  (init pts wc sw sr d fv = Raise ValueError <-> known /\ ~ sized).
Proof. exact: init_errors. Qed.

Theorem C10_method_outcomes self times ivs nq b o f :
  (integM self ivs nq b = Raise NotImplementedError \/
    nq = "LEGENDRE_NUMPY" \/ nq = "LEGENDRE_SCIPY" \/ nq = "FEJER")%string /\
  (is_ok (derivM self o b) <-> o = OInt 1 \/ o = OInt 2 \/ o = OStr "ALL") /\
  (~ is_ok (derivM self o b) -> derivM self o b = Raise NotImplementedError) /\
  (fVals self = None -> call self times None = Raise AssertionError) /\
  (call self times (Some f) = Raise ValueError <-> size f <> size (points self)) /\
  (is_ok (call self times (Some f)) <-> size f = size (points self)).
Proof.
split; [|split; [|split; [|split; [|split]]]].
- rewrite /getIntegrationMatrix /quad_rule.
  case: (nq =P "LEGENDRE_NUMPY"%string) => [->|_]; first by right; left.
  case: (nq =P "LEGENDRE_SCIPY"%string) => [->|_]; first by right; right; left.
  by case: (nq =P "FEJER"%string) => [->|_]; [right; right; right|left].
- case: o => [[[|[|[|k]]]|k]|s]; split=> //=; try (by case=> [|[]]); try by [left|right; left].
    by case: (s =P "ALL"%string) => [->|//]; right; right.
  by case=> // -[] // [->].
- by case: o => [[[|[|[|k]]]|k]|s] //=; case: (s == _).
- by rewrite /call => ->.
- rewrite /call; case: eqP => /= e; split=> //.
- rewrite /call; case: eqP => /= e; split=> //.
Qed.

Theorem C11_call_evaluates_interpolant pts wc sw sr d fv self times f p : ok pts wc sr d ->
  init pts wc sw sr d fv = Ok self ->
  size f = size pts -> (size p <= ndist pts)%N ->
  (forall j, used d pts j -> nth 0 f j = p.[nth 0 pts j]) ->
  call self times (Some f) = Ok (map (@Fin F) (pvals p times)) /\
  (fv = Some f -> call self times None = call self times (Some f)).
Proof.
move=> h /(lag_good h) [g fvE] sf sp hf; split; last first.
  by move=> e; rewrite /call fvE e.
rewrite /call (g_pts g) sf eqxx /= (interpE_M h.1 g) -map_comp.
rewrite -(interp_exact h.1 times sp sf hf) /mv -!map_comp; congr Ok; apply: eq_map => t /=.
rewrite -[mkseq (outc _ _ _) _]/(xrow pts d true _); move: (xrow _ _ _ _) => r; rewrite /dot -esum_fin; congr esum.
by elim: r f {sf hf} => [|a s ih] [|b s'] //=; rewrite ih.
Qed.

(* the interpolating polynomial always exists *)
Theorem C11_interpolant_exists pts d f : points_ok pts d -> size f = size pts ->
  exists2 p : {poly F}, (size p <= ndist pts)%N &
    forall j, used d pts j -> nth 0 f j = p.[nth 0 pts j].
Proof. exact: interpolant_exists. Qed.

(* a single point with CHEBFUN weights is accepted, but the result is not a number
   (4 / (max - min) is infinite, lagrange.py 205) *)
Theorem C03_chebfun_single_point_refuted (x : F) sw sr d :
  exists2 self, init [:: x] "CHEBFUN" sw sr d None = Ok self &
    forall t, interpM self [:: t] true = [:: [:: NaN]].
Proof.
exists (Lagr [:: x] [:: x] [:: NaN] None None).
  rewrite /lagrange_init; set w := compute_weights _ _ _ _ _ _ _.
  suff -> : w = Ok [:: NaN] by [].
  rewrite {}/w /compute_weights /= subrr eqxx /inf_of ltr0n /=.
  by case: sw; do 5 (rewrite ?ltr01 ?mulr1 ?normr0 ?eqxx ?ltxx ?sgr1 ?/inf_of /=).
move=> t; rewrite /getInterpolationMatrix /interp_row /=.
by case: (if t - _ == 0 then _ else _) => //= a; case: ifP.
Qed.

End Props.

Print Assumptions C01_interpolation_exact.
Print Assumptions C02_rows_sum_to_one_and_copy.
Print Assumptions C03_settings_interchangeable.
Print Assumptions C04_duplicated_points.
Print Assumptions C05_integration_exact.
Print Assumptions C06_integration_additive.
Print Assumptions C08_first_derivative_exact.
Print Assumptions C09_second_derivative_exact.
Print Assumptions C10_constructor_outcomes.
Print Assumptions C10_method_outcomes.
Print Assumptions C11_call_evaluates_interpolant.
Print Assumptions C11_interpolant_exists.
Print Assumptions C03_chebfun_single_point_refuted.

(* The hypotheses are met by concrete points: increasing ones, and repeated ones in
   any order. *)
Notation nolog := (fun x : Qc => x).
Example points_increasing : let pts := [:: qc 0 1; qc 1 2; qc 2 1] in
  points_ok pts "USE_LEFT" /\ setting_ok pts "FAST" "MAX" /\
  logs_ok nolog nolog (fun _ => false) pts "FAST".
Proof. by split; [split=> //; left|split; left]. Qed.

Example points_repeated : let pts := [:: qc 1 1; qc 0 1; qc 1 1; qc 3 1; qc 0 1] in
  points_ok pts "USE_RIGHT" /\ setting_ok pts "AUTO" "MAX" /\
  logs_ok nolog nolog (fun _ => false) pts "AUTO" /\
  ndist pts = 3%N /\ used "USE_RIGHT" pts 4%N /\ ~ used "USE_RIGHT" pts 1%N.
Proof.
split; first by split=> //; right; split=> //; right.
split; first by right; left; split; [left|right].
split; first by right; left.
split; first by vm_compute.
split; first by split=> //= k /andP [h1 h2]; case: k h1 h2 => [|[|[|[|[|[]]]]]].
by move=> [_ /(_ 4%N isT)]; apply; vm_compute.
Qed.

(* one point Gauss rule: exact to degree one, enough for two points *)
Example midpoint_rule (F : realFieldType) : rules_ok (fun _ => Ok ([:: 0 : F], [:: 2%:R]))
   (fun _ => Raise ValueError) (fun _ => Raise ValueError) 2 "LEGENDRE_NUMPY".
Proof.
left; split=> //; eexists; first reflexivity; split=> // P sP.
rewrite big_ord_recl big_ord0 addr0 /=.
have -> : P = (P`_0)%:P + P`_1 *: 'X + P`_2 *: 'X^2.
  apply/polyP => i; rewrite !coefD !coefZ coefC coefX coefXn.
  case: i => [|[|[|i]]] /=; rewrite ?mulr1 ?mulr0 ?addr0 ?add0r //.
  by rewrite nth_default // (leq_trans sP).
rewrite !derivD !derivZ derivC derivX derivXn !hornerE /=.
by move: (P`_0) (P`_1) (P`_2) => a b c; ring.
Qed.

(* C14: distinct points that are not increasing.  The weights are computed for the
   sorted points but used with the points in the given order. *)
Definition c14_pts : seq Qc := [:: qc 0 1; qc 2 1; qc 1 1].
Definition c14_self : lagr [realFieldType of Qc] := ok_or (Lagr [::] [::] [::] None None)
  (lagrange_init nolog nolog (fun _ => false) c14_pts "AUTO" false "MAX" "USE_LEFT" None).

Theorem C14_unsorted_points_refuted :
  exists (pts times : seq Qc) (p : {poly Qc}) self,
    uniq pts /\ (size p <= size pts)%N /\
    lagrange_init nolog nolog (fun _ => false) pts "AUTO" false "MAX" "USE_LEFT" None = Ok self /\
    forall M, getInterpolationMatrix self times true = fmat M ->
      mv M (pvals p pts) <> pvals p times.
Proof.
exists c14_pts, [:: qc 3 1], ('X^2), c14_self; split; first by vm_compute.
split; first by rewrite size_polyXn.
split; first by apply: ok_orE; vm_compute.
set A := getInterpolationMatrix _ _ _.
have -> : A = fmat [:: [:: qc (-2) 7; qc 12 7; qc (-3) 7]] by apply/eqP; vm_compute.
move=> M /fmat_inj <-; rewrite /pvals /= !hornerXn => /eqP.
by vm_compute.
Qed.
Print Assumptions C14_unsorted_points_refuted.

(* the same failure for integration-free evaluation of a derivative *)
Theorem C14_unsorted_derivative_refuted :
  exists (pts : seq Qc) (p : {poly Qc}) self,
    uniq pts /\ (size p <= size pts)%N /\
    lagrange_init nolog nolog (fun _ => false) pts "AUTO" false "MAX" "USE_LEFT" None = Ok self /\
    forall D, getDerivativeMatrix self (OInt 1) true = Ok (DOne (fmat D)) ->
      mv D (pvals p pts) <> pvals p^`() pts.
Proof.
exists c14_pts, ('X^2), c14_self; split; first by vm_compute.
split; first by rewrite size_polyXn.
split; first by apply: ok_orE; vm_compute.
have E (self : lagr [realFieldType of Qc]) : getDerivativeMatrix self (OInt 1) true =
  Ok (DOne (map (handleDup self) (deriv_D1 self))) by [].
have inj (A B : seq (seq (ext [realFieldType of Qc]))) : Ok (DOne A) = Ok (DOne B) -> A = B.
  by case.
move=> D; rewrite E => /inj.
have -> : map (handleDup c14_self) (deriv_D1 c14_self) = fmat [:: [:: qc 0 1; qc 1 1; qc (-1) 1]; [:: qc (-1) 4; qc 3 4; qc (-1) 2];
                       [:: qc 1 1; qc 2 1; qc (-3) 1]] by apply/eqP; vm_compute.
move/fmat_inj <-; rewrite /pvals /= derivXn !hornerE /= => /eqP.
by vm_compute.
Qed.
Print Assumptions C14_unsorted_derivative_refuted.
