(* Properties C56, C57, C59 and C61: spectral deferred corrections for u' = lam u. *)
From Coq Require Import ZArith QArith Qcanon.
From Verif.Base Require Import Str.
From mathcomp Require Import all_ssreflect all_algebra ring zify.
From Verif.Base Require Import QcField Outcome Arr Ext LinSolve.
From Verif.Model Require Import QGen Registry Sdc.
From Verif.Spec Require Import QCoeffSpec SdcSpec.
From Verif.Proofs Require Import StabP SdcP SdcOrderP.
Set Implicit Arguments.
Unset Strict Implicit.
Unset Printing Implicit Defensive.
Import GRing.Theory Num.Theory Order.TTheory.
Local Open Scope ring_scope.

Lemma nomon : {subset [::] <= KEYS}. Proof. by move=> x; rewrite in_nil. Qed.

Section Field.
Variable K : fieldType.
Variable cexp : K -> K. (* arbitrary: only the monitored errors depend on it *)
Implicit Types (Q A : seq (seq K)) (w : option (seq K)) (mon : seq string).

(* C56: the values left unchanged by a sweep are the solutions of the collocation problem *)
Theorem C56_fixed_point n Q A (lam dt u : K) v : is_shape Q n n -> is_shape A n n -> size v = n ->
  sdc_sweep lam dt Q u A v = Some v <->
  stagemx n A (lam * dt) \in unitmx /\ collocation Q (lam * dt) u (cvl n v).
Proof.
move=> hQ hA sv; rewrite (sweepE hQ _ _ _ hA sv); set z := lam * dt; case: ifP => un; last by split=> // -[].
have st (B : seq (seq K)) (x : 'cV_n) : stagemx n B z *m x = x - z *: (mxl n n B *m x).
  by rewrite /stagemx mulmxBl mul1mx -scalemxAl.
split=> [[e]|[_ e]].
  split=> //; apply/collocation_stage.
  have {e} : cvl n v = invmx (stagemx n A z) *m (const_mx u + z *: ((mxl n n Q - mxl n n A) *m cvl n v)).
    by move: (congr1 (cvl n) e); rewrite lcvK.
  move/(congr1 (mulmx (stagemx n A z))); rewrite (mulKVmx un) !st mulmxBl scalerBr.
  move: (const_mx u) (cvl n v) (z *: (mxl n n A *m _)) (z *: (mxl n n Q *m _)) => c x a q h.
  have -> : x = (x - a) + a by rewrite subrK.
  by rewrite h addrA subrK addrK.
congr Some; apply: (@cvl_inj _ n); rewrite ?size_lcv // lcvK.
apply: (canLR (mulKmx un)); by rewrite st mulmxBl scalerBr addrA -e.
Qed.

Lemma sdcv_exact n Q (QD : nat -> seq (seq K)) z k : QD k = Q ->
  sdcv n Q QD z k.+1 = invmx (stagemx n Q z) *m const_mx 1.
Proof. by move=> /= ->; rewrite subrr mul0mx scaler0 addr0. Qed.

(* the initial guess is irrelevant if QDelta is Q: every number of sweeps gives the collocation
   method, with the same exceptions *)
Theorem C56_exact n Q v (lam u0 tEnd : K) (nSteps : int) (k : nat) nodes we :
  is_shape Q n n -> (0 < n)%N -> size v = n -> size nodes = n ->
  omapo fst (solveDahlquistSDC cexp lam u0 tEnd nSteps k.+1%:Z Q (QD2 Q) (Some v) [::]) =
  solveDahlquist nodes v we Q lam u0 tEnd nSteps false.
Proof.
move=> hQ n0 sv sn; have sQ : size Q = n by case/is_shapeP: hQ.
case: nSteps => [[|N]|[|N]].
- by rewrite /solveDahlquistSDC /= .
- have eq : qd_sweeps n k.+1%:Z (QD2 Q) = Ok (nseq k.+1 Q) by rewrite /qd_sweeps hQ.
  have N0 : (0 < N.+1)%N by [].
  have [ks [_ _ ->]] := @solveSDC_E K cexp lam u0 tEnd N.+1 k.+1 n Q (QD2 Q) _ (Some v) [::] hQ n0 N0 eq sv nomon.
  rewrite (dahlquistE _ _ _ _ _ hQ sn sv) size_nseq /all_unit all_nseq orFb.
  case: ifP => // un; rewrite /omapo /fst /snd; congr Ok; apply: eq_mkseq => i; congr (_ ^+ _ * _).
  rewrite /sdcR /stabf; congr (1 + _ * _ 0 0); rewrite -mulmxA; congr (_ *m _).
  by rewrite sdcv_exact // nth_nseq ltnSn.
- by rewrite /solveDahlquistSDC /= /qd_sweeps sQ hQ.
by rewrite /solveDahlquistSDC /=.
Qed.

(* C59: the returned values.  QD i is the matrix of sweep i *)
Theorem C59_solution n Q (QDelta : qdarg K) (qds : seq (seq (seq K))) w mon lam u0 tEnd N (nS : int) :
  is_shape Q n n -> (0 < n)%N -> (0 < N)%N -> (if w is Some v then size v = n else True) ->
  qd_sweeps n nS QDelta = Ok qds -> {subset mon <= [:: "residuals"; "errors"]%string} ->
  let z := lam * (tEnd / N%:R) in let QD := nth [::] qds in
  let R := sdcR n Q QD w z (size qds) in
  let u i := R ^+ i * u0 in                          (* solution after i steps *)
  let v k i := u i *: sdcv n Q QD z k in             (* node values after k sweeps of step i *)
  if all (fun A => stagemx n A z \in unitmx) qds then
    exists2 m, solveDahlquistSDC cexp lam u0 tEnd N%:Z nS Q QDelta w mon = Ok (mkseq u N.+1, m) &
    (mon = [::] <-> m = None) /\ forall m', m = Some m' ->
    (forall x, (x \in dkeys m') = (x \in mon)) /\
    (forall arr, dget "residuals"%string m' = Some arr ->
      size arr = (size qds).+1 /\ (forall k, (k <= size qds)%N -> size (nth [::] arr k) = N) /\
      forall k i, (k <= size qds)%N -> (i < N)%N ->
      nth [::] (nth [::] arr k) i = lcv (residual Q z (u i) (v k i))) /\
    (forall arr, dget "errors"%string m' = Some arr ->
      size arr = (size qds).+1 /\ (forall k, (k <= size qds)%N -> size (nth [::] arr k) = N) /\
      forall k i j, (k <= size qds)%N -> (i < N)%N -> (j < n)%N ->
      nth 0 (nth [::] (nth [::] arr k) i) j =
      nth 0 (lcv (v k i)) j
       - u0 * cexp (lam * (i%:R * (tEnd / N%:R) + tEnd / N%:R * vsum (nth [::] Q j))))
  else solveDahlquistSDC cexp lam u0 tEnd N%:Z nS Q QDelta w mon = Raise LinAlgError.
Proof.
move=> hQ n0 N0 hw eq hm z QD R u v.
have [ks [uk ek ->]] := @solveSDC_E K cexp lam u0 tEnd N nS n Q QDelta qds w mon hQ n0 N0 eq hw hm.
rewrite /all_unit -/z; case: ifP => au; rewrite ?au //; eexists; first by reflexivity.
split; first by split; case: (mon).
case: mon hm ek => [//|x0 mon] hm ek m' [<-].
have shp f : let arr := mk3 (size qds).+1 N f in size arr = (size qds).+1 /\
    (forall k, (k <= size qds)%N -> size (nth [::] arr k) = N) /\
    forall k i, (k <= size qds)%N -> (i < N)%N -> nth [::] (nth [::] arr k) i = f k i :> seq K.
  split; first by rewrite size_mkseq.
  by split=> [k kl|k i kl il]; rewrite nth_mkseq // ?size_mkseq ?nth_mkseq.
have sQ : size Q = n by case/is_shapeP: hQ.
split; first by move=> x; rewrite /dkeys -map_comp map_id ek.
split=> arr; rewrite dget_map; case: ifP => // _ [<-].
  have [s1 [s2 s3]] := shp (history cexp lam u0 (tEnd / N%:R) (mkseq (fun i => i%:R * (tEnd / N%:R)) N.+1) n Q qds w "residuals"%string).
  do 2 (split=> //); move=> k i kl il; rewrite s3 // /history /monval eqxx.
  by rewrite (residE hQ) ?size_lcv // lcvK.
have [s1 [s2 s3]] := shp (history cexp lam u0 (tEnd / N%:R) (mkseq (fun i => i%:R * (tEnd / N%:R)) N.+1) n Q qds w "errors"%string).
do 2 (split=> //); move=> k i j kl il jl; rewrite s3 // /history /monval /sdc_error /vsub.
rewrite [("errors" == _)%string](_ : _ = false) //.
rewrite (nth_map (0, 0)); last by rewrite size_zip size_lcv !size_map sQ minnn.
rewrite nth_zip /=; last by rewrite size_lcv !size_map sQ.
by rewrite (nth_map 0) ?size_map ?sQ // (nth_map [::]) ?sQ // nth_mkseq ?(ltnW il) // ltnS ltnW.
Qed.

(* a residual is zero exactly when the node values solve the collocation problem *)
Theorem C59_residual n Q (z u : K) (v : 'cV_n) :
  lcv (residual Q z u v) = nseq n 0 <-> collocation Q z u v.
Proof.
rewrite -residual0; split=> [e|->].
  apply/matrixP => i j; rewrite ord1 -nth_lcv e nth_nseq ltn_ord !mxE //.
by apply: (@cvl_inj _ n); rewrite ?size_lcv ?size_nseq // lcvK cvl_nseq scale0r.
Qed.

(* monitoring does not change the solution, whatever the arguments; an unknown key is refused *)
Lemma sweeps_neutral lam u0 dt times Q qds k k' i i' u v m m' :
  omapo fst (sdc_sweeps cexp lam u0 dt times Q k i u qds v m) =
  omapo fst (sdc_sweeps cexp lam u0 dt times Q k' i' u qds v m').
Proof.
elim: qds k k' v m m' => [//|A qds ih] k k' v m m' /=; case: sdc_sweep => // x; exact: ih.
Qed.
Lemma steps_neutral lam u0 dt times Q qds w t i i' u m m' :
  omapo fst (sdc_steps cexp lam u0 dt times Q qds w t i u m) =
  omapo fst (sdc_steps cexp lam u0 dt times Q qds w t i' u m').
Proof.
elim: t i i' u m m' => [//|t ih] i i' u m m' /=.
have := sweeps_neutral lam u0 dt times Q qds 0 0 i i' u (nseq (size Q) (1 * u))
  (sdc_monitor cexp lam u0 dt times Q 0 i u (nseq (size Q) (1 * u)) m)
  (sdc_monitor cexp lam u0 dt times Q 0 i' u (nseq (size Q) (1 * u)) m').
case: sdc_sweeps => [[v1 m1]|e]; case: sdc_sweeps => [[v2 m2]|e'] //= [->] //.
case: sdc_update => //= u1; have := ih i.+1 i'.+1 u1 m1 m2.
by case: sdc_steps => [[a b]|e1]; case: sdc_steps => [[c d]|e2] //= [->].
Qed.

Theorem C59_monitoring_neutral lam u0 tEnd (nSteps nS : int) Q (QDelta : qdarg K) w mon :
  {subset mon <= [:: "residuals"; "errors"]%string} ->
  omapo fst (solveDahlquistSDC cexp lam u0 tEnd nSteps nS Q QDelta w mon) =
  omapo fst (solveDahlquistSDC cexp lam u0 tEnd nSteps nS Q QDelta w [::]).
Proof.
move=> hm; rewrite /solveDahlquistSDC; case: (nSteps == 0) => //.
have al : all (fun x => x \in KEYS) mon by apply/allP.
have main (r : outcome K) (B : Type) : True by [].
case: nSteps => [N|[|N]] //; case: qd_sweeps => //= qds.
have := monitorsE (nseq `|nS|.+1 (nseq N (nseq (size Q) (0 : K)))) mon.
rewrite al => -[ks [/= -> _ _]] /=.
set times := mkseq _ _; set m := dmap _ _.
have := steps_neutral lam u0 (tEnd / N%:R) times Q qds w N 0 0 u0 m [::].
by case: sdc_steps => [[a b]|e1]; case: sdc_steps => [[c d]|e2] //= [->].
Qed.

Theorem C59_unknown_key lam u0 tEnd N (nS : int) Q (QDelta : qdarg K) w mon key qds :
  (0 < N)%N -> qd_sweeps (size Q) nS QDelta = Ok qds ->
  key \in mon -> key \notin [:: "residuals"; "errors"]%string ->
  solveDahlquistSDC cexp lam u0 tEnd N%:Z nS Q QDelta w mon = Raise AssertionError.
Proof.
move=> N0 eq km kn; rewrite /solveDahlquistSDC eq; case: N N0 => // N _ /=.
have := monitorsE (nseq `|nS|.+1 (nseq N.+1 (nseq (size Q) (0 : K)))) mon; rewrite ifF /=; first by move->.
by apply/negbTE/allPn; exists key.
Qed.

(* shapes *)
Theorem C59_shapes n Q lam u0 tEnd N (nS : int) w mon : is_shape Q n n -> (0 < N)%N ->
  (forall A, ~~ is_shape A n n ->
     solveDahlquistSDC cexp lam u0 tEnd N%:Z nS Q (QD2 A) w mon = Raise AssertionError) /\
  (forall l, ~~ ((Posz (size l) == nS) && all (fun A => is_shape A n n) l) ->
     solveDahlquistSDC cexp lam u0 tEnd N%:Z nS Q (QD3 l) w mon = Raise AssertionError) /\
  solveDahlquistSDC cexp lam u0 tEnd N%:Z nS Q QDn w mon = Raise AssertionError.
Proof.
move=> /is_shapeP [sQ _] N0; rewrite /solveDahlquistSDC sQ; case: N N0 => // N _.
by split=> [A /negPf|]; [|split=> // l /negPf]; rewrite /qd_sweeps => ->.
Qed.

(* one matrix stands for its repetition *)
Theorem C59_repeat lam u0 tEnd (nSteps : int) k Q A w mon : (0 < k)%N ->
  solveDahlquistSDC cexp lam u0 tEnd nSteps k%:Z Q (QD2 A) w mon =
  solveDahlquistSDC cexp lam u0 tEnd nSteps k%:Z Q (QD3 (nseq k A)) w mon.
Proof.
move=> k0; have eq : qd_sweeps (size Q) k%:Z (QD2 A) = qd_sweeps (size Q) k%:Z (QD3 (nseq k A)).
  by rewrite /qd_sweeps size_nseq eqxx all_nseq (gtn_eqF k0) /=; case: is_shape.
by rewrite /solveDahlquistSDC eq.
Qed.

(* the number of values *)
Theorem C59_size lam u0 tEnd (nSteps nS : int) Q (QDelta : qdarg K) w mon r :
  solveDahlquistSDC cexp lam u0 tEnd nSteps nS Q QDelta w mon = Ok r ->
  exists2 N, nSteps = N.+1%:Z & size r.1 = N.+2 /\ nth 0 r.1 0 = u0.
Proof.
have ob (T S : Type) (o : outcome T) (g : T -> outcome S) y : obind o g = Ok y -> exists2 a, o = Ok a & g a = Ok y.
  by case: o => //= a e; exists a.
have sz dt times qds t i u m r' : sdc_steps cexp lam u0 dt times Q qds w t i u m = Ok r' -> size r'.1 = t.
  elim: t i u m r' => [|t ih] i u m r' /=; first by case=> <-.
  by move=> h; have [s _ h1] := ob _ _ _ _ _ h; have [u1 _ h2] := ob _ _ _ _ _ h1; have [r2 /ih e [<-]] := ob _ _ _ _ _ h2; rewrite /= e.
rewrite /solveDahlquistSDC; case: nSteps => [[|N]|[|N]] //; move=> h; have [qds _ h1] := ob _ _ _ _ _ h => //.
have [m _ h2] := ob _ _ _ _ _ h1; have [r2 /sz e [<-]] := ob _ _ _ _ _ h2.
by exists N => //; split=> //=; rewrite e.
Qed.

(* C61: if the last row of Q are the weights, both updates differ by the last residual *)
Theorem C61_difference n Q v (z u : K) (x : 'cV_n) : is_shape Q n n -> (0 < n)%N -> last [::] Q = v ->
  (u + z * (rvl n v *m x) 0 0) - last 0 (lcv x) = last 0 (lcv (residual Q z u x)).
Proof.
move=> hQ n0 lv; have h : (n.-1 < n)%N by rewrite prednK.
have [sQ _] := is_shapeP _ _ _ hQ.
rewrite -!nth_last !size_lcv -[n.-1]/(nat_of_ord (Ordinal h)) !nth_lcv /residual !mxE.
congr (_ + _ * _ - _); apply: eq_bigr => j _; rewrite !mxE; congr (_ * _).
by rewrite -lv /ent -[last [::] Q]nth_last sQ.
Qed.

Theorem C61_converged n Q v (z u : K) (x : 'cV_n) : is_shape Q n n -> (0 < n)%N -> last [::] Q = v ->
  collocation Q z u x -> u + z * (rvl n v *m x) 0 0 = last 0 (lcv x).
Proof.
move=> hQ n0 lv; rewrite -residual0 => e; apply/eqP; rewrite -subr_eq0 (C61_difference z u x hQ n0 lv) e.
have h : (n.-1 < n)%N by rewrite prednK.
by rewrite -nth_last size_lcv -[n.-1]/(nat_of_ord (Ordinal h)) nth_lcv mxE.
Qed.

(* in particular for the exact sweep *)
Theorem C61_updates n Q v (lam u0 tEnd : K) (nSteps : int) (k : nat) mon : is_shape Q n n -> (0 < n)%N ->
  last [::] Q = v ->
  omapo fst (solveDahlquistSDC cexp lam u0 tEnd nSteps k.+1%:Z Q (QD2 Q) (Some v) mon) =
  omapo fst (solveDahlquistSDC cexp lam u0 tEnd nSteps k.+1%:Z Q (QD2 Q) None mon).
Proof.
move=> hQ n0 lv; have sQ : size Q = n by case/is_shapeP: hQ.
have sv : size v = n.
  by case/is_shapeP: hQ => _ /(_ n.-1); rewrite prednK // => /(_ (leqnn _)); rewrite -sQ nth_last lv.
case al : (all (fun x => x \in [:: "residuals"; "errors"]%string) mon); last first.
  rewrite /solveDahlquistSDC; case: nSteps => [[|N]|[|N]] //; rewrite /= /qd_sweeps sQ hQ //=.
  by have := monitorsE (nseq k.+2 (nseq N.+1 (nseq n (0 : K)))) mon; rewrite /KEYS al /= => ->.
move/allP: al => hm; rewrite !(C59_monitoring_neutral _ _ _ _ _ _ _ _ hm).
case: nSteps => [[|N]|[|N]] //.
have eq : qd_sweeps n k.+1%:Z (QD2 Q) = Ok (nseq k.+1 Q) by rewrite /qd_sweeps hQ.
have N0 : (0 < N.+1)%N by [].
have [ks [_ _ ->]] := @solveSDC_E K cexp lam u0 tEnd N.+1 k.+1 n Q (QD2 Q) _ (Some v) [::] hQ n0 N0 eq sv nomon.
have [ks' [_ _ ->]] := @solveSDC_E K cexp lam u0 tEnd N.+1 k.+1 n Q (QD2 Q) _ None [::] hQ n0 N0 eq I nomon.
rewrite /all_unit size_nseq all_nseq orFb; case: ifP => // un.
rewrite /omapo /fst /snd; congr Ok; apply: eq_mkseq => i; congr (_ ^+ _ * _).
rewrite /sdcR; apply: (C61_converged hQ n0 lv); apply/collocation_stage.
by rewrite sdcv_exact ?nth_nseq ?ltnSn // mulKVmx.
Qed.

(* C57: error recursion *)
Theorem C57_error_recursion n Q (QD : nat -> seq (seq K)) z k (U : 'cV_n) : is_shape Q n n ->
  is_shape (QD k) n n -> collocation Q z 1 U -> stagemx n (QD k) z \in unitmx ->
  stagemx n (QD k) z *m (sdcv n Q QD z k.+1 - U) =
    z *: ((mxl n n Q - mxl n n (QD k)) *m (sdcv n Q QD z k - U)) /\
  sdcv n Q QD z 0 - U = - (z *: (mxl n n Q *m U)).
Proof.
move=> hQ hD cU un; split; last by rewrite {1}cU /= opprD addrA subrr add0r.
rewrite mulmxBr [sdcv _ _ _ _ k.+1]/= mulKVmx //.
have -> : stagemx n (QD k) z *m U = U - z *: (mxl n n (QD k) *m U).
  by rewrite /stagemx mulmxBl mul1mx -scalemxAl.
have -> : const_mx 1 = U - z *: (mxl n n Q *m U) by rewrite {1}cU addrK.
rewrite !mulmxBl !mulmxBr; move: cU => _; move: U (mxl n n _ *m _) (mxl n n _ *m _) (mxl n n _ *m _) (mxl n n _ *m _).
move=> a b c d e; apply/matrixP => i j; rewrite !mxE.
by move: (a i j) (b i j) (c i j) (d i j) (e i j) => *; ring.
Qed.
End Field.
Print Assumptions C56_fixed_point.
Print Assumptions C56_exact.
Print Assumptions C57_error_recursion.
Print Assumptions C59_solution.
Print Assumptions C59_residual.
Print Assumptions C59_monitoring_neutral.
Print Assumptions C59_unknown_key.
Print Assumptions C59_shapes.
Print Assumptions C59_repeat.
Print Assumptions C59_size.
Print Assumptions C61_difference.
Print Assumptions C61_converged.
Print Assumptions C61_updates.

(* Concrete cases: the trapezoidal rule, swept with a lower triangular matrix *)
Notation Qk := qc_fieldType.
Definition sQ : seq (seq Qk) := [:: [:: 0; 0]; [:: qc 1 2; qc 1 2]]%R.
Definition sD : seq (seq Qk) := [:: [:: 0; 0]; [:: 0; qc 1 4]]%R.
Definition sw : seq Qk := [:: qc 1 2; qc 1 2].

Example C56_nonvacuous : is_shape sQ 2 2 /\ is_shape sD 2 2 /\
  sdc_sweep (1 : Qk) 1 sQ 1 sD [:: 1; qc 3 1] = Some [:: 1; qc 3 1]%R /\
  sdc_sweep (1 : Qk) 1 sQ 1 sD [:: 1; 1]%R = Some [:: 1; qc 7 3]%R.
Proof.
split; first by vm_compute.
split; first by vm_compute.
by split; apply/eqP; vm_compute.
Qed.

(* Q is singular for z = 2: the exact sweep and the collocation method fail alike *)
Example C56_exact_nonvacuous :
  omapo fst (solveDahlquistSDC id (1 : Qk) 1 1 2%:Z 1 sQ (QD2 sQ) (Some sw) [::]) = Ok [:: 1; qc 5 3; qc 25 9]%R /\
  omapo fst (solveDahlquistSDC id (2%:R : Qk) 1 1 1 1 sQ (QD2 sQ) (Some sw) [::]) = Raise LinAlgError.
Proof.
split; first by apply: ok_eqP; vm_compute.
by vm_compute.
Qed.

(* two sweeps with different matrices, one step; both monitors (here "exp" is the identity, so the
   monitored error is u - u0 lam t) *)
Example C59_nonvacuous :
  let r := solveDahlquistSDC id (1 : Qk) 1 1 1 2%:Z sQ (QD3 [:: sD; sQ]) (Some sw) [:: "errors"; "residuals"]%string in
  is_ok r /\ omapo fst r = Ok [:: 1; qc 3 1]%R /\
  omapo (fun x => if snd x is Some m then dget "residuals"%string m else None) r =
    Ok (Some [:: [:: [:: 0; 1]]; [:: [:: 0; qc 1 3]]; [:: [:: 0; 0]]])%R /\
  omapo (fun x => if snd x is Some m then dget "errors"%string m else None) r =
    Ok (Some [:: [:: [:: 1; 0]]; [:: [:: 1; qc 4 3]]; [:: [:: 1; qc 2 1]]])%R.
Proof.
split; first by vm_compute.
by split; [|split]; apply: ok_eqP; vm_compute.
Qed.

Example C59_errors_nonvacuous :
  solveDahlquistSDC id (1 : Qk) 1 1 1 2%:Z sQ (QD3 [:: sD]) (Some sw) [::] = Raise AssertionError /\
  solveDahlquistSDC id (1 : Qk) 1 1 1 2%:Z sQ (QD2 [:: [:: 1%R]]) (Some sw) [::] = Raise AssertionError /\
  solveDahlquistSDC id (1 : Qk) 1 1 1 2%:Z sQ (QD2 sD) (Some sw) [:: "steps"]%string = Raise AssertionError /\
  is_ok (solveDahlquistSDC id (1 : Qk) 1 1 1 2%:Z sQ (QD2 sD) (Some sw) [::]).
Proof.
split; first by vm_compute.
split; first by vm_compute.
by split; vm_compute.
Qed.

(* before convergence the updates differ, by the last residual *)
Example C61_nonvacuous : is_shape sQ 2 2 /\ last [::] sQ = sw /\
  omapo fst (solveDahlquistSDC id (1 : Qk) 1 1 1 1 sQ (QD2 sD) (Some sw) [::]) = Ok [:: 1; qc 8 3]%R /\
  omapo fst (solveDahlquistSDC id (1 : Qk) 1 1 1 1 sQ (QD2 sD) None [::]) = Ok [:: 1; qc 7 3]%R /\
  sdc_resid (1 : Qk) 1 sQ [:: 1; qc 7 3]%R = [:: 0; qc 1 3]%R.
Proof.
split; first by vm_compute.
split; first by vm_compute.
by split; [|split]; [apply: ok_eqP; vm_compute|apply: ok_eqP; vm_compute|apply/eqP; vm_compute].
Qed.
