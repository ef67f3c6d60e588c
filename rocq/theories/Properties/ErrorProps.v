(* Property C69: the errors reported by errorDahlquist and errorDahlquistSDC. *)
From Coq Require Import ZArith QArith Qcanon.
From Verif.Base Require Import Str.
From mathcomp Require Import all_ssreflect all_algebra ring zify.
From Verif.Base Require Import QcField Outcome Arr Ext LinSolve.
From Verif.Model Require Import QGen Registry Sdc.
From Verif.Proofs Require Import StabP SdcP.
From Verif.Properties Require Import SdcProps.
Set Implicit Arguments.
Unset Strict Implicit.
Unset Printing Implicit Defensive.
Import GRing.Theory Num.Theory Order.TTheory.
Local Open Scope ring_scope.

Section Error.
Variable K : numFieldType.
Variable cexp : K -> K.
Implicit Types (nodes weights : seq K) (Q : seq (seq K)).

(* Specification: e is the greatest of the numbers f 0, ..., f N *)
Definition greatest (N : nat) (f : nat -> K) (e : K) : Prop :=
  (forall i, (i <= N)%N -> f i <= e) /\ exists2 i, (i <= N)%N & f i = e.
(* the exact solution of u' = lam u, u(0) = u0 after i of N steps, and the error of v there *)
Definition exact_at (lam u0 tEnd : K) (N i : nat) : K := u0 * cexp (lam * (i%:R * (tEnd / N%:R))).
Definition err_at (lam u0 tEnd : K) (N : nat) (v : K) (i : nat) : K := `|v - exact_at lam u0 tEnd N i|.

Lemma norm_inf_ok (v : seq K) : v <> [::] ->
  exists2 e, norm_inf v = Ok e & greatest (size v).-1 (fun i => `|nth 0 v i|) e.
Proof.
case: v => // a v _; rewrite /norm_inf; eexists; first by [].
pose mx (l : seq K) : K := foldr Num.max 0 [seq `|a| | a <- l].
have mxE b l : mx (b :: l) = Num.max `|b| (mx l) by [].
have mx0 : mx [::] = 0 by [].
have -> : foldr Num.max 0 [seq `|a| | a <- a :: v] = mx (a :: v) by [].
clearbody mx.
have ge0 l : 0 <= mx l.
  elim: l => [|b l ih]; first by rewrite mx0.
  by rewrite mxE; case: (real_leP (ger0_real (normr_ge0 b)) (ger0_real ih)).
have key (l : seq K) : (forall i, (i < size l)%N -> `|nth 0 l i| <= mx l) /\
    (mx l = 0 \/ exists2 i, (i < size l)%N & `|nth 0 l i| = mx l).
  elim: l => [|b l [ih1 ih2]]; first by split=> //; left.
  rewrite mxE; have [bm|mb] := real_leP (ger0_real (normr_ge0 b)) (ger0_real (ge0 l)).
    split; first by case=> // i hi; apply: ih1.
    by case: ih2 => [->|[i hi <-]]; [left|right; exists i.+1].
  split; first by case=> // i hi; apply: le_trans (ih1 i hi) (ltW mb).
  by right; exists 0%N.
have [k1 k2] := key (a :: v); split=> [i hi|]; first by apply: k1; rewrite /= ltnS.
case: k2 => [e0|[i hi <-]]; last by exists i.
by exists 0%N => //; apply/eqP; rewrite eq_le (k1 0%N) //= e0 normr_ge0.
Qed.

Lemma size_vsub (u v : seq K) : size u = size v -> size (vsub u v) = size u.
Proof. by move=> e; rewrite /vsub size_map size_zip e minnn. Qed.
Lemma nth_vsub (u v : seq K) i : size u = size v -> nth 0 (vsub u v) i = nth 0 u i - nth 0 v i.
Proof.
move=> e; have [hi|hi] := ltnP i (size u).
  by rewrite /vsub (nth_map (0, 0)) ?size_zip ?e ?minnn -?e // nth_zip.
by rewrite !nth_default ?subr0 // ?size_vsub -?e.
Qed.

Lemma greatest_ext N f g e : (forall i, (i <= N)%N -> f i = g i) -> greatest N f e -> greatest N g e.
Proof. by move=> h [a [i hi b]]; split=> [j hj|]; [rewrite -h // a|exists i => //; rewrite -h]. Qed.
Lemma greatest_uniq N f e e' : greatest N f e -> greatest N f e' -> e = e'.
Proof.
move=> [a [i hi b]] [a' [i' hi' b']]; apply/eqP; rewrite eq_le.
by rewrite -{1}b a' //= -b' a.
Qed.

Lemma error_inf_full lam u0 tEnd N u : size u = N.+1 ->
  exists2 e, error_inf cexp lam u0 tEnd N%:Z u = Ok e &
    greatest N (fun i => err_at lam u0 tEnd N (nth 0 u i) i) e.
Proof.
move=> su; rewrite /error_inf /linspace0 {1}/obind; set ex := [seq _ | t <- _].
have se : size u = size ex by rewrite /ex size_map size_mkseq.
rewrite /vsub_bc se eqxx [obind _ _]/=.
have [|e -> he] := @norm_inf_ok (vsub u ex).
  by move/(congr1 size); rewrite size_vsub // su.
exists e => //; move: he; rewrite size_vsub // su; apply: greatest_ext => i hi.
by rewrite nth_vsub // /err_at /exact_at /ex (nth_map 0) ?size_mkseq // nth_mkseq.
Qed.

Lemma error_inf_one lam u0 tEnd N v :
  exists2 e, error_inf cexp lam u0 tEnd N%:Z [:: v] = Ok e & greatest N (err_at lam u0 tEnd N v) e.
Proof.
case: (posnP N) => [->|N0].
  have [e he ge] := @error_inf_full lam u0 tEnd 0 [:: v] (erefl _).
  by exists e => //; apply: greatest_ext ge => -[].
rewrite /error_inf /linspace0 {1}/obind; set ex := [seq _ | t <- _]; have se : size ex = N.+1 by rewrite /ex size_map size_mkseq.
rewrite /vsub_bc se [size [:: v]]/= eqSS (ltn_eqF N0) /obind eqxx [head _ _]/=.
have [|e -> he] := @norm_inf_ok [seq v - y | y <- ex].
  by move/(congr1 size); rewrite size_map se.
exists e => //; move: he; rewrite size_map se; apply: greatest_ext => i hi.
by rewrite (nth_map 0) ?se // /err_at /exact_at /ex (nth_map 0) ?size_mkseq // nth_mkseq.
Qed.

Lemma error_inf_bad lam u0 tEnd (nSteps : int) u :
  (if nSteps is Posz N then (0 < N)%N && (size u != 1%N) && (size u != N.+1) else true) ->
  error_inf cexp lam u0 tEnd nSteps u = Raise ValueError.
Proof.
case: nSteps => [N /andP [/andP [N0 s1] sN]|[|k] _] //; rewrite /error_inf /linspace0 {1}/obind.
  rewrite /vsub_bc size_map size_mkseq (negbTE s1) (negbTE sN).
  by rewrite eqSS (gtn_eqF N0).
by case: u => [|a [|b u]].
Qed.

(* the error of the solution computed by solveDahlquist: the greatest of the absolute errors after
   0, 1, ..., N steps; it raises exactly what solveDahlquist raises *)
Theorem C69_error nodes weights we Q lam u0 tEnd (nSteps : int) b e :
  errorDahlquist cexp nodes weights we Q lam u0 tEnd nSteps None b = Ok e <->
  exists N u, [/\ nSteps = N%:Z, solveDahlquist nodes weights we Q lam u0 tEnd nSteps b = Ok u &
    greatest N (fun i => err_at lam u0 tEnd N (nth 0 u i) i) e].
Proof.
rewrite /errorDahlquist.
have sz u : solveDahlquist nodes weights we Q lam u0 tEnd nSteps b = Ok u -> exists2 N, nSteps = N%:Z & size u = N.+1.
  rewrite /solveDahlquist; set W := if b then _ else _; case: W => //= w.
  case: nSteps => [[|N]|[|k]] // ; set A := msub _ _; set z := lam * _ => h; exists N.+1 => //; move: h.
  have loop n v t r : dahl_loop n A w z v t = Ok r -> size r = t.
    elim: t v r => [|t ih] v r /=; first by case=> <-.
    case: solve => // st; case: ifP => // _.
    by case E: dahl_loop => [r'|] //= [<-] /=; rewrite (ih _ _ E).
  by case E: dahl_loop => [r'|] //= [<-] /=; rewrite (loop _ _ _ _ E).
case E: solveDahlquist => [u|x] /=; last by split=> // -[N [u [_ h _]]].
have [N nE su] := sz u E; rewrite nE.
have [e' -> ge] := error_inf_full lam u0 tEnd su; split.
  by case=> <-; exists N, u.
by case=> M [v [[eM] [ev] ge']]; rewrite -eM -ev in ge'; rewrite (greatest_uniq ge ge').
Qed.
Theorem C69_error_raises nodes weights we Q lam u0 tEnd (nSteps : int) b x :
  errorDahlquist cexp nodes weights we Q lam u0 tEnd nSteps None b = Raise x <->
  solveDahlquist nodes weights we Q lam u0 tEnd nSteps b = Raise x.
Proof.
split=> [h|]; last by rewrite /errorDahlquist => ->.
case E: solveDahlquist => [u|y]; last by move: h; rewrite /errorDahlquist E /=; case=> ->.
have [N [nE su]] : exists N, nSteps = N%:Z /\ size u = N.+1.
  move: E {h}; rewrite /solveDahlquist; set W := if b then _ else _; case: W => //= w.
  case: nSteps => [[|N]|[|k]] // ; set A := msub _ _; set z := lam * _ => h; exists N.+1; split=> //; move: h.
  have loop n v t r : dahl_loop n A w z v t = Ok r -> size r = t.
    elim: t v r => [|t ih] v r /=; first by case=> <-.
    case: solve => // st; case: ifP => // _.
    by case F: dahl_loop => [r'|] //= [<-] /=; rewrite (ih _ _ F).
  by case F: dahl_loop => [r'|] //= [<-] /=; rewrite (loop _ _ _ _ F).
have [e he _] := error_inf_full lam u0 tEnd su.
by move: h; rewrite /errorDahlquist E /= nE he.
Qed.

(* the same for errorDahlquistSDC *)
Theorem C69_errorSDC lam u0 tEnd (nSteps nS : int) Q (QDelta : qdarg K) w e :
  errorDahlquistSDC cexp lam u0 tEnd nSteps nS Q QDelta w None = Ok e <->
  exists N r, [/\ nSteps = N%:Z, solveDahlquistSDC cexp lam u0 tEnd nSteps nS Q QDelta w [::] = Ok r &
    greatest N (fun i => err_at lam u0 tEnd N (nth 0 r.1 i) i) e].
Proof.
rewrite /errorDahlquistSDC.
case E: solveDahlquistSDC => [r|x] /=; last by split=> // -[N [u [_ h _]]].
have [N nE [su _]] := C59_size E; rewrite nE.
have [e' -> ge] := error_inf_full lam u0 tEnd su; split.
  by case=> <-; exists N.+1, r.
by case=> M [v [[eM] [ev] ge']]; rewrite -eM -ev in ge'; rewrite (greatest_uniq ge ge').
Qed.
Theorem C69_errorSDC_raises lam u0 tEnd (nSteps nS : int) Q (QDelta : qdarg K) w x :
  errorDahlquistSDC cexp lam u0 tEnd nSteps nS Q QDelta w None = Raise x <->
  solveDahlquistSDC cexp lam u0 tEnd nSteps nS Q QDelta w [::] = Raise x.
Proof.
split=> [h|]; last by rewrite /errorDahlquistSDC => ->.
case E: solveDahlquistSDC => [r|y]; last by move: h; rewrite /errorDahlquistSDC E /=; case=> ->.
have [N nE [su _]] := C59_size E; have [e he _] := error_inf_full lam u0 tEnd su.
by move: h; rewrite /errorDahlquistSDC E /= nE he.
Qed.

(* a solution that is given is used instead; neither function then depends on the method.  With
   N+1 values the error is that of these values; any other number of them raises ValueError *)
Theorem C69_given nodes weights we Q lam u0 tEnd N b (nS : int) Q' (QDelta : qdarg K) w u : size u = N.+1 ->
  exists e, [/\ errorDahlquist cexp nodes weights we Q lam u0 tEnd N%:Z (Some u) b = Ok e,
    errorDahlquistSDC cexp lam u0 tEnd N%:Z nS Q' QDelta w (Some u) = Ok e &
    greatest N (fun i => err_at lam u0 tEnd N (nth 0 u i) i) e].
Proof. by move=> su; have [e he ge] := error_inf_full lam u0 tEnd su; exists e. Qed.
Theorem C69_given_wrong_size nodes weights we Q lam u0 tEnd (nSteps : int) b (nS : int) Q' (QDelta : qdarg K) w u :
  (forall N : nat, nSteps = N%:Z -> (0 < N)%N /\ size u <> 1%N /\ size u <> N.+1) ->
  errorDahlquist cexp nodes weights we Q lam u0 tEnd nSteps (Some u) b = Raise ValueError /\
  errorDahlquistSDC cexp lam u0 tEnd nSteps nS Q' QDelta w (Some u) = Raise ValueError.
Proof.
move=> h; have -> : errorDahlquistSDC cexp lam u0 tEnd nSteps nS Q' QDelta w (Some u) =
  errorDahlquist cexp nodes weights we Q lam u0 tEnd nSteps (Some u) b by [].
suff e : errorDahlquist cexp nodes weights we Q lam u0 tEnd nSteps (Some u) b = Raise ValueError by rewrite e.
apply: error_inf_bad; case: nSteps h => // N /(_ N (erefl _)) [-> [/eqP -> /eqP ->]] //.
Qed.
(* ... except that a single value is compared with the exact solution at every time *)
Theorem C69_given_size_refuted nodes weights we Q lam u0 tEnd N b (nS : int) Q' (QDelta : qdarg K) w v :
  exists e, [/\ errorDahlquist cexp nodes weights we Q lam u0 tEnd N%:Z (Some [:: v]) b = Ok e,
    errorDahlquistSDC cexp lam u0 tEnd N%:Z nS Q' QDelta w (Some [:: v]) = Ok e &
    greatest N (err_at lam u0 tEnd N v) e].
Proof. by have [e he ge] := error_inf_one lam u0 tEnd N v; exists e. Qed.

(* the error is never negative, and it is zero exactly when every value is exact *)
Theorem C69_zero lam u0 tEnd N (v : nat -> K) e : greatest N (fun i => err_at lam u0 tEnd N (v i) i) e ->
  0 <= e /\ (e = 0 <-> forall i, (i <= N)%N -> v i = exact_at lam u0 tEnd N i).
Proof.
move=> [h [i hi ei]]; rewrite -ei in h *; split; first exact: normr_ge0.
split=> [e0 j hj|a]; last by rewrite /err_at a // subrr normr0.
move: (h j hj); rewrite /= e0 => h0; apply/eqP; rewrite -subr_eq0 -normr_eq0.
by rewrite eq_le h0 normr_ge0.
Qed.
End Error.


(* two steps of forward Euler for u' = u, with a quadratic approximation of exp: errors 0, 1/8, 1/4;
   a given solution of another length; a single value *)
Notation Qk := qc_realFieldType.
Definition exp2 (t : Qk) : Qk := 1 + t + t * t / 2%:R.
Example C69_nonvacuous :
  let fe := errorDahlquist exp2 [:: 0%R] [:: 1%R] (Raise NotImplementedError) [:: [:: 0%R]] (1 : Qk) 1 1 (Posz 2) in
  solveDahlquist [:: 0%R] [:: 1%R] (Raise NotImplementedError) [:: [:: 0%R]] (1 : Qk) 1 1 (Posz 2) false
    = Ok [:: 1%R; qc 3 2; qc 9 4] /\
  fe None false = Ok (qc 1 4) /\ fe None true = Raise NotImplementedError /\
  fe (Some [:: 1%R; qc 13 8; qc 5 2]) false = Ok 0%R /\
  fe (Some [:: 1%R; qc 13 8]) false = Raise ValueError /\
  fe (Some [:: 1%R]) false = Ok (qc 3 2).
Proof.
move=> fe; split; first by apply: ok_eqP; vm_compute.
split; first by apply: ok_eqP; vm_compute.
split; first by vm_compute.
split; first by apply: ok_eqP; vm_compute.
split; first by vm_compute.
by apply: ok_eqP; vm_compute.
Qed.
Example C69_sdc_nonvacuous :
  errorDahlquistSDC exp2 (1 : Qk) 1 1 (Posz 2) (Posz 1) [:: [:: 1%R]] (QD2 [:: [:: 0%R]]) None None = Ok (qc 1 4) /\
  errorDahlquistSDC exp2 (1 : Qk) 1 1 (Posz 2) (Posz 1) [:: [:: 1%R]] (QD2 [:: [:: 2%:R]]) None None = Raise LinAlgError.
Proof.
split; first by apply: ok_eqP; vm_compute.
by vm_compute.
Qed.

Print Assumptions C69_error.
Print Assumptions C69_error_raises.
Print Assumptions C69_errorSDC.
Print Assumptions C69_errorSDC_raises.
Print Assumptions C69_given.
Print Assumptions C69_given_wrong_size.
Print Assumptions C69_given_size_refuted.
Print Assumptions C69_zero.
