(* Proofs about spectral deferred corrections. *)
From Verif.Base Require Import Str.
From mathcomp Require Import all_ssreflect all_algebra ring zify.
From Verif.Base Require Import Outcome Arr LinSolve.
From Verif.Model Require Import QGen Registry Sdc.
From Verif.Spec Require Import QCoeffSpec SdcSpec.
From Verif.Proofs Require Import StabP.
Set Implicit Arguments.
Unset Strict Implicit.
Unset Printing Implicit Defensive.
Import GRing.Theory Num.Theory Order.TTheory.
Local Open Scope ring_scope.

Section Sweep.
Variable K : fieldType.
Variables (n : nat) (Q : seq (seq K)).
Hypothesis hQ : is_shape Q n n.

Lemma cvl_addc (u : K) (s : seq K) : size s = n -> cvl n [seq u + x | x <- s] = const_mx u + cvl n s.
Proof. by move=> ss; apply/matrixP => i j; rewrite !mxE (nth_map 0) ?ss. Qed.

Lemma sizeQ : size Q = n. Proof. by case/is_shapeP: hQ. Qed.

Lemma sweepE (lam dt u : K) QD v : is_shape QD n n -> size v = n ->
  sdc_sweep lam dt Q u QD v =
  if stagemx n QD (lam * dt) \in unitmx then
    Some (lcv (invmx (stagemx n QD (lam * dt)) *m
       (const_mx u + lam * dt *: ((mxl n n Q - mxl n n QD) *m cvl n v))))
  else None.
Proof.
move=> hD sv; rewrite /sdc_sweep sizeQ.
have hs : is_shape (mscale (lam * dt) (msub Q QD)) n n by apply/mscale_shape/msub_shape.
have sb : size [seq u + x | x <- mv (mscale (lam * dt) (msub Q QD)) v] = n.
  by rewrite size_map size_mv; case/is_shapeP: hs.
rewrite (@solveE _ _ _ n) //; last by exact: amat_shape.
rewrite -/(amat n QD (lam * dt)) (mxl_amat (lam * dt) hD); case: ifP => // _; congr (Some (lcv (_ *m _))).
rewrite cvl_addc; last by rewrite size_mv; case/is_shapeP: hs.
by rewrite (cvl_mv hs sv) (@mxl_mscale _ _ _ n n) ?(mxl_msub hQ hD) ?msub_shape // scalemxAl.
Qed.

Lemma residE (z u : K) v : size v = n -> sdc_resid z u Q v = lcv (residual Q z u (cvl n v)).
Proof.
move=> sv; have hs : is_shape (mscale z Q) n n by apply/mscale_shape.
have sm : size (mv (mscale z Q) v) = n by rewrite size_mv; case/is_shapeP: hs.
have sr : size (sdc_resid z u Q v) = n by rewrite size_map size_zip size_map sm sv minnn.
rewrite -[LHS](cvlK sr); congr lcv; apply/matrixP => i j; rewrite mxE /sdc_resid /vsub.
have sQ : size Q = n by case/is_shapeP: hQ.
rewrite (nth_map (0, 0)); last by rewrite size_zip size_map sm sv minnn.
rewrite nth_zip /=; last by rewrite size_map sm sv.
rewrite (nth_map 0) ?sm // (_ : residual Q z u (cvl n v) = const_mx u + mxl n n (mscale z Q) *m cvl n v - cvl n v); last first.
  by rewrite /residual (@mxl_mscale _ _ _ n n) // scalemxAl.
by rewrite -cvl_mv // !mxE.
Qed.

Lemma residual0 (z u : K) (v : 'cV_n) : residual Q z u v = 0 <-> collocation Q z u v.
Proof.
rewrite /residual /collocation; split=> [/eqP|e]; first by rewrite subr_eq0 => /eqP.
by apply/eqP; rewrite subr_eq0 -e.
Qed.

Lemma collocation_stage (z u : K) (v : 'cV_n) :
  collocation Q z u v <-> stagemx n Q z *m v = const_mx u.
Proof.
rewrite /collocation /stagemx mulmxBl mul1mx -scalemxAl; split=> [e|<-]; last by rewrite subrK.
by rewrite {1}e addrK.
Qed.
End Sweep.

(* arrays with two leading dimensions given entry by entry *)
Section Arr3.
Variable K : fieldType.
Definition mk3 (S N : nat) (f : nat -> nat -> seq K) : seq (seq (seq K)) :=
  mkseq (fun k => mkseq (f k) N) S.
Lemma mk3_ext S N f g : (forall k i, (k < S)%N -> (i < N)%N -> f k i = g k i) -> mk3 S N f = mk3 S N g.
Proof.
move=> h; apply: (@eq_from_nth _ [::]); rewrite !size_mkseq // => k kl; rewrite !nth_mkseq //.
by apply: (@eq_from_nth _ [::]); rewrite !size_mkseq // => i il; rewrite !nth_mkseq // h.
Qed.
Lemma set3E S N f k i v : (k < S)%N -> (i < N)%N ->
  set3 (mk3 S N f) k i v = mk3 S N (fun k' i' => if (k' == k) && (i' == i) then v else f k' i').
Proof.
move=> kl il; apply: (@eq_from_nth _ [::]).
  by rewrite size_set_nth !size_mkseq; apply/maxn_idPr.
rewrite size_set_nth size_mkseq (maxn_idPr kl) => k' kl'.
rewrite nth_set_nth /= [in RHS]nth_mkseq //; case: (k' =P k) => [->|ne] /=; last by rewrite nth_mkseq.
rewrite nth_mkseq //; apply: (@eq_from_nth _ [::]).
  by rewrite size_set_nth !size_mkseq; apply/maxn_idPr.
rewrite size_set_nth size_mkseq (maxn_idPr il) => i' il'.
by rewrite nth_set_nth /= [in RHS]nth_mkseq //; case: (i' =P i) => // _; rewrite nth_mkseq.
Qed.
Lemma mk3_zeros S N c : nseq S (nseq N c) = mk3 S N (fun _ _ => c).
Proof.
apply: (@eq_from_nth _ [::]); rewrite ?size_nseq ?size_mkseq // => k kl.
rewrite nth_nseq kl nth_mkseq //; apply: (@eq_from_nth _ [::]); rewrite ?size_nseq ?size_mkseq // => i il.
by rewrite nth_nseq il nth_mkseq.
Qed.
End Arr3.

Section DictMap.
Variable V : Type.
Definition dmap (keys : seq string) (g : string -> V) : dict V := [seq (x, g x) | x <- keys].
Lemma dget_map keys g x : dget x (dmap keys g) = if x \in keys then Some (g x) else None.
Proof.
elim: keys => [//|y keys ih] /=; rewrite inE; case: (x =P y) => [->|_] //=; exact: ih.
Qed.
Lemma dset_map keys g x v : uniq keys -> x \in keys ->
  dset x v (dmap keys g) = dmap keys (fun y => if y == x then v else g y).
Proof.
elim: keys => [//|y keys ih] /= /andP [yk uk]; rewrite inE; case: (x =P y) => [e _|ne /= xk].
  rewrite -e eqxx; congr cons; apply/eq_in_map => y' y'k; case: (y' =P x) => // e'.
  by move: yk; rewrite -e -e' y'k.
by rewrite ih // ifF //; apply/eqP => e; apply: ne.
Qed.
Lemma dset_mapN keys g x v : x \notin keys ->
  dset x v (dmap keys g) = rcons (dmap keys g) (x, v).
Proof.
elim: keys => [//|y keys ih] /=; rewrite inE negb_or => /andP [/negPf ne xk].
by rewrite ne ih.
Qed.
Lemma dmap_ext keys g h : {in keys, g =1 h} -> dmap keys g = dmap keys h.
Proof. by move=> e; apply/eq_in_map => x xk; rewrite e. Qed.
End DictMap.

Section Run.
Variable K : fieldType.
Variable cexp : K -> K.
Variables (lam u0 dt : K) (times : seq K) (n : nat) (Q : seq (seq K)).
Hypothesis hQ : is_shape Q n n.
Variables (S N : nat).
Let z := lam * dt.
Let nodes := map (@vsum K) Q.

(* the recorded value *)
Definition monval (key : string) (i : nat) (u : K) (v : seq K) : seq K :=
  if key == "residuals"%string then sdc_resid z u Q v
  else sdc_error cexp lam u0 (nth 0 times i) dt nodes v.

Definition KEYS := [:: "residuals"; "errors"]%string.

Lemma monitorE keys f k i u v : uniq keys -> {subset keys <= KEYS} -> (k < S)%N -> (i < N)%N ->
  sdc_monitor cexp lam u0 dt times Q k i u v (dmap keys (fun x => mk3 S N (f x))) =
  dmap keys (fun x => mk3 S N (fun k' i' => if (k' == k) && (i' == i) then monval x i u v else f x k' i')).
Proof.
move=> uk sk kl il; rewrite /sdc_monitor dget_map.
set m := (X in dget "errors" X). rewrite -/m.
have -> : m = dmap keys (fun x => mk3 S N (fun k' i' =>
    if (x == "residuals"%string) && ((k' == k) && (i' == i)) then monval x i u v else f x k' i')).
  rewrite /m; case: ifP => ik.
    cbv iota beta; rewrite dset_map // set3E //; apply: dmap_ext => x xk; case: (x =P _) => [->|ne] //=.
  by apply: dmap_ext => x xk; case: (x =P _) => // e; move: ik; rewrite -e xk.
rewrite dget_map; case: ifP => ik.
  rewrite dset_map // set3E //; apply: dmap_ext => x xk; case: (x =P _) => [->|ne] //=.
  have := sk _ xk; rewrite !inE => /orP [] /eqP // ->; by rewrite eqxx.
apply: dmap_ext => x xk; have := sk _ xk; rewrite !inE => /orP [] /eqP e; first by rewrite e eqxx.
by move: ik; rewrite -e xk.
Qed.

Variable qds : seq (seq (seq K)).
Let QD j := nth [::] qds j.
Hypothesis hqds : forall j, (j < size qds)%N -> is_shape (QD j) n n.
Hypothesis hS : S = (size qds).+1.

Definition all_unit := all (fun A => stagemx n A z \in unitmx) qds.

Lemma scale_const (u : K) : const_mx u = u *: const_mx 1 :> 'cV[K]_n.
Proof. by apply/matrixP => i j; rewrite !mxE mulr1. Qed.

Lemma sweep_scaled u j (v : 'cV[K]_n) : (j < size qds)%N ->
  sdc_sweep lam dt Q u (QD j) (lcv (u *: v)) =
  if stagemx n (QD j) z \in unitmx then
    Some (lcv (u *: (invmx (stagemx n (QD j) z) *m
       (const_mx 1 + z *: ((mxl n n Q - mxl n n (QD j)) *m v)))))
  else None.
Proof.
move=> jl; rewrite (sweepE hQ) ?size_lcv ?hqds // lcvK -/z; case: ifP => // _.
by rewrite scale_const -!scalemxAr scalerA mulrC -scalerA -scalerDr -scalemxAr.
Qed.

Lemma sweepsE keys f u i j : uniq keys -> {subset keys <= KEYS} -> (i < N)%N ->
  (j <= size qds)%N -> 
  sdc_sweeps cexp lam u0 dt times Q j i u (drop j qds) (lcv (u *: sdcv n Q QD z j))
     (dmap keys (fun x => mk3 S N (f x))) =
  if all (fun A => stagemx n A z \in unitmx) (drop j qds) then
    Ok (lcv (u *: sdcv n Q QD z (size qds)),
        dmap keys (fun x => mk3 S N (fun k' i' =>
          if (i' == i) && (j < k')%N then monval x i u (lcv (u *: sdcv n Q QD z k')) else f x k' i')))
  else Raise LinAlgError.
Proof.
move=> uk sk il; move e : (size qds - j)%N => d; elim: d j f e => [|d ih] j f e jl.
  have -> : j = size qds by lia.
  rewrite drop_size /=; congr (Ok (_, _)); apply: dmap_ext => x _; apply: mk3_ext => k' i' kl' il'.
  by rewrite ifF //; apply/negbTE; rewrite negb_and; apply/orP; right; rewrite -leqNgt -ltnS -hS.
have jl' : (j < size qds)%N by lia.
rewrite (drop_nth [::] jl') /= -/(QD j) sweep_scaled //; case: ifP => //= un.
rewrite monitorE //; last by rewrite hS.
rewrite -/(sdcv n Q QD z j.+1) ih //; last by lia.
case: ifP => // _; congr (Ok (_, _)); apply: dmap_ext => x _; apply: mk3_ext => k' i' kl' il'.
case: (i' =P i) => [->|ne] /=; last by rewrite andbF.
rewrite andbT; case: (ltngtP j.+1 k') => h //=.
by rewrite -h.
Qed.
End Run.

Section Steps.
Variable K : fieldType.
Variable cexp : K -> K.
Variables (lam u0 dt : K) (times : seq K) (n : nat) (Q : seq (seq K)) (qds : seq (seq (seq K))).
Hypothesis hQ : is_shape Q n n.
Let QD j := nth [::] qds j.
Hypothesis hqds : forall j, (j < size qds)%N -> is_shape (QD j) n n.
Variable w : option (seq K).
Hypothesis n0 : (0 < n)%N.
Hypothesis hw : if w is Some w then size w = n else True.
Variable N : nat.
Let z := lam * dt.
Let S := (size qds).+1.
Let R := sdcR n Q QD w z (size qds).

Lemma updateE u : sdc_update lam dt w u (lcv (u *: sdcv n Q QD z (size qds))) = Ok (R * u).
Proof.
rewrite /sdc_update /R /sdcR; move: hw; case: w => [v sv|_].
  rewrite size_lcv sv eqxx dot_rvl // -scalemxAr mxE; congr Ok.
  by rewrite mulrDl mul1r; congr (_ + _); rewrite mulrCA [RHS]mulrC.
set x := sdcv _ _ _ _ _; have sx := size_lcv (u *: x).
case e : (lcv (u *: x)) => [|a s]; first by exfalso; move: sx; rewrite e /= => h; move: n0; rewrite -h.
congr Ok; rewrite -[last a s]/(last 0 (a :: s)) -e -!nth_last !size_lcv.
have h : (n.-1 < n)%N by rewrite prednK.
by rewrite -[n.-1]/(nat_of_ord (Ordinal h)) !nth_lcv mxE mulrC.
Qed.

Definition history (x : string) (k i : nat) : seq K :=
  monval cexp lam u0 dt times Q x i (R ^+ i * u0) (lcv ((R ^+ i * u0) *: sdcv n Q QD z k)).

Lemma stepsE keys f todo i : uniq keys -> {subset keys <= KEYS} -> (i + todo = N)%N ->
  sdc_steps cexp lam u0 dt times Q qds w todo i (R ^+ i * u0) (dmap keys (fun x => mk3 S N (f x))) =
  if (todo == 0)%N || all_unit lam dt n qds then
    Ok (mkseq (fun j => R ^+ (i + j).+1 * u0) todo,
        dmap keys (fun x => mk3 S N (fun k i' => if (i <= i')%N then history x k i' else f x k i')))
  else Raise LinAlgError.
Proof.
move=> uk sk; elim: todo i f => [|t ih] i f e.
  rewrite /=; congr (Ok (_, _)); apply: dmap_ext => x _; apply: mk3_ext => k i' _ il'.
  by rewrite ifF //; lia.
rewrite /= (sizeQ hQ) mul1r; set u := R ^+ i * u0.
have il : (i < N)%N by lia.
rewrite monitorE //.
have -> : nseq n u = lcv (u *: sdcv n Q QD z 0).
  by apply: (@cvl_inj _ n); rewrite ?size_nseq ?size_lcv // lcvK cvl_nseq.
have := @sweepsE K cexp lam u0 dt times n Q hQ S N qds hqds erefl keys; rewrite -/QD -/z => sw.
rewrite -[X in sdc_sweeps _ _ _ _ _ _ _ _ _ X _ _]drop0 sw //= drop0 -/(all_unit lam dt n qds); case: ifP => // au.
rewrite [obind _ _]/= updateE [obind _ _]/= /u mulrA -exprS ih ?au ?orbT //=; last by lia.
rewrite mkseq_S addn0; congr (Ok (_ :: _, _)).
  by apply: eq_mkseq => j; rewrite addSnnS.
apply: dmap_ext => x _; apply: mk3_ext => k i' _ il'.
case: (ltngtP i i') => [//|h|h]; first by rewrite andbF.
rewrite /history -h /=.
by case: k.
Qed.

End Steps.

Section Solve.
Variable K : fieldType.
Variable cexp : K -> K.

Lemma monitors_gen (zs : seq (seq (seq K))) keys ks0 : uniq ks0 ->
  if all (fun x => x \in KEYS) keys then
    exists ks, [/\ sdc_monitors zs (dmap ks0 (fun=> zs)) keys = Ok (dmap ks (fun=> zs)),
                   uniq ks & forall x, (x \in ks) = (x \in ks0) || (x \in keys)]
  else sdc_monitors zs (dmap ks0 (fun=> zs)) keys = Raise AssertionError.
Proof.
elim: keys ks0 => [|key keys ih] ks0 u0 /=.
  by exists ks0; split=> // x; rewrite orbF.
rewrite -/KEYS; case: (boolP (key \in KEYS)) => //= kk.
case: (boolP (key \in ks0)) => kin.
  rewrite dset_map // (@dmap_ext _ _ _ (fun=> zs)); last by move=> x _; case: ifP.
  have := ih _ u0; case: ifP => // _ [ks [h1 h2 h3]]; exists ks; split=> // x.
  by rewrite h3 inE; case: (x =P key) => // ->; rewrite kin.
have -> : dset key zs (dmap ks0 (fun=> zs)) = dmap (rcons ks0 key) (fun=> zs).
  by rewrite dset_mapN // /dmap map_rcons.
have := ih (rcons ks0 key); rewrite rcons_uniq kin u0 => /(_ isT); case: ifP => // _ [ks [h1 h2 h3]].
by exists ks; split=> // x; rewrite h3 mem_rcons !inE; case: (x \in ks0); rewrite ?orbT ?orbF //= -orbA.
Qed.

Lemma monitorsE (zs : seq (seq (seq K))) keys :
  if all (fun x => x \in KEYS) keys then
    exists ks, [/\ sdc_monitors zs [::] keys = Ok (dmap ks (fun=> zs)), uniq ks & ks =i keys]
  else sdc_monitors zs [::] keys = Raise AssertionError.
Proof.
have := @monitors_gen zs keys [::] isT; case: ifP => // _ [ks [h1 h2 h3]]; exists ks; split=> // x; exact: h3.
Qed.

Lemma qds_ok n nS QDelta (qds : seq (seq (seq K))) : qd_sweeps n nS QDelta = Ok qds ->
  nS = (size qds)%:Z /\ forall j, (j < size qds)%N -> is_shape (nth [::] qds j) n n.
Proof.
case: QDelta => [A|l|] //=.
  case: ifP => // sh; case: nS => // k [<-]; rewrite size_nseq; split=> // j jl.
  by rewrite nth_nseq jl.
by case: ifP => // /andP [/eqP <- /allP al] [<-]; split=> // j jl; apply: al; apply: mem_nth.
Qed.

Variables (lam u0 tEnd : K) (N : nat) (nS : int) (n : nat) (Q : seq (seq K)) (QDelta : qdarg K).
Variables (qds : seq (seq (seq K))) (w : option (seq K)) (mon : seq string).
Hypothesis hQ : is_shape Q n n.
Hypothesis n0 : (0 < n)%N.
Hypothesis N0 : (0 < N)%N.
Hypothesis eqd : qd_sweeps n nS QDelta = Ok qds.
Hypothesis hw : if w is Some w then size w = n else True.
Hypothesis hm : {subset mon <= KEYS}.
Let QD j := nth [::] qds j.
Let dt := tEnd / N%:R.
Let z := lam * dt.
Let R := sdcR n Q QD w z (size qds).
Let times := mkseq (fun i => i%:R * (tEnd / N%:R)) N.+1.

Lemma solveSDC_E : exists ks, [/\ uniq ks, ks =i mon &
  solveDahlquistSDC cexp lam u0 tEnd N%:Z nS Q QDelta w mon =
  if all_unit lam dt n qds then
    Ok (mkseq (fun i => R ^+ i * u0) N.+1,
        if mon is [::] then None else
        Some (dmap ks (fun x => mk3 (size qds).+1 N (history cexp lam u0 dt times n Q qds w x))))
  else Raise LinAlgError].
Proof.
have [eS hqds] := qds_ok eqd.
rewrite /solveDahlquistSDC (sizeQ hQ) eqd; have -> : (N%:Z == 0) = false by apply/eqP; lia.
have ob A B (a : A) (g : A -> outcome B) : obind (Ok a) g = g a by [].
rewrite ob eS (_ : absz N = N) // (_ : absz (size qds) = size qds) //.
have -> : nseq (size qds).+1 (nseq N (nseq n 0)) = mk3 (size qds).+1 N (fun _ _ => nseq n (0 : K)).
  exact: mk3_zeros.
have al : all (fun x => x \in KEYS) mon by apply/allP.
have := monitorsE (mk3 (size qds).+1 N (fun _ _ => nseq n (0 : K))) mon.
rewrite al => -[ks [em uk ek]]; exists ks; split=> //; rewrite em ob.
have sk : {subset ks <= KEYS} by move=> x; rewrite ek; apply: hm.
have := @stepsE K cexp lam u0 dt times n Q qds hQ hqds w n0 hw N ks (fun _ _ _ => nseq n 0) N 0 uk sk erefl.
rewrite expr0 mul1r (gtn_eqF N0) orFb -/times -/dt => ->; case: ifP => // au. rewrite ob /fst /snd.
rewrite [in RHS]mkseq_S expr0 mul1r; congr (Ok (_, _)).
by case: mon ek {al} => [|x s] ek; case: (ks) ek => [|y t] // ek; [have := ek y|have := ek x]; rewrite !inE eqxx.
Qed.
End Solve.
