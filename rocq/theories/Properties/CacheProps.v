(* Properties C47 and C48: the cache of the QDelta generators, and sharing of arrays. *)
From Coq Require Import ZArith QArith Qcanon.
From Verif.Base Require Import Str.
From mathcomp Require Import all_ssreflect all_algebra.
From Verif.Base Require Import QcField Outcome Arr Ext.
From Verif.Model Require Import Lagrange QGen Nodes Collocation Sweeps Cache.
From Verif.Spec Require Import CacheSpec.
From Verif.Proofs Require Import CacheP.
From Verif.Properties Require Import CollProps DiagProps.
Set Implicit Arguments.
Unset Strict Implicit.
Unset Printing Implicit Defensive.
Import GRing.Theory Num.Theory Order.TTheory.

(* the premises on classes hold for the registered classes *)
Section Classes.
Variable V : Type.
Lemma kindep_ok (f : V -> outcome V) : class_ok (cls_kindep f).
Proof. by split. Qed.
Lemma kdep_ok (f : option int -> V -> outcome V) : class_ok (cls_kdep f).
Proof. by split. Qed.
End Classes.

Section Flex.
Local Open Scope ring_scope.
Variable F : realFieldType.
Variables (fpi : F) (eigh : seq F -> seq F -> seq F) (fsqrt flog fexp : F -> F) (underflow : seq F -> bool).
Variables (leggauss roots_legendre fejer : nat -> outcome (seq F * seq F)).
Variables (fsolve : (seq F -> seq F) -> seq F -> seq F) (fitlaw : seq F -> seq F -> F * F) (fpow : F -> F -> F).
Notation flex := (qd_MIN_SR_FLEX fpi eigh fsqrt flog fexp underflow leggauss roots_legendre fejer fsolve fitlaw fpow).
Definition flex_cls (nt qt : string) (c : coll F) : cls (seq (seq F)) :=
  cls_flex (size (co_nodes c)) (fun k _ => flex nt qt c k).
Lemma flex_ok nt qt c : class_ok (flex_cls nt qt c).
Proof.
split=> // k k' v /=.
have big (m : int) : (size (co_nodes c))%:Z < m ->
    flex nt qt c (Some m) = qd_MIN_SR_S fpi eigh fsqrt flog fexp underflow leggauss roots_legendre fejer
      fsolve fitlaw fpow nt qt c None.
  move=> nm; rewrite /qd_MIN_SR_FLEX /check_k.
  have -> : (m < 1) = false by case: m nm => // -[].
  by rewrite [obind _ _]/= leNgt nm.
by case: k => [[m|]|] //; case: k' => [[m'|]|] // h h'; rewrite !big.
Qed.
End Flex.

(* C47. In every history of calls, where the user changes in place only arrays they know (the
   list U at the beginning, and those returned by copying calls later), every call returns the
   value, or raises the exception, that the class has for its arguments and the initial
   parameters. *)
Theorem C47_cache_transparent V (v0 : V) (smatV : V -> V) (c : cls V) (h : heap V) p (U : seq nat) s :
  class_ok c -> (p < size h)%N -> p \notin U -> all (fun l => l < size h)%N U ->
  polite U (run v0 smatV c h (new_obj p) s) ->
  forall i, (i < size s)%N -> forall d,
  let: (a, h', x) := nth d (run v0 smatV c h (new_obj p) s) i in
  a = nth a s i /\
  omapo (read v0 h') x = expected smatV (fun k => c_comp c k (get v0 h p)) a.
Proof.
move=> ok ph pU hU po i si [[a0 h0] r0].
have := run_good ok (@new_inv V v0 c h p U ph pU hU) po si a0 h0 r0.
have : (nth (a0, h0, r0) (run v0 smatV c h (new_obj p) s) i).1.1 = nth a0 s i.
  clear po ph hU pU; elim: s i si h (new_obj p) => [|a s ih] // i si h o /=.
  by case: (do_op _ _ _ _ _ _) => [[h' o'] x]; case: i si => [|i] //= si; rewrite ih.
case: (nth _ _ _) => [[a h'] x] /= -> ->; split=> //.
exact: set_nth_default.
Qed.
Print Assumptions C47_cache_transparent.

(* For a class that does not depend on k, all calls of getQDelta agree *)
Corollary C47_kindep V (v0 : V) (smatV : V -> V) (f : V -> outcome V) (h : heap V) p s :
  (p < size h)%N -> all (fun a => if a is OPut _ _ then false else copying a) s ->
  forall i k, (i < size s)%N -> forall d, nth d s i = OGet V k true ->
  forall d', let: (_, h', x) := nth d' (run v0 smatV (cls_kindep f) h (new_obj p) s) i in
  omapo (read v0 h') x = omapo (@AArr V) (f (get v0 h p)).
Proof.
move=> ph po i k si d ei d'.
have pol : polite [::] (run v0 smatV (cls_kindep f) h (new_obj p) s).
  move: [::] h (new_obj p) po {ph si ei} => U h o; elim: s U h o => [|a s ih] U h o //= /andP [ca po].
  case e: (do_op _ _ _ _ _ _) => [[h' o'] x] /=; rewrite ih // andbT.
  by case: a ca {e} => //= ? ? ->.
have := C47_cache_transparent (kindep_ok f) ph (isT : p \notin [::]) (isT : all _ [::]) pol si d'.
case: (nth d' _ _) => [[a h'] x] [ea ->].
have -> : a = OGet V k true by rewrite ea (set_nth_default d) ?ei.
by [].
Qed.
Print Assumptions C47_kindep.

(* Jumper and BE on the nodes 1/2, 1; the heap contains the nodes as a row *)
Section Ex.
Local Open Scope ring_scope.
Definition V := seq (seq Qf).
Definition ex_heap : heap V := [:: [:: [:: qc 1 2; 1]]].
Definition ex_jumper : cls V := cls_kdep (fun k v => qd_Jumper (head [::] v) k).
Definition ex_be : cls V := cls_kindep (fun v => Ok (qd_BE (Ts (head [::] v) [:: qc 1 2; qc 1 2] 0))).
Definition ex_hist : seq (op V) :=
  [:: OGet _ (Some 1) true; OPut 2 [::]; OGet _ (Some 2) true; OGet _ (Some 1) true;
      OGen V (KList [:: Some 2; None; Some 1]) "N2N"; OGet _ (Some 0) true; OGen V (KOne (Some 3)) "N2N"].
Definition ex_run c s := run ([::] : V) (@smat Qf) c ex_heap (new_obj 0) s.

Example C47_nonvacuous :
  class_ok ex_jumper /\ polite [::] (ex_run ex_jumper ex_hist) /\
  (* the fourth call, after the returned array was changed *)
  (exists h l, nth (OGetS _ None, [::], Raise ValueError) (ex_run ex_jumper ex_hist) 3 =
     (OGet _ (Some 1) true, h, Ok (RArr V l)) /\ get [::] h l = [:: [:: qc 1 4; 0]; [:: 0; qc 1 2]]) /\
  (* the sixth one *)
  (exists h, nth (OGetS _ None, [::], Ok (RArr V 0)) (ex_run ex_jumper ex_hist) 5 =
     (OGet _ (Some 0) true, h, Raise ValueError)).
Proof.
split; first exact: kdep_ok.
split; first by vm_compute.
split.
  set t := nth _ _ _; exists t.1.2, (if t.2 is Ok (RArr l) then l else 0%N); split; last by apply/eqP; vm_compute.
  rewrite /t; reflexivity.
set t := nth _ _ _; exists t.1.2; rewrite /t; reflexivity.
Qed.

Example C47_flex_nonvacuous : let c := qcoll 2%:Z "EQUID" "RADAU-RIGHT" 0 1 in
  class_ok (flex_cls (1 : Qf) q_eigh q_id q_id q_id q_under q_none q_none q_fejer q_fsolve q_fit q_pow
    "EQUID" "RADAU-RIGHT" c) /\ c_memo (flex_cls (1 : Qf) q_eigh q_id q_id q_id q_under q_none q_none q_fejer q_fsolve q_fit q_pow
    "EQUID" "RADAU-RIGHT" c) (KOne (Some 3)).
Proof. by move=> c; split; [exact: flex_ok|vm_compute]. Qed.
End Ex.

(* C48. The excluded calls give access to the cache: what the user writes into the array returned
   by genCoeffs (scalar k, Z2N) is returned by all later calls. *)
Theorem C48_shared V (v0 : V) (smatV : V -> V) (c : cls V) (h : heap V) p k v w :
  (p < size h)%N -> ~~ c_memo c (KOne k) -> c_comp c (KOne k) (get v0 h p) = Ok v ->
  let t := run v0 smatV c h (new_obj p)
    [:: OGen V (KOne k) "Z2N"; OPut (size h) w; OGet V k true; OGetS V k] in
  exists h1 h2 h3 h4 l3 l4,
  [/\ t = [:: (OGen V (KOne k) "Z2N", h1, Ok (RArr V (size h))); (OPut (size h) w, h2, Ok (RStack [::]));
              (OGet V k true, h3, Ok (RArr V l3)); (OGetS V k, h4, Ok (RArr V l4))],
      get v0 h1 (size h) = v, get v0 h3 l3 = w & get v0 h4 l4 = smatV w].
Proof.
move=> ph /negbTE nm cv.
have g1 (h0 : heap V) x : get v0 (rcons h0 x) (size h0) = x by rewrite /get nth_rcons ltnn eqxx.
have pr : put v0 (rcons h v) (size h) w = rcons h w.
  apply: (@eq_from_nth _ v0) => [|i ih]; first by rewrite /put size_set_nth !size_rcons; apply/maxn_idPr.
  rewrite /put.
  by rewrite nth_set_nth /= !nth_rcons; case: ltngtP.
rewrite /run /= /genCoeffs /= /gen /= /getQDelta /cached /compute /= nm cv /=.
case kd: (c_kdep c) => /=; rewrite ?kd /= ?pr /= /getSDelta /getQDelta /cached /= kd /lookup /=; do ?rewrite eqxx /=.
all: do 6 eexists; split; first reflexivity.
all: by rewrite /get !nth_rcons ?size_rcons ?ltnn ?eqxx ?ltnSn ?nth_rcons ?ltnn ?eqxx.
Qed.
Print Assumptions C48_shared.

(* MIN-SR-FLEX: the array of one k > n is that of all k' > n *)
Theorem C48_shared_memo V (v0 : V) (smatV : V -> V) (c : cls V) (h : heap V) p k k' v w :
  (p < size h)%N -> c_kdep c -> c_memo c (KOne k) -> c_memo c (KOne k') ->
  c_comp c (KOne k) (get v0 h p) = Ok v ->
  let t := run v0 smatV c h (new_obj p)
    [:: OGen V (KOne k) "Z2N"; OPut (size h) w; OGet V k' true] in
  exists h1 h2 h3 l3,
  [/\ t = [:: (OGen V (KOne k) "Z2N", h1, Ok (RArr V (size h))); (OPut (size h) w, h2, Ok (RStack [::]));
              (OGet V k' true, h3, Ok (RArr V l3))],
      get v0 h1 (size h) = v & get v0 h3 l3 = w].
Proof.
move=> ph kd m m' cv.
have g1 (h0 : heap V) x : get v0 (rcons h0 x) (size h0) = x by rewrite /get nth_rcons ltnn eqxx.
have pr : put v0 (rcons h v) (size h) w = rcons h w.
  apply: (@eq_from_nth _ v0) => [|i ih]; first by rewrite /put size_set_nth !size_rcons; apply/maxn_idPr.
  rewrite /put.
  by rewrite nth_set_nth /= !nth_rcons; case: ltngtP.
rewrite /run /= /genCoeffs /= /gen /= /getQDelta /cached /compute /= kd m cv /= pr /lookup /=.
case: (k == k') => /=; rewrite ?m' /=; do 4 eexists; split; try reflexivity.
all: by rewrite /get !nth_rcons ?size_rcons ?ltnn ?eqxx ?ltnSn ?nth_rcons ?ltnn ?eqxx.
Qed.
Print Assumptions C48_shared_memo.

(* the argument given to the constructor is not copied: changing it before the first call *)
Theorem C48_shared_argument V (v0 : V) (smatV : V -> V) (c : cls V) (h : heap V) p k w :
  (p < size h)%N ->
  let t := run v0 smatV c h (new_obj p) [:: OPut p w; OGet V k true] in
  exists h1 h2 x, t = [:: (OPut p w, h1, Ok (RStack [::])); (OGet V k true, h2, x)] /\
    (~~ c_memo c (KOne k) -> omapo (read v0 h2) x = omapo (@AArr V) (c_comp c (KOne k) w)).
Proof.
move=> ph; rewrite /run /=.
case e: (keep _ _ _) => [[h2 o2] x]; do 3 eexists; split; first reflexivity.
move=> /negbTE nm; move: e; rewrite /getQDelta /cached /compute /= nm.
have -> : get v0 (put v0 h p w) p = w by rewrite /get /put nth_set_nth /= eqxx.
have g1 (h0 : heap V) y : get v0 (rcons h0 y) (size h0) = y by rewrite /get nth_rcons ltnn eqxx.
by case: (c_kdep c); case: (c_comp c (KOne k) w) => [v|ex] /= [<- _ <-] //=; rewrite !g1.
Qed.
Print Assumptions C48_shared_argument.

Section Refuted.
Local Open Scope ring_scope.
(* two calls of genCoeffs with the same argument, and a change in between *)
Theorem C48_private_refuted :
  exists c : cls V, class_ok c /\
  exists l w, let t := ex_run c [:: OGen V (KOne None) "Z2N"; OPut l w; OGen V (KOne None) "Z2N"] in
  let last := nth (OGetS _ None, [::], Raise ValueError) t 2 in
  (nth (OGetS _ None, [::], Raise ValueError) t 0).2 = Ok (RArr V l) /\
  omapo (read [::] last.1.2) last.2 <> expected (@smat Qf) (fun k => c_comp c k (get [::] ex_heap 0)) last.1.1.
Proof.
exists ex_be; split; first exact: kindep_ok.
by exists 1%N, [::]; split.
Qed.
Print Assumptions C48_private_refuted.
End Refuted.

(* Runge-Kutta classes: without padding, genQCoeffs returns the arrays of the class, so a change
   of one of them is seen by all later calls, for any instance, with or without padding *)
Theorem C48_rk_shared V (v0 : V) padA padb padc (cl : rkarr) (h : heap V) (w : V) :
  let gen := rk_genQCoeffs v0 padA padb padc cl in
  [/\ (gen h false).2 = (k_c cl, k_b cl, k_A cl),
      let h1 := put v0 (gen h false).1 (gen h false).2.1.2 w in
      get v0 (gen h1 false).1 (gen h1 false).2.1.2 = w &
      k_c cl != k_b cl -> (k_b cl < size h)%N -> (k_c cl < size h)%N ->
      let h1 := put v0 (gen h false).1 (gen h false).2.1.2 w in
      get v0 (gen h1 true).1 (gen h1 true).2.1.2 = padb w].
Proof.
rewrite /rk_genQCoeffs /=; split=> //.
  by rewrite /get /put nth_set_nth /= eqxx.
move=> cb bh ch; set H := put _ _ _ _.
have bH : (k_b cl < size H)%N by rewrite /H /put size_set_nth leq_max ltnSn.
rewrite /get nth_rcons !size_rcons ltnSn nth_rcons size_rcons ltnn eqxx nth_rcons bH.
by rewrite /H /put nth_set_nth /= eqxx.
Qed.
Print Assumptions C48_rk_shared.

(* with padding, the returned arrays are new: whatever is written to them, later calls return the
   coefficients of the class *)
Theorem C48_rk_padded_private V (v0 : V) padA padb padc (cl : rkarr) (h : heap V) (w : V) l :
  (k_A cl < size h)%N -> (k_b cl < size h)%N -> (k_c cl < size h)%N ->
  let gen := rk_genQCoeffs v0 padA padb padc cl in
  let: (h1, (c1, b1, A1)) := gen h true in
  l \in [:: c1; b1; A1] ->
  let h2 := put v0 h1 l w in
  let: (h3, (c3, b3, A3)) := gen h2 false in
  [/\ get v0 h3 c3 = get v0 h (k_c cl), get v0 h3 b3 = get v0 h (k_b cl) &
      get v0 h3 A3 = get v0 h (k_A cl)].
Proof.
move=> Ah bh ch; rewrite /rk_genQCoeffs /= !size_rcons !inE => ll.
have key m : (m < size h)%N -> forall x y z, get v0 (put v0 (rcons (rcons (rcons h x) y) z) l w) m = get v0 h m.
  move=> mh x y z; rewrite /get /put nth_set_nth /=.
  have -> : (m == l) = false.
    apply/negbTE; rewrite neq_ltn; apply/orP; left; apply: leq_trans mh _.
    by case/or3P: ll => /eqP ->; rewrite ?leqnn ?leqnSn // ltnW.
  by rewrite !nth_rcons !size_rcons mh !ltnS (ltnW mh) (leqW (ltnW mh)).
by split; apply: key.
Qed.
Print Assumptions C48_rk_padded_private.

Example C48_nonvacuous : let gen := rk_genQCoeffs 0%N addn (addn 1) (addn 1) (Rkarr 0 1 2) in
  gen [:: 5; 6; 7]%N true = ([:: 5; 6; 7; 8; 7; 11]%N, (3, 4, 5)%N).
Proof. by []. Qed.
