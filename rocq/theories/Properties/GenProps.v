(* Properties C49 and C50: genQDeltaCoeffs. *)
From Coq Require Import ZArith QArith Qcanon.
From Verif.Base Require Import Str.
From mathcomp Require Import all_ssreflect all_algebra zify.
From Verif.Base Require Import QcField Outcome Arr.
From Verif.Model Require Import QGen Sweeps Cache Gen.
From Verif.Spec Require Import CacheSpec GenSpec.
From Verif.Proofs Require Import CacheP GenP.
From Verif.Properties Require Import CollProps CacheProps.
Set Implicit Arguments.
Unset Strict Implicit.
Unset Printing Implicit Defensive.
Import GRing.Theory Num.Theory Order.TTheory.

#[local] Arguments genCoeffs_dTau : simpl never.
#[local] Arguments new_gen : simpl never.
#[local] Arguments sweep_mat : simpl never.
#[local] Arguments inst : simpl never.

Section Gen.
Variables (V : Type) (v0 : V) (smatV : V -> V) (reg : string -> option (gcls V)).
Hypothesis rok : forall s g, reg s = Some g -> class_ok (g_cls g).
Notation gen := (genQDeltaCoeffs v0 smatV reg).
Notation expd := (expected_gen smatV reg).

Lemma find_gensE l : find_gens reg l = omap_seq (class_of reg) l. Proof. by []. Qed.
Lemma class_of_ok s g : class_of reg s = Ok g -> class_ok (g_cls g).
Proof. by rewrite /class_of; case e: (reg s) => [g'|] // [<-]; exact: rok e. Qed.
Lemma classes_ok l gs : omap_seq (class_of reg) l = Ok gs -> forall g, List.In g gs -> class_ok (g_cls g).
Proof.
elim: l gs => [|s l ih] gs /=; first by case=> <-.
case es: (class_of reg s) => [g|] //=; case e: (omap_seq _ l) => [gs'|] //= [<-] g' [<-|].
  exact: class_of_ok es.
exact: ih e g'.
Qed.
Lemma omap_nseq (A B : Type) (f : A -> outcome B) x n : (0 < n)%N ->
  omap_seq f (nseq n x) = omapo (nseq n) (f x).
Proof.
case: n => // n _; elim: n => [|n ih]; first by rewrite /=; case: (f x).
have -> : omap_seq f (nseq n.+2 x) = obind (f x) (fun b => omapo (cons b) (omap_seq f (nseq n.+1 x))) by [].
by rewrite ih; case: (f x).
Qed.
Lemma unknown s l : s \in l -> reg s = None -> omap_seq (class_of reg) l = Raise ValueError.
Proof.
move=> + rs; elim: l => [|t l ih] //=; rewrite inE => /orP [/eqP <-|sl]; first by rewrite /class_of rs.
by rewrite ih // /class_of; case: (reg t).
Qed.

(* one generator for several sweeps *)
Lemma single g h form dTau N : (0 < N)%N -> class_ok (g_cls g) ->
  omapo (read_gen v0) (dop ho <- new_gen g h;
     genCoeffs_dTau v0 smatV g ho.1 ho.2 (KList [seq Some (k.+1)%:Z%R | k <- iota 0 N]) form dTau) =
  dop gQ <- inst g;
  dop vs <- omap_seq (fun p => sweep_mat smatV form p.2 (Some (p.1.+1)%:Z%R)) (zip (iota 0 N) (nseq N gQ));
  dop d <- first_dTau dTau gQ; Ok (AStack vs, d).
Proof.
move=> N0 cok; have := new_gen_ok v0 h cok; case: (new_gen g h) => [[h1 o]|e] /=; last by rewrite /inst => ->.
move=> [Q eQ [gi _]]; rewrite (genCoeffs_dTau_ok _ _ _ _ gi) /inst eQ /=.
have -> : omap_seq (fun p => sweep_mat smatV form p.2 (Some (p.1.+1)%:Z%R)) (zip (iota 0 N) (nseq N (g, Q)))
  = omap_seq (value smatV (fun k => c_comp (g_cls g) k Q) form) [seq Some (k.+1)%:Z%R | k <- iota 0 N].
  by elim: N 0%N {N0} => [|m ih] k //=; rewrite ih.
case fm: (_ || _); first by case: (omap_seq _ _).
case: N N0 => // N _ /=; rewrite /value; by move/norP: (negbT fm) => [/negbTE -> /negbTE ->].
Qed.

Lemma multi gs h form dTau : (0 < size gs)%N -> (forall g, List.In g gs -> class_ok (g_cls g)) ->
  omapo (read_gen v0) (dop ho <- new_gens gs h;
     dop hl <- gen_each v0 smatV ho.1 0 ho.2 form;
     let st := RStack [seq get v0 hl.1 l | l <- hl.2] in
     if dTau then
       if ho.2 is (g, o) :: _ then dop d <- g_dTau g (get v0 hl.1 (o_param o)); Ok (hl.1, (st, Some d))
       else Raise TypeError
     else Ok (hl.1, (st, None))) =
  dop gQs <- omap_seq (@inst V) gs;
  dop vs <- omap_seq (fun p => sweep_mat smatV form p.2 (Some (p.1.+1)%:Z%R)) (zip (iota 0 (size gQs)) gQs);
  if gQs is gQ :: _ then dop d <- first_dTau dTau gQ; Ok (AStack vs, d) else Raise AssertionError.
Proof.
move=> gs0 gok; have := new_gens_ok v0 h gok; case: (new_gens gs h) => [[h1 os]|e]; last by rewrite /= => ->.
move=> [gQs -> [ex e1 sz hi]]; rewrite [obind (Ok _) _]/= [in RHS]/=.
have := gen_each_ok smatV 0%N form sz hi.
case: (gen_each _ _ _ _ _ _) => [[h2 ls]|e] /=; last by move=> ->.
move=> [ex2 al ->] /=.
case: os gQs sz hi e1 {al} => [|[g o] os] [|[g' Q] gQs] //= sz hi e1; first by rewrite -e1 in gs0.
have [[_ i] /= eg] := hi 0%N (g', Q) (g, o) (ltn0Sn _); subst g'.
have [[ph _ pE] _ _ _] := i; have [ph2 pE2] := ex2 _ ph; rewrite /= in pE pE2 *.
by rewrite pE2 pE /first_dTau; case: dTau => //=; case: (g_dTau g Q).
Qed.

(* C49: for every argument, the result of genQDeltaCoeffs is the expected stack of matrices (or
   single matrix), or the expected exception *)
Theorem C49_sweeps h q ns form dTau :
  omapo (read_gen v0) (gen h q ns form dTau).2 = expd q ns form dTau.
Proof.
have one s N : (0 < N)%N -> omapo (read_gen v0) (dop gs <- find_gens reg [:: s];
     match gs with
     | [:: g] => dop ho <- new_gen g h;
        genCoeffs_dTau v0 smatV g ho.1 ho.2 (KList [seq Some (k.+1)%:Z%R | k <- iota 0 N]) form dTau
     | _ => Raise TypeError end) =
   dop gs <- omap_seq (class_of reg) (nseq N s);
   dop gQs <- omap_seq (@inst V) gs;
   dop vs <- omap_seq (fun p => sweep_mat smatV form p.2 (Some (p.1.+1)%:Z%R)) (zip (iota 0 (size gQs)) gQs);
   if gQs is gQ :: _ then dop d <- first_dTau dTau gQ; Ok (AStack vs, d) else Raise AssertionError.
  move=> N0; rewrite omap_nseq // find_gensE [omap_seq _ [:: s]]/=; case es: (class_of reg s) => [g|] //=.
  rewrite single //; last exact: class_of_ok es.
  rewrite omap_nseq //.
  case: (inst g) => [gQ|] //=; rewrite size_nseq.
  by case: N N0 => // N _; case: (omap_seq _ _).
have many l : (1 < size l)%N -> omapo (read_gen v0) (dop gs <- find_gens reg l;
     dop ho <- new_gens gs h;
     dop hl <- gen_each v0 smatV ho.1 0 ho.2 form;
     let st := RStack [seq get v0 hl.1 l | l <- hl.2] in
     if dTau then
       if ho.2 is (g, o) :: _ then dop d <- g_dTau g (get v0 hl.1 (o_param o)); Ok (hl.1, (st, Some d))
       else Raise TypeError
     else Ok (hl.1, (st, None))) =
   dop gs <- omap_seq (class_of reg) l;
   dop gQs <- omap_seq (@inst V) gs;
   dop vs <- omap_seq (fun p => sweep_mat smatV form p.2 (Some (p.1.+1)%:Z%R)) (zip (iota 0 (size gQs)) gQs);
   if gQs is gQ :: _ then dop d <- first_dTau dTau gQ; Ok (AStack vs, d) else Raise AssertionError.
  move=> sl; rewrite find_gensE; case es: (omap_seq _ l) => [gs|] //; rewrite [obind (Ok _) _]/= [in RHS]/=.
  rewrite multi //; last exact: classes_ok es.
  move: es sl; case: l => // s l /=; case: (class_of reg s) => //= g.
  by case: (omap_seq _ l) => //= gs' [<-].
have lst l n : (0 < size l)%N -> n = size l -> omapo (read_gen v0)
   (dop gs <- find_gens reg l;
    match gs with
    | [:: g] => dop ho <- new_gen g h;
     genCoeffs_dTau v0 smatV g ho.1 ho.2 (KList [seq Some (k.+1)%:Z%R | k <- iota 0 n]) form dTau
    | _ => dop ho <- new_gens gs h;
     dop hl <- gen_each v0 smatV ho.1 0 ho.2 form;
     let st := RStack [seq get v0 hl.1 l | l <- hl.2] in
     if dTau then
       if ho.2 is (g, o) :: _ then dop d <- g_dTau g (get v0 hl.1 (o_param o)); Ok (hl.1, (st, Some d))
       else Raise TypeError
     else Ok (hl.1, (st, None)) end) =
   dop gs <- omap_seq (class_of reg) l;
   dop gQs <- omap_seq (@inst V) gs;
   dop vs <- omap_seq (fun p => sweep_mat smatV form p.2 (Some (p.1.+1)%:Z%R)) (zip (iota 0 (size gQs)) gQs);
   if gQs is gQ :: _ then dop d <- first_dTau dTau gQ; Ok (AStack vs, d) else Raise AssertionError.
  case: l => [|s [|s' l]] // _ ->.
    rewrite -(one s 1%N isT) find_gensE [omap_seq _ [:: s]]/=; by case: (class_of reg s).
  rewrite -(many [:: s, s' & l] isT) find_gensE.
  case es: (omap_seq _ _) => [gs|] //; rewrite [obind (Ok _) _]/=.
  case: gs es => [|g [|g' gs]] //.
  rewrite /=; case: (class_of reg s) => //= g1; case: (class_of reg s') => //= g2.
  by case: (omap_seq _ l).
case: q => [s|l|] //.
- case: ns => [|n|] //.
    rewrite /genQDeltaCoeffs /expected_gen /= find_gensE [omap_seq _ [:: s]]/=.
    case es: (class_of reg s) => [g|] //; rewrite [obind (Ok _) _]/= [obind (Ok _) _]/= [in RHS]/=.
    have cok := class_of_ok es.
    have := new_gen_ok v0 h cok; case: (new_gen g h) => [[h1 o]|e] /=; last by rewrite /inst => ->.
    move=> [Q eQ [gi _]]; rewrite (genCoeffs_dTau_ok _ _ _ _ gi) /inst eQ /= /sweep_mat.
    by case: (value _ _ _ _).
  case: n => [[|n]|n] //; rewrite /genQDeltaCoeffs /expected_gen [check_args _ _]/= [sweeps _ _]/=.
  rewrite -[RHS](one s n.+1 isT) /= find_gensE [omap_seq _ [:: s]]/=; by case: (class_of reg s).
- rewrite /genQDeltaCoeffs /expected_gen; case: l => [|s l] //.
  case: ns => [|n|] //.
    by rewrite [check_args _ _]/= [sweeps _ _]/= -[RHS](lst (s :: l) (size l).+1).
  case: n => [[|n]|n] //; rewrite [check_args _ _]/= [sweeps _ _]/=.
  have -> : (Posz n.+1 < (size l).+1%:Z)%R = ~~ (size l < n.+1)%N by rewrite -leqNgt ltz_nat.
  case: ifP => //= sl; rewrite -?sl; move: sl; case: ltnP => // sl _.
  have -> : absz (n.+1%:Z - (size l).+1%:Z)%R = (n - size l)%N by lia.
  rewrite -[RHS](lst (s :: l ++ nseq (n - size l) (last s l)) n.+1) //=.
  by rewrite size_cat size_nseq; lia.
Qed.

(* string with K sweeps, one-element list with K sweeps and list of K equal strings *)
Theorem C49_agree h h' h'' s n form dTau :
  omapo (read_gen v0) (gen h (QStr s) (NInt n.+1%:Z%R) form dTau).2 =
  omapo (read_gen v0) (gen h' (QLst [:: s]) (NInt n.+1%:Z%R) form dTau).2 /\
  omapo (read_gen v0) (gen h' (QLst [:: s]) (NInt n.+1%:Z%R) form dTau).2 =
  omapo (read_gen v0) (gen h'' (QLst (nseq n.+1 s)) NNone form dTau).2.
Proof. by rewrite !C49_sweeps /expected_gen /= subn1. Qed.

(* exceptions raised before any generator is built *)
Theorem C49_errors h form dTau :
  [/\ forall s n, (n <= 0)%R -> (gen h (QStr s) (NInt n) form dTau).2 = Raise ValueError,
      forall l n, l <> [::] -> (n <= 0)%R -> (gen h (QLst l) (NInt n) form dTau).2 = Raise ValueError,
      forall ns, (gen h (QLst [::]) ns form dTau).2 = Raise AssertionError &
      forall l n, l <> [::] -> (0 < n < (size l)%:Z)%R -> (gen h (QLst l) (NInt n) form dTau).2 = Raise AssertionError] /\
  [/\ forall q ns, (ns = NOther /\ q <> QLst [::]) \/ q = QOther -> (gen h q ns form dTau).2 = Raise ValueError &
      forall l s n, s \in l -> reg s = None -> ((size l)%:Z <= n)%R ->
        (gen h (QLst l) (NInt n) form dTau).2 = Raise ValueError].
Proof.
split; split.
- by move=> s n n0; rewrite /genQDeltaCoeffs /= ltNge n0.
- by move=> [|s l] // n _ n0; rewrite /genQDeltaCoeffs /= ltNge n0.
- by move=> [|n|].
- by move=> [|s l] // n _ /andP [n0 nl]; rewrite /genQDeltaCoeffs /= n0 nl.
- by move=> [s|[|s l]|] [|n|] [[]|].
move=> l s n sl rs ln; rewrite /genQDeltaCoeffs /=.
have l0 : (size l == 0%N) = false by case: l sl {ln}.
have n0 : (0 < n)%R by apply: lt_le_trans ln; case: (l) l0.
rewrite l0 n0 ltNge ln /= find_gensE.
by rewrite (@unknown s) // mem_cat sl.
Qed.

(* C50: what happens to the caller's argument *)
Theorem C50_argument_after h q ns form dTau :
  (gen h q ns form dTau).1 =
  match q, ns with
  | QLst l, NInt n => if (0 < size l)%N && ((size l)%:Z <= n)%R
                      then QLst (l ++ nseq (absz (n - (size l)%:Z)%R) (last ""%string l)) else q
  | _, _ => q
  end.
Proof.
rewrite /genQDeltaCoeffs; case: q => [s|l|] //=; first by case: ns => // n; case: ifP.
case: l => [|s l]; first by case: ns.
case: ns => // n /=; case: ifP => [n0|]; first by rewrite leNgt; case: ifP.
by move=> /negbT; rewrite -leNgt => n0; rewrite leNgt (le_lt_trans n0).
Qed.

(* unchanged, unless a list is given with a larger nSweeps *)
Theorem C50_unchanged_iff h q ns form dTau :
  (gen h q ns form dTau).1 = q <->
  ~ (exists l n, [/\ q = QLst l, ns = NInt n, l <> [::] & ((size l)%:Z < n)%R]).
Proof.
rewrite C50_argument_after; split=> [e [l [n [eq en l0 ln]]]|no].
  move: e; rewrite eq en (ltW ln); have -> : (0 < size l)%N by case: (l) l0.
  move=> /= [] /(congr1 size); rewrite size_cat size_nseq; lia.
case: q no => [s|l|] // no; case: ns no => // n no; case: ifP => // /andP [l0 ln].
have -> : (n = (size l)%:Z)%R; last by rewrite subrr cats0.
apply/eqP; rewrite eq_le ln andbT leNgt; apply/negP => lt.
by apply: no; exists l, n; split=> //; case: (l) l0.
Qed.

(* a second call with the same list: the first call changes its result *)
Theorem C50_second_call h h' l n m form form' dTau dTau' :
  l <> [::] -> ((size l)%:Z <= m)%R -> (m < n)%R ->
  let l' := (gen h (QLst l) (NInt n) form dTau).1 in
  (gen h' l' (NInt m) form' dTau').2 = Raise AssertionError.
Proof.
move=> l0 lm mn; rewrite C50_argument_after (le_trans lm (ltW mn)).
have l1 : (0 < size l)%N by case: (l) l0.
rewrite l1 /=; set l' := _ ++ _.
have sl : ((size l')%:Z = n)%R by rewrite /l' size_cat size_nseq; lia.
have [[_ _ _ e] _] := C49_errors h' form' dTau'; apply: e.
  by move=> e; move: sl l1 lm mn; rewrite e /=; lia.
by rewrite sl mn andbT; apply: lt_le_trans lm.
Qed.
End Gen.
Print Assumptions C49_sweeps.
Print Assumptions C49_agree.
Print Assumptions C49_errors.
Print Assumptions C50_argument_after.
Print Assumptions C50_unchanged_iff.
Print Assumptions C50_second_call.

(* a registry with the classes BE and Jumper, for the nodes 1/2, 1 *)
Section Ex.
Local Open Scope ring_scope.
Definition ex_reg (s : string) : option (gcls CacheProps.V) :=
  if s == "BE"%string then Some (Gcls ex_be (Ok [:: [:: qc 1 2; 1]]) (fun _ => Ok [:: [:: 0; 0]]))
  else if s == "Jumper"%string then Some (Gcls ex_jumper (Ok [:: [:: qc 1 2; 1]]) (fun _ => Ok [:: [:: 0; 0]]))
  else if s == "MIN3"%string then Some (Gcls ex_be (Raise NotImplementedError) (fun _ => Ok [::]))
  else None.
Lemma ex_reg_ok s g : ex_reg s = Some g -> class_ok (g_cls g).
Proof.
rewrite /ex_reg; case: ifP => _; first by case=> <-; exact: kindep_ok.
case: ifP => _; first by case=> <-; exact: kdep_ok.
by case: ifP => // _ [<-]; exact: kindep_ok.
Qed.
Definition ex_gen := genQDeltaCoeffs ([::] : CacheProps.V) (@smat Qf) ex_reg [::].
Definition ans_mats (r : outcome (heap CacheProps.V * gres CacheProps.V)) : seq (seq (seq Qf)) :=
  if r is Ok (h, (x, _)) then match x with RArr l => [:: get [::] h l] | RStack vs => vs end else [::].

Example C49_nonvacuous :
  ans_mats (ex_gen (QLst [:: "BE"; "Jumper"]%string) (NInt 3) "Z2N" false).2 =
    [:: [:: [:: qc 1 2; 0]; [:: qc 1 2; qc 1 2]]; [:: [:: qc 1 8; 0]; [:: 0; qc 1 4]];
        [:: [:: qc 1 12; 0]; [:: 0; qc 1 6]]] /\
  (ex_gen (QStr "MIN3") NNone "Z2N" false).2 = Raise NotImplementedError /\
  (ex_gen (QStr "foo") NNone "Z2N" false).2 = Raise ValueError.
Proof. by split; [apply/eqP; vm_compute|]. Qed.

(* C50: the expected property does not hold *)
Theorem C50_unmodified_refuted :
  exists q ns, (ex_gen q ns "Z2N" false).1 <> q /\ is_ok (ex_gen q ns "Z2N" false).2.
Proof. by exists (QLst [:: "BE"]%string), (NInt 2). Qed.
Print Assumptions C50_unmodified_refuted.
End Ex.
