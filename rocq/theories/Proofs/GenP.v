(* genQDeltaCoeffs returns the matrices of the sweeps. *)
From Verif.Base Require Import Str.
From mathcomp Require Import all_ssreflect all_algebra.
From Verif.Base Require Import Outcome.
From Verif.Model Require Import Cache Gen.
From Verif.Spec Require Import CacheSpec GenSpec.
From Verif.Proofs Require Import CacheP.
Set Implicit Arguments.
Unset Strict Implicit.
Unset Printing Implicit Defensive.

#[local] Arguments genCoeffs_dTau : simpl never.
#[local] Arguments new_gen : simpl never.
#[local] Arguments sweep_mat : simpl never.

Section Gen.
Variables (V : Type) (v0 : V) (smatV : V -> V) (reg : string -> option (gcls V)).
Hypothesis rok : forall s g, reg s = Some g -> class_ok (g_cls g).
Notation get := (get v0).
Notation ext := (extends v0).

Lemma inv_ext c Q h h' o : ext h h' -> inv v0 c Q [::] h o -> inv v0 c Q [::] h' o.
Proof.
move=> e; have hh l v : holds v0 [::] h l v -> holds v0 [::] h' l v.
  by move=> [lh _ lv]; have [a b] := e l lh; split=> //; rewrite b.
move=> [h1 h2 h3 h4]; split=> //.
- exact: hh.
- case: (o_cache o) h2 => //= [l [-> [v hv ev]]|d [-> g]].
    by split=> //; exists v => //; exact: hh.
  by split=> // k l /g [v hv ev]; exists v => //; exact: hh.
by move=> l /h3 [v hv ev]; exists v => //; exact: hh.
Qed.

(* genCoeffs of a generator *)
Lemma genCoeffs_ok c Q h o k form : class_ok c -> inv v0 c Q [::] h o ->
  let: (h', o', x) := genCoeffs v0 smatV c h o k form in
  [/\ inv v0 c Q [::] h' o', ext h h',
      omapo (read v0 h') x = expected smatV (fun k => c_comp c k Q) (OGen V k form) &
      match x with Ok (RArr l) => if k is KOne _ then (l < size h')%N else true | _ => true end].
Proof.
move=> cok i; have e0 : ext h h by [].
case: k => [k|ks].
  rewrite /genCoeffs -negb_or; case fm: (_ || _) => /=; last first.
    by split=> //; rewrite /value; move/norP: (negbT fm) => [/negbTE -> /negbTE ->].
  have := gen_good smatV cok form (KOne k) i.
  case e: (gen _ _ _ _ _ _ _) => [[[h' o'] l]|ex] /=; rewrite valE // => ev.
    by have [i' lh ->] := ev; split=> //; exact: gen_ext e.
  by rewrite ev.
have := @do_op_good V v0 smatV c Q cok [::] h o (OGen V (KList ks) form) i isT isT.
have ex : let: (h', o', x) := genCoeffs v0 smatV c h o (KList ks) form in ext h h'.
  rewrite /genCoeffs; case: ifP => _ //.
  case e: (gen_list _ _ _ _ _ _ _) => [[h' o'] r]; have e1 := gen_list_ext e.
  case: r {e} => [vs|x] //; case: x => //.
  case e: (gen _ _ _ _ _ _ _) => [[[h2 o2] l]|ex] //=.
  exact: ext_trans e1 (gen_ext e).
rewrite [do_op _ _ _ _ _ _]/=; move: ex; case: (genCoeffs _ _ _ _ _ _ _) => [[h' o'] x] ex [j ev].
split=> //; last by case: (x) => // -[].
by case: (x) j => // -[l|vs] // j; exact: inv_forget j.
Qed.

Definition gen_inv (h : heap V) (gQ : gcls V * V) (o : obj) : Prop :=
  class_ok (g_cls gQ.1) /\ inv v0 (g_cls gQ.1) gQ.2 [::] h o.

Lemma new_gen_ok g h : class_ok (g_cls g) ->
  match new_gen g h with
  | Ok (h', o) => exists2 Q, g_init g = Ok Q & gen_inv h' (g, Q) o /\ ext h h'
  | Raise e => g_init g = Raise e
  end.
Proof.
move=> cok; rewrite /new_gen; case: (g_init g) => [Q|e] //=.
exists Q => //; split; last exact: ext_alloc.
split=> //=; have := @new_inv V v0 (g_cls g) (rcons h Q) (size h) [::].
by rewrite size_rcons ltnSn /get /Cache.get nth_rcons ltnn eqxx; apply.
Qed.

Lemma genCoeffs_dTau_ok g Q h o k form dTau : gen_inv h (g, Q) o ->
  omapo (read_gen v0) (genCoeffs_dTau v0 smatV g h o k form dTau) =
  dop a <- expected smatV (fun k => c_comp (g_cls g) k Q) (OGen V k form);
  dop d <- first_dTau dTau (g, Q); Ok (a, d).
Proof.
move=> [cok i]; have := genCoeffs_ok k form cok i; rewrite /genCoeffs_dTau.
case: (genCoeffs _ _ _ _ _ _ _) => [[h' o'] x] [j _ <- _]; case: x => [r|e] //=.
have -> : get h' (o_param o') = Q by have [[]] := j.
rewrite /first_dTau; case: dTau => //=.
by case: (g_dTau g Q).
Qed.

Lemma genCoeffs_one g Q h o k form : gen_inv h (g, Q) o ->
  match genCoeffs_dTau v0 smatV g h o (KOne k) form false with
  | Ok (h', (r, _)) => ext h h' /\ exists2 l, r = RArr V l &
       (l < size h')%N /\ sweep_mat smatV form (g, Q) k = Ok (get h' l)
  | Raise e => sweep_mat smatV form (g, Q) k = Raise e
  end.
Proof.
move=> [cok i]; have := genCoeffs_ok (KOne k) form cok i; rewrite /genCoeffs_dTau.
case: (genCoeffs _ _ _ _ _ _ _) => [[h' o'] x] [j e ev lh]; case: x ev lh => [r|ex] /=.
  case: r => [l|vs] /=; rewrite /sweep_mat; case: (value _ _ _ _) => // v [<-] lh.
  by split=> //; exists l.
by rewrite /sweep_mat; case: (value _ _ _ _) => // ? [->].
Qed.

(* several generators *)
Lemma new_gens_ok gs h : (forall g, List.In g gs -> class_ok (g_cls g)) ->
  match new_gens gs h with
  | Ok (h', os) => exists2 gQs, omap_seq (@inst V) gs = Ok gQs &
      [/\ ext h h', [seq x.1 | x <- os] = gs, size gQs = size os &
      forall i d d', (i < size os)%N -> gen_inv h' (nth d gQs i) (nth d' os i).2 /\
        (nth d gQs i).1 = (nth d' os i).1]
  | Raise e => omap_seq (@inst V) gs = Raise e
  end.
Proof.
elim: gs h => [|g gs ih] h gok /=; first by exists [::].
have gc : class_ok (g_cls g) by apply: gok; left.
have := new_gen_ok h gc; case: (new_gen g h) => [[h1 o]|e] /=; last by rewrite /inst => ->.
move=> [Q eQ [gi ex]]; have eI : inst g = Ok (g, Q) by rewrite /inst eQ.
have gok' g' : List.In g' gs -> class_ok (g_cls g') by move=> a; apply: gok; right.
have {ih} := ih h1 gok'; case: (new_gens gs h1) => [[h2 os]|e] /=; last by rewrite eI /= => ->.
move=> [gQs -> [ex2 e1 e2 hi]] /=; rewrite eI /=; exists ((g, Q) :: gQs) => //; split.
- exact: ext_trans ex ex2.
- by rewrite /= e1.
- by rewrite /= e2.
move=> [|i] d d' /= il; last exact: hi.
by split=> //; case: gi => a b; split=> //; exact: inv_ext ex2 b.
Qed.

Lemma gen_each_ok gQs os h k form :
  size gQs = size os ->
  (forall i d d', (i < size os)%N -> gen_inv h (nth d gQs i) (nth d' os i).2 /\
        (nth d gQs i).1 = (nth d' os i).1) ->
  let sp := omap_seq (fun p => sweep_mat smatV form p.2 (Some (p.1.+1)%:Z%R)) (zip (iota k (size gQs)) gQs) in
  match gen_each v0 smatV h k os form with
  | Ok (h', ls) => [/\ ext h h', all (fun l => l < size h')%N ls & sp = Ok [seq get h' l | l <- ls]]
  | Raise e => sp = Raise e
  end.
Proof.
elim: os gQs h k => [|[g o] os ih] [|[g' Q] gQs] h k //= [sz] hi.
have d : (gcls V * V) := (g', Q); have d' : (gcls V * obj) := (g, o).
have [gi /= eg] := hi 0%N d d' (ltn0Sn _); subst g'.
have := genCoeffs_one (Some (k.+1)%:Z%R) form gi.
case: (genCoeffs_dTau _ _ _ _ _ _ _ _) => [[h1 [r u]]|e] /=; last by move=> ->.
move=> [ex [l -> [lh ->]]] /=.
have hi' i d1 d1' : (i < size os)%N -> gen_inv h1 (nth d1 gQs i) (nth d1' os i).2 /\
        (nth d1 gQs i).1 = (nth d1' os i).1.
  move=> il; have [[a b] c] := hi i.+1 d1 d1' il; split=> //.
  by split=> //; exact: inv_ext ex b.
have := ih _ h1 k.+1 sz hi'.
case: (gen_each _ _ _ _ _ _) => [[h2 ls]|e] /= => [[ex2 al ->]|-> //].
split=> /=; first exact: ext_trans ex ex2.
  by have [-> _] := ex2 l lh.
by have [_ ->] := ex2 l lh.
Qed.
End Gen.
