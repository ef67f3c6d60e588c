(* The cache of QDelta generators. *)
From mathcomp Require Import all_ssreflect all_algebra.
From Verif.Base Require Import Outcome Str.
From Verif.Model Require Import Cache.
From Verif.Spec Require Import CacheSpec.
Set Implicit Arguments.
Unset Strict Implicit.
Unset Printing Implicit Defensive.

Section Inv.
Variables (V : Type) (v0 : V) (smatV : V -> V) (c : cls V) (Q0 : V).
Hypothesis cok : class_ok c.
Notation comp k := (c_comp c k Q0).
Notation get := (get v0).

(* location l exists, is not known to the user and has content v *)
Definition holds (U : seq nat) (h : heap V) (l : nat) (v : V) : Prop :=
  [/\ (l < size h)%N, l \notin U & get h l = v].

Definition inv_cache U h (s : cache) : Prop :=
  match s with
  | CNone => True
  | COne l => ~~ c_kdep c /\ exists2 v, holds U h l v & forall k, comp k = Ok v
  | CDict d => c_kdep c /\
      forall k l, lookup k d = Some l -> exists2 v, holds U h l v & comp (KOne k) = Ok v
  end.
Definition inv U h (o : obj) : Prop :=
  [/\ holds U h (o_param o) Q0, inv_cache U h (o_cache o),
      forall l, o_memo o = Some l -> exists2 v, holds U h l v & forall k, c_memo c k -> comp k = Ok v &
      all (fun l => l < size h)%N U].

Lemma get_alloc h v l : (l < size h)%N -> get (alloc h v).1 l = get h l.
Proof. by move=> lh; rewrite /get /Cache.get /= nth_rcons lh. Qed.
Lemma get_new h v : get (alloc h v).1 (alloc h v).2 = v.
Proof. by rewrite /get /Cache.get /= nth_rcons ltnn eqxx. Qed.

Lemma holds_alloc U h l v w : holds U h l v -> holds U (alloc h w).1 l v.
Proof. by move=> [lh lU e]; split=> //; rewrite ?get_alloc //= size_rcons ltnW. Qed.
Lemma inv_alloc U h o w : inv U h o -> inv U (alloc h w).1 o.
Proof.
move=> [h1 h2 h3 h4]; split.
- exact: holds_alloc.
- case: (o_cache o) h2 => //= [l [-> [v hv e]]|d [-> h2]].
    by split=> //; exists v => //; exact: holds_alloc.
  by split=> // k l /h2 [v hv e]; exists v => //; exact: holds_alloc.
- by move=> l /h3 [v hv e]; exists v => //; exact: holds_alloc.
by apply: sub_all h4 => l lh; rewrite size_rcons ltnW.
Qed.
Lemma new_notin U (h : heap V) : all (fun l => l < size h)%N U -> size h \notin U.
Proof. by move=> /allP a; apply/negP => /a; rewrite ltnn. Qed.
Lemma holds_new U h w : all (fun l => l < size h)%N U -> holds U (alloc h w).1 (alloc h w).2 w.
Proof. by move=> a; split; rewrite ?get_new //= ?size_rcons ?new_notin. Qed.

(* what is required from the internal functions *)
Definition good U (k : kval) (r : outcome (heap V * obj * nat)) : Prop :=
  match r with
  | Ok (h, o, l) => inv U h o /\ exists2 v, holds U h l v & comp k = Ok v
  | Raise e => comp k = Raise e
  end.

Lemma compute_good U h o k : inv U h o -> good U k (compute v0 c h o k).
Proof.
move=> i; have [[ph pU pE] i2 i3 i4] := i; rewrite /compute pE; case: ifP => [m|_].
  case eo: (o_memo o) => [l|].
    by split=> //; have [v hv e] := i3 l eo; exists v => //; exact: e.
  case e: (comp k) => [v|] //=; split; last by exists v => //; exact: holds_new.
  have [j1 j2 j3 j4] := inv_alloc v i; split=> // l /= [<-]; exists v; first exact: holds_new.
  by have [_ _ cm] := cok; move=> k' m'; rewrite -e; exact: cm.
case e: (comp k) => [v|] //=; split; first exact: inv_alloc.
by exists v => //; exact: holds_new.
Qed.

Lemma lookup_cons k k' l d : lookup k ((k', l) :: d) = if k' == k then Some l else lookup k d.
Proof. by rewrite /lookup /=; case: ifP. Qed.

Lemma cached_good U h o k : inv U h o -> good U k (cached v0 c h o k).
Proof.
move=> i; have [ki kl km] := cok; rewrite /cached.
have cg := compute_good k i; case kd: (c_kdep c).
  case eo: (o_cache o) => [|l|d].
  - case e: (compute v0 c h o k) cg => [[[h' o'] l]|] //= [j [v hv ev]].
    case: k ev {e} => [k|ks] ev; last by rewrite kl in ev.
    split; last by exists v.
    have [j1 j2 j3 j4] := j; split=> //=; split=> // k' l'; rewrite lookup_cons /lookup /=.
    by case: eqP => // <- [<-]; exists v.
  - by have [_ + _ _] := i; rewrite eo /= kd => -[].
  case: k cg => [k|ks] cg.
    case el: (lookup k d) => [l|].
      split=> //; have [_ + _ _] := i; rewrite eo /= => -[_ /(_ k l el) [v hv ev]].
      by exists v.
    case e: (compute v0 c h o (KOne k)) cg => [[[h' o'] l]|] //= [j [v hv ev]].
    have oc : o_cache o' = CDict d.
      move: e; rewrite /compute; case: ifP => _.
        case: (o_memo o) => [l'|] /=; first by case=> _ <-.
        by case: (c_comp _ _ _) => [w|] //= [_ <- _].
      by case: (c_comp _ _ _) => [w|] //= [_ <- _].
    split; last by exists v.
    have [j1 j2 j3 j4] := j; split=> //=; split=> // k' l'; rewrite lookup_cons.
    case: eqP => [<- [<-]|_ lk]; first by exists v.
    by move: j2; rewrite oc /= => -[_ /(_ k' l' lk)].
  by case e: (compute v0 c h o (KList ks)) cg => [[[h' o'] l]|] //= [_ [v _]]; rewrite kl.
case eo: (o_cache o) => [|l|d].
- case e: (compute v0 c h o k) cg => [[[h' o'] l]|] //= [j [v hv ev]].
  split; last by exists v.
  have [j1 j2 j3 j4] := j; split=> //=; split; first by rewrite kd.
  by exists v => // k'; rewrite -ev; apply: ki; rewrite kd.
- split=> //; have [_ + _ _] := i; rewrite eo /= => -[_ [v hv ev]].
  by exists v.
by have [_ + _ _] := i; rewrite eo /= kd => -[].
Qed.

(* a new array given to the user *)
Definition fresh U (v : outcome V) (r : outcome (heap V * obj * nat)) : Prop :=
  match r with
  | Ok (h, o, l) => inv (l :: U) h o /\ v = Ok (get h l)
  | Raise e => v = Raise e
  end.

Lemma holds_cons U h l l' v : l != l' -> holds U h l v -> holds (l' :: U) h l v.
Proof. by move=> ll [a b e]; split=> //; rewrite inE negb_or ll. Qed.
Lemma inv_give U h o w : inv U h o -> inv ((alloc h w).2 :: U) (alloc h w).1 o.
Proof.
move=> i; have [h1 h2 h3 h4] := inv_alloc w i; have [g1 g2 g3 g4] := i.
have ne l v : holds U h l v -> holds (size h :: U) (alloc h w).1 l v.
  by move=> hv; have [lh _ _] := hv; apply: holds_cons; [rewrite neq_ltn lh|exact: holds_alloc].
split=> /=.
- exact: ne.
- case: (o_cache o) g2 => //= [l [-> [v hv e]]|d [-> g2]].
    by split=> //; exists v => //; exact: ne.
  by split=> // k l /g2 [v hv e]; exists v => //; exact: ne.
- by move=> l /g3 [v hv e]; exists v => //; exact: ne.
by rewrite size_rcons ltnSn /=; move: h4; rewrite size_rcons.
Qed.

Lemma get_copy U h o k : inv U h o -> fresh U (comp k) (getQDelta v0 c h o k true).
Proof.
move=> i; rewrite /getQDelta; have := cached_good k i.
case: (cached _ _ _ _ _) => [[[h' o'] l]|] //= [j [v [lh lU e] ->]]; split; first exact: inv_give.
by rewrite /get /Cache.get nth_rcons ltnn eqxx -e.
Qed.

Lemma inv_forget U h o l : inv (l :: U) h o -> inv U h o.
Proof.
have hf k v : holds (l :: U) h k v -> holds U h k v.
  by move=> [a]; rewrite inE negb_or => /andP [_ b] e.
move=> [h1 h2 h3 /= /andP [_ h4]]; split=> //.
- exact: hf.
- case: (o_cache o) h2 => //= [k [-> [v hv e]]|d [-> g2]].
    by split=> //; exists v => //; exact: hf.
  by split=> // k m /g2 [v hv e]; exists v => //; exact: hf.
by move=> m /h3 [v hv e]; exists v => //; exact: hf.
Qed.

Lemma getS_fresh U h o k : inv U h o -> fresh U (omapo smatV (comp k)) (getSDelta v0 smatV c h o k).
Proof.
move=> i; rewrite /getSDelta; have := get_copy k i.
case: (getQDelta _ _ _ _ _ _) => [[[h' o'] l]|e] /=; last by move=> ->.
move=> [j ->] /=; split; first by apply: inv_give; exact: inv_forget j.
by rewrite /get /Cache.get nth_rcons ltnn eqxx.
Qed.

(* gen, for both forms: nothing the user knows *)
Definition val form k := if form == "Z2N"%string then comp k else omapo smatV (comp k).
Definition good2 U form (k : kval) (r : outcome (heap V * obj * nat)) : Prop :=
  match r with
  | Ok (h, o, l) => [/\ inv U h o, (l < size h)%N & val form k = Ok (get h l)]
  | Raise e => val form k = Raise e
  end.
Definition extends (h h' : heap V) := forall l, (l < size h)%N -> (l < size h')%N /\ get h' l = get h l.
Lemma ext_refl h : extends h h. Proof. by []. Qed.
Lemma ext_alloc h v : extends h (alloc h v).1.
Proof. by move=> l lh; rewrite get_alloc //= size_rcons ltnW. Qed.
Lemma ext_trans h1 h2 h3 : extends h1 h2 -> extends h2 h3 -> extends h1 h3.
Proof. by move=> a b l lh; have [c1 e1] := a l lh; have [c2 e2] := b l c1; rewrite e2 e1. Qed.

Lemma compute_ext h o k h' o' l : compute v0 c h o k = Ok (h', o', l) -> extends h h'.
Proof.
rewrite /compute; case: ifP => _.
  case: (o_memo o) => [l'|] /=; first by case=> <- _ _.
  by case: (c_comp _ _ _) => [w|] //= [<- _ _]; exact: ext_alloc.
by case: (c_comp _ _ _) => [w|] //= [<- _ _]; exact: ext_alloc.
Qed.
Lemma cached_ext h o k h' o' l : cached v0 c h o k = Ok (h', o', l) -> extends h h'.
Proof.
have ce := @compute_ext h o k.
rewrite /cached; case: ifP => _; case: (o_cache o) => [|m|d] //.
- case e: (compute v0 c h o k) => [[[h1 o1] l1]|] //=.
  by case: (k) => // ? [<- _ _]; exact: ce e.
- case: k ce => [k|ks] ce.
    case: (lookup k d) => [m|]; first by case=> <- _ _.
    by case e: (compute v0 c h o _) => [[[h1 o1] l1]|] //= [<- _ _]; exact: ce e.
  by case: (compute _ _ _ _ _).
- by case e: (compute v0 c h o _) => [[[h1 o1] l1]|] //= [<- _ _]; exact: ce e.
- by case=> <- _ _.
by case e: (compute v0 c h o _) => [[[h1 o1] l1]|] //= [<- _ _]; exact: ce e.
Qed.
Lemma get_ext h o k b h' o' l : getQDelta v0 c h o k b = Ok (h', o', l) -> extends h h'.
Proof.
rewrite /getQDelta; case e: (cached _ _ _ _ _) => [[[h1 o1] l1]|] //=.
have e1 := cached_ext e; case: b => -[<- _ _] //.
by apply: (ext_trans e1); exact: ext_alloc.
Qed.
Lemma gen_ext form h o k h' o' l : gen v0 smatV c form h o k = Ok (h', o', l) -> extends h h'.
Proof.
rewrite /gen; case: ifP => _; first exact: get_ext.
rewrite /getSDelta; case e: (getQDelta _ _ _ _ _ _) => [[[h1 o1] l1]|] //= [<- _ _].
by apply: (ext_trans (get_ext e)); exact: ext_alloc.
Qed.

Lemma gen_good U form h o k : inv U h o -> good2 U form k (gen v0 smatV c form h o k).
Proof.
move=> i; rewrite /gen /good2 /val; case: ifP => fz.
  rewrite /getQDelta; have := cached_good k i.
  by case: (cached _ _ _ _ _) => [[[h' o'] l]|] //= [j [v [lh _ <-] ->]].
have := getS_fresh k i; case: (getSDelta _ _ _ _ _ _) => [[[h' o'] l]|] //= [j ->].
by split; [exact: inv_forget j|have [_ _ _ /= /andP []] := j|].
Qed.

Lemma gen_list_ext form ks h o h' o' r : gen_list v0 smatV c form h o ks = (h', o', r) -> extends h h'.
Proof.
elim: ks h o h' o' r => [|k ks ih] h o h' o' r /=; first by case=> <- _ _.
case e: (gen _ _ _ _ _ _ _) => [[[h1 o1] l]|x]; last by case=> <- _ _.
case e2: (gen_list _ _ _ _ _ _ _) => [[h2 o2] r2] [<- _ _].
exact: ext_trans (gen_ext e) (ih _ _ _ _ _ e2).
Qed.
Lemma gen_list_good U form ks h o h' o' r : inv U h o ->
  gen_list v0 smatV c form h o ks = (h', o', r) ->
  inv U h' o' /\ r = omap_seq (fun k => val form (KOne k)) ks.
Proof.
elim: ks h o h' o' r => [|k ks ih] h o h' o' r i /=; first by case=> <- <- <-.
have := gen_good form (KOne k) i.
case e: (gen _ _ _ _ _ _ _) => [[[h1 o1] l]|x] /=; last by move=> -> [<- <- <-].
move=> [i1 lh ->]; case e2: (gen_list _ _ _ _ _ _ _) => [[h2 o2] r2] [<- <- <-].
have [i2 ->] := ih _ _ _ _ _ i1 e2; split=> //=.
have [_ ->] := gen_list_ext e2 lh.
by case: (omap_seq _ ks).
Qed.

Lemma omap_seq_raise (A B : Type) (f : A -> outcome B) s e :
  omap_seq f s = Raise e -> exists x, f x = Raise e.
Proof.
elim: s => [|x s ih] //=; case ex: (f x) => [y|e'] /=; last by case=> <-; exists x.
by case e2: (omap_seq f s) => [ys|e'] //= [ee]; apply: ih; rewrite e2 ee.
Qed.

(* one call *)
Notation value := (value smatV (fun k => comp k)).
Notation expected := (expected smatV (fun k => comp k)).
Lemma valE form k : (form == "Z2N"%string) || (form == "N2N"%string) ->
  val form (KOne k) = value form k.
Proof. by rewrite /val /CacheSpec.value; case: ifP => //= _ ->. Qed.

Lemma keep_fresh U h o v r : inv U h o -> fresh U v r ->
  let: (h', o', x) := keep h o r in
  inv (if x is Ok (RArr l) then l :: U else U) h' o' /\ omapo (read v0 h') x = omapo (@AArr V) v.
Proof. by move=> i; case: r => [[[h' o'] l]|e] /=; [move=> [j ->]|move=> ->]. Qed.

Lemma put_inv U h o l v : inv U h o -> l \in U -> inv U (put v0 h l v) o.
Proof.
move=> [h1 h2 h3 h4] lU; have lh : (l < size h)%N := allP h4 l lU.
have sz : size (put v0 h l v) = size h by rewrite /put size_set_nth; apply/maxn_idPr.
have hh m w : holds U h m w -> holds U (put v0 h l v) m w.
  move=> [a b e]; split=> //; first by rewrite sz.
  rewrite -e /get /Cache.get /put nth_set_nth /=; case: eqP => // ml.
  by move: b; rewrite ml lU.
split.
- exact: hh.
- case: (o_cache o) h2 => //= [k [-> [w hv e]]|d [-> g2]].
    by split=> //; exists w => //; exact: hh.
  by split=> // k m /g2 [w hv e]; exists w => //; exact: hh.
- by move=> m /h3 [w hv e]; exists w => //; exact: hh.
by rewrite sz.
Qed.

Lemma do_op_good U h o a : inv U h o -> copying a ->
  (if a is OPut l _ then l \in U else true) ->
  let: (h', o', x) := do_op v0 smatV c h o a in
  inv (if x is Ok (RArr l) then l :: U else U) h' o' /\ omapo (read v0 h') x = expected a.
Proof.
move=> i; case: a => [k b|k|k form|l v] /=.
- move=> -> _; exact: (keep_fresh i (get_copy (KOne k) i)).
- move=> _ _; exact: (keep_fresh i (getS_fresh (KOne k) i)).
- rewrite /genCoeffs -negb_or; case fm: (_ || _) => /=; last first.
    move/norP: (negbT fm) => [/negbTE f1 /negbTE f2].
    by case: k => [k|ks] /=; rewrite ?fm // /CacheSpec.value f1 f2.
  case: k => [k|ks] /=.
    move=> fz _; rewrite /gen (negbTE fz).
    have -> : value form k = omapo smatV (comp (KOne k)).
      by rewrite -valE // /val (negbTE fz).
    exact: (keep_fresh i (getS_fresh (KOne k) i)).
  move=> _ _; case e: (gen_list _ _ _ _ _ _ _) => [[h' o'] r].
  have [j er] := gen_list_good i e.
  have er' : r = omap_seq (value form) ks.
    rewrite er; elim: (ks) => //= k s ->; by rewrite valE.
  rewrite -er'; case: r {e er'} er => [vs|x] //= er.
  case: x er => //= /esym er.
  (* TypeError: the second attempt raises TypeError as well *)
  have [k ek] := omap_seq_raise er.
  have ck : comp (KOne k) = Raise TypeError.
    by move: ek; rewrite /val; case: ifP => // _; case: (comp _).
  have cl : comp (KList ks) = Raise TypeError.
    have [ki kl km] := cok; case kd: (c_kdep c); first exact: kl.
    by rewrite -ck; apply: ki; rewrite kd.
  have := gen_good form (KList ks) j.
  have vl : val form (KList ks) = Raise TypeError by rewrite /val cl; case: ifP.
  by case: (gen _ _ _ _ _ _ _) => [[[h2 o2] l]|x] /=; rewrite vl; [case|case=> <-].
by move=> _ lU; split=> //; exact: put_inv.
Qed.

Lemma run_good U h o s : inv U h o -> polite U (run v0 smatV c h o s) ->
  forall i, (i < size s)%N -> forall a0 h0 r0,
  let: (a, h', x) := nth (a0, h0, r0) (run v0 smatV c h o s) i in
  omapo (read v0 h') x = expected a.
Proof.
elim: s U h o => [|a s ih] U h o i //=.
case e: (do_op _ _ _ _ _ _) => [[h' o'] x] /= /and3P [ca pu po].
have := do_op_good i ca pu; rewrite e => -[i' ex] [|j] //= js a0 h0 r0.
exact: (ih _ _ _ i' po).
Qed.
End Inv.

Lemma new_inv V (v0 : V) (c : cls V) h p (U : seq nat) : (p < size h)%N ->
  p \notin U -> all (fun l => l < size h)%N U -> inv v0 c (get v0 h p) U h (new_obj p).
Proof. by move=> ph pU a; split. Qed.
