(* Properties C51 to C53: constructor arguments and the registries of classes. *)
From Verif.Base Require Import Str.
From mathcomp Require Import all_ssreflect.
From Verif.Base Require Import Outcome.
From Verif.Model Require Import Registry.
Set Implicit Arguments.
Unset Strict Implicit.
Unset Printing Implicit Defensive.

Section Dict.
Variable V : Type.
Implicit Types (d e : dict V) (x y : string) (v : V).

Lemma dget_set d x v y : dget y (dset x v d) = if y == x then Some v else dget y d.
Proof.
elim: d => [|[z w] d ih] //=; case: (x =P z) => [->|xz] /=; first by case: (y == z).
rewrite ih; case: (y =P z) => [->|//]; by case: (z =P x) => // zx; case: xz.
Qed.
Lemma dget_None d x : x \notin dkeys d -> dget x d = None.
Proof. by elim: d => [|[y v] d ih] //=; rewrite inE negb_or => /andP [/negbTE -> /ih]. Qed.
Lemma dget_update d e x : uniq (dkeys e) ->
  dget x (dupdate d e) = if dget x e is Some v then Some v else dget x d.
Proof.
rewrite /dupdate; elim: e d => [|[y v] e ih] d //= /andP [ye ue].
rewrite ih //= dget_set; case: (x =P y) => [->|//].
by rewrite (dget_None ye).
Qed.
Lemma dget_pop d x y : dget y (dpop x d) = if y == x then None else dget y d.
Proof.
elim: d => [|[z v] d ih] //=; first by case: ifP.
case: (z =P x) => [->|zx] /=; rewrite ih; first by case: (y =P x).
by case: (y =P z) => [->|//]; case: (z =P x).
Qed.
Lemma dkeys_set d x v : dkeys (dset x v d) = if x \in dkeys d then dkeys d else rcons (dkeys d) x.
Proof.
elim: d => [|[y w] d ih] //=; rewrite inE; case: (x =P y) => [->|_] //=.
by rewrite ih; case: ifP.
Qed.
Lemma uniq_set d x v : uniq (dkeys d) -> uniq (dkeys (dset x v d)).
Proof. by rewrite dkeys_set; case: ifP => // /negbT xd ud; rewrite rcons_uniq xd. Qed.
Lemma uniq_update d e : uniq (dkeys d) -> uniq (dkeys (dupdate d e)).
Proof. by rewrite /dupdate; elim: e d => [|[x v] e ih] d //= ud; apply: ih; exact: uniq_set. Qed.
Lemma uniq_pop d x : uniq (dkeys d) -> uniq (dkeys (dpop x d)).
Proof.
have -> : dkeys (dpop x d) = [seq y <- dkeys d | y != x] by rewrite /dkeys filter_map.
exact: filter_uniq.
Qed.
(* the positional argument for the parameter x *)
Definition positional (names : seq string) (args : seq V) x : option V :=
  if x \in names then ohead (drop (index x names) args) else None.
Lemma dget_zip names (args : seq V) x : uniq names -> dget x (dzip names args) = positional names args x.
Proof.
move=> un; rewrite /dzip dget_update; last first.
  apply: subseq_uniq un; rewrite /dkeys; elim: names args => [|n names ih] [|a args] //=.
  by rewrite eqxx ih.
rewrite /positional; elim: names args un => [|n names ih] [|a args] //=.
  by case: ifP.
move=> /andP [nn un]; rewrite inE; case: (x =P n) => [->|xn] /=; first by rewrite eqxx.
rewrite ih //; have -> : (n == x) = false by apply/eqP => e; case: xn.
by [].
Qed.
End Dict.

(* C51 *)
Section UseQGen.
Variables (V G : Type).
Notation arg := (arg V G).
Implicit Types (kwargs : dict arg) (args : seq arg).
Variable extract : arg -> outcome (dict arg).
Variable pNames : seq string.
Hypothesis up : uniq pNames.

(* where the value of a parameter comes from: keywords, then positional arguments, then those
   extracted from the generator *)
Definition resolve args kwargs (e : dict arg) (x : string) : option arg :=
  match (if x \in [:: "qGen"; "coll"]%string then None else dget x kwargs) with
  | Some v => Some v
  | None => match positional pNames args x with Some v => Some v | None => dget x e end
  end.
(* the generator that was given, by either name; None is the same as not giving one *)
Definition given kwargs : option arg :=
  match dget "qGen" kwargs, dget "coll" kwargs with
  | Some ANoneV, _ => None
  | Some g, _ => Some g
  | None, Some ANoneV => None
  | None, r => r
  end.
Definition both kwargs : bool := isSome (dget "qGen" kwargs) && isSome (dget "coll" kwargs).

Lemma wrapperE (R : Type) (init : dict arg -> outcome R) args kwargs : uniq (dkeys kwargs) ->
  ~~ both kwargs ->
  exists kw, [/\ uniq (dkeys kw),
    forall x, dget x kw = if x \in [:: "qGen"; "coll"]%string then None else dget x kwargs &
    wrapper init extract pNames args kwargs =
    let params := dupdate (dzip pNames args) kw in
    if given kwargs is Some g then dop e <- extract g; init (dupdate e params) else init params].
Proof.
move=> uk; rewrite /both /wrapper /given negb_and.
case ec: (dget "coll" kwargs) => [c|] /=; last first.
  move=> _; exists (dpop "qGen" kwargs); split; first exact: uniq_pop.
    by move=> x; rewrite dget_pop !inE; case: (x =P "qGen"%string) => //= _; case: eqP => // ->.
  by case: (dget "qGen" kwargs) => [[g| |v]|].
rewrite orbF; case eq: (dget "qGen" kwargs) => [q|] //= _.
exists (dpop "qGen" (dset "qGen" c (dpop "coll" kwargs))); split.
- by apply: uniq_pop; apply: uniq_set; exact: uniq_pop.
- move=> x; rewrite dget_pop dget_set dget_pop !inE.
  by case: (x =P "qGen"%string).
by rewrite dget_set eqxx; case: c {ec}.
Qed.

(* C51: the constructor is called with the resolved parameters *)
Theorem C51_resolution (R : Type) (init : dict arg -> outcome R) args kwargs : uniq (dkeys kwargs) ->
  ~~ both kwargs ->
  let called e := exists2 d, wrapper init extract pNames args kwargs = init d &
                    forall x, dget x d = resolve args kwargs e x in
  match given kwargs with
  | None => called [::]
  | Some g => match extract g with
              | Ok e => called e
              | Raise x => wrapper init extract pNames args kwargs = Raise x
              end
  end.
Proof.
move=> uk nb; have [kw [ukw ekw ->]] := wrapperE init args uk nb.
rewrite /resolve /=; case: (given kwargs) => [g|].
  case: (extract g) => [e|x] //=; exists (dupdate e (dupdate (dzip pNames args) kw)) => // x.
  rewrite dget_update; last by apply: uniq_update; apply: uniq_update.
  by rewrite dget_update // dget_zip // ekw; case: ifP => _; [|case: (dget x kwargs) => //]; case: (positional _ _ _).
exists (dupdate (dzip pNames args) kw) => // x.
by rewrite dget_update // dget_zip // ekw; case: ifP => _; [|case: (dget x kwargs) => //]; case: (positional _ _ _).
Qed.

(* the value received by each named parameter of the constructor *)
Theorem C51_values (sig : seq (string * option arg)) args kwargs g e : uniq (dkeys kwargs) ->
  ~~ both kwargs -> given kwargs = Some g -> extract g = Ok e ->
  wrapper (bind sig) extract pNames args kwargs =
  omap_seq (fun p => match resolve args kwargs e p.1, p.2 with
                     | Some v, _ => Ok v | None, Some v => Ok v | None, None => Raise TypeError end) sig.
Proof.
move=> uk nb gk eg; have [kw [ukw ekw ->]] := wrapperE (bind sig) args uk nb.
rewrite gk eg /= /bind; apply: omap_seq_ext => p.
have -> : dget p.1 (dupdate e (dupdate (dzip pNames args) kw)) = resolve args kwargs e p.1.
  rewrite dget_update; last by apply: uniq_update; apply: uniq_update.
  rewrite dget_update // dget_zip // ekw /resolve.
  by case: ifP => _; [|case: (dget p.1 kwargs) => //]; case: (positional _ _ _).
by case: (resolve _ _ _ _) => [v|] //; case: (p.2).
Qed.

(* coll and qGen *)
Theorem C51_both (R : Type) (init : dict arg -> outcome R) args kwargs :
  both kwargs -> wrapper init extract pNames args kwargs = Raise AssertionError.
Proof. by rewrite /both /wrapper; case: (dget "qGen" kwargs) => //= q; case: (dget "coll" kwargs). Qed.

Theorem C51_coll_alias (R : Type) (init : dict arg -> outcome R) args kwargs g :
  (forall d d', (forall x, dget x d = dget x d') -> init d = init d') ->
  uniq (dkeys kwargs) -> "qGen"%string \notin dkeys kwargs -> "coll"%string \notin dkeys kwargs ->
  wrapper init extract pNames args (("coll"%string, g) :: kwargs) =
  wrapper init extract pNames args (("qGen"%string, g) :: kwargs).
Proof.
move=> ext uk qk ck.
have u1 : uniq (dkeys (("coll"%string, g) :: kwargs)) by rewrite /= ck.
have u2 : uniq (dkeys (("qGen"%string, g) :: kwargs)) by rewrite /= qk.
have g0 : dget "qGen" kwargs = None := dget_None qk.
have c0 : dget "coll" kwargs = None := dget_None ck.
have b1 : ~~ both (("coll"%string, g) :: kwargs) by rewrite /both /= g0.
have b2 : ~~ both (("qGen"%string, g) :: kwargs) by rewrite /both /= c0.
have [kw1 [uk1 ek1 ->]] := wrapperE init args u1 b1.
have [kw2 [uk2 ek2 ->]] := wrapperE init args u2 b2.
have -> : given (("coll"%string, g) :: kwargs) = given (("qGen"%string, g) :: kwargs).
  by rewrite /given /= g0; case: (g).
have kk x : dget x kw1 = dget x kw2.
  by rewrite ek1 ek2 /= !inE; case: eqP => //= _; case: eqP.
have pp x : dget x (dupdate (dzip pNames args) kw1) = dget x (dupdate (dzip pNames args) kw2).
  by rewrite (dget_update _ _ uk1) (dget_update _ _ uk2) kk.
rewrite /=; case: (given _) => [g'|]; last exact: ext.
case: (extract g') => [e|] //=; apply: ext => x.
have uu kw : uniq (dkeys (dupdate (dzip pNames args) kw)) by do 2! apply: uniq_update.
by rewrite (dget_update _ _ (uu kw1)) (dget_update _ _ (uu kw2)) pp.
Qed.

(* classes that inherit a wrapped constructor wrap it again *)
Theorem C51_nested (R : Type) (init : dict arg -> outcome R) args kwargs :
  (forall d d', (forall x, dget x d = dget x d') -> init d = init d') ->
  (forall g e, extract g = Ok e -> uniq (dkeys e) /\
     ("qGen"%string \notin dkeys e) && ("coll"%string \notin dkeys e)) ->
  "qGen"%string \notin pNames -> "coll"%string \notin pNames -> uniq (dkeys kwargs) ->
  wrapper (wrapper init extract pNames [::]) extract pNames args kwargs =
  wrapper init extract pNames args kwargs.
Proof.
move=> ext ex qn cn uk; case nb: (both kwargs); first by rewrite !C51_both.
have inner d : uniq (dkeys d) -> dget "qGen" d = None -> dget "coll" d = None ->
    wrapper init extract pNames [::] d = init d.
  move=> ud dq dc; rewrite /wrapper dc /= dq; apply: ext => x.
  rewrite dget_update ?uniq_pop // dget_zip // dget_pop /positional /=.
  case: (x =P "qGen"%string) => [->|_]; first by rewrite dq; case: ifP.
  by case: (dget x d) => //; case: ifP.
have [kw [ukw ekw ->]] := wrapperE (wrapper init extract pNames [::]) args uk (negbT nb).
have [kw' [ukw' ekw' ->]] := wrapperE init args uk (negbT nb).
set params := dupdate (dzip pNames args) kw.
have up1 : uniq (dkeys params) by do 2! apply: uniq_update.
have nop x : x \in [:: "qGen"; "coll"]%string -> dget x params = None.
  move=> xx; rewrite dget_update // ekw xx dget_zip // /positional.
  case: ifP => // xp; move: xx; rewrite !inE => /orP [] /eqP e.
    by move: qn; rewrite -e xp.
  by move: cn; rewrite -e xp.
have same x : dget x params = dget x (dupdate (dzip pNames args) kw').
  by rewrite (dget_update _ _ ukw) (dget_update _ _ ukw') ekw ekw'.
rewrite /=; case: (given kwargs) => [g|]; last by rewrite inner ?nop //; exact: ext.
case eg: (extract g) => [e|] //=; have [ue /andP [e1 e2]] := ex _ _ eg.
have up2 : uniq (dkeys (dupdate (dzip pNames args) kw')) by do 2! apply: uniq_update.
rewrite inner; first by apply: ext => x; rewrite (dget_update _ _ up1) (dget_update _ _ up2) same.
- exact: uniq_update.
- by rewrite dget_update // nop // dget_None.
by rewrite dget_update // nop // dget_None.
Qed.

(* Deviations from Python's calling convention: surplus positional arguments are dropped, and a
   keyword replaces a positional argument for the same parameter *)
Theorem C51_surplus (R : Type) (init : dict arg -> outcome R) args more kwargs : (size pNames <= size args)%N ->
  wrapper init extract pNames (args ++ more) kwargs = wrapper init extract pNames args kwargs.
Proof.
move=> pa; rewrite /wrapper.
have -> : dzip pNames (args ++ more) = dzip pNames args.
  rewrite /dzip; congr dupdate; move: pNames args pa => q; elim: q => [|n names ih] [|a args] //= pa.
    by case: more.
  by rewrite ih.
by [].
Qed.
End UseQGen.
Print Assumptions C51_resolution.
Print Assumptions C51_values.
Print Assumptions C51_both.
Print Assumptions C51_coll_alias.
Print Assumptions C51_nested.
Print Assumptions C51_surplus.

(* TimeStepping: parameters nodes and tLeft=0, nodes extracted from the generator *)
Section ExUse.
Let A := arg nat unit.
Definition ts_sig : seq (string * option A) := [:: ("nodes"%string, None); ("tLeft"%string, Some (AVal unit 0))].
Definition ts_extract (g : A) : outcome (dict A) :=
  if g is AGen _ then Ok [:: ("nodes"%string, AVal unit 7)] else Raise AssertionError.
Definition ts_names : seq string := [:: "nodes"; "tLeft"]%string.
Notation wr := (wrapper (bind ts_sig) ts_extract ts_names).

Example C51_nonvacuous :
  wr [::] [:: ("qGen"%string, AGen nat tt)] = Ok [:: AVal unit 7; AVal unit 0] /\
  wr [:: AVal unit 3] [:: ("coll"%string, AGen nat tt); ("tLeft"%string, AVal unit 2)] =
    Ok [:: AVal unit 3; AVal unit 2] /\
  wr [:: AVal unit 3] [:: ("nodes"%string, AVal unit 4); ("Q"%string, AVal unit 9)] =
    Ok [:: AVal unit 4; AVal unit 0] /\
  wr [::] [:: ("tLeft"%string, AVal unit 2)] = Raise TypeError.
Proof. by []. Qed.

(* the premises of C51_nested *)
Example C51_nested_nonvacuous :
  (forall d d' : dict A, (forall x, dget x d = dget x d') -> bind ts_sig d = bind ts_sig d') /\
  (forall g e, ts_extract g = Ok e -> uniq (dkeys e) /\
     ("qGen"%string \notin dkeys e) && ("coll"%string \notin dkeys e)).
Proof.
split; first by move=> d d' h; rewrite /bind /= !h.
by move=> [g| |v] e //= [<-].
Qed.
End ExUse.

(* C52 *)
Section Registry.
Variable C : eqType.
Implicit Types (d : dict C) (c : C).

Lemma dset_new d x c : x \notin dkeys d -> dset x c d = rcons d (x, c).
Proof. by elim: d => [|[y v] d ih] //=; rewrite inE negb_or => /andP [/negbTE -> /ih ->]. Qed.
Lemma dget_some d x c : dget x d = Some c -> x \in dkeys d.
Proof. by elim: d => [|[y v] d ih] //=; rewrite inE; case: eqP => //= _ /ih. Qed.
Lemma alias_mono d c a x v : dget x d = Some v -> dget x (storeAlias c d a).1 = Some v.
Proof.
rewrite /storeAlias; case: ifP => //= /negbT an gx; rewrite dget_set; case: eqP => // xa.
by move: an; rewrite -xa (dget_some gx).
Qed.
Lemma aliases_mono l d c x v : dget x d = Some v -> dget x (storeAliases c d l).1 = Some v.
Proof.
elim: l d => [|a l ih] d //= gx; have := alias_mono c a gx.
by case: (storeAlias c d a) => d' [_|e] //=; exact: ih.
Qed.
Lemma class_mono d c n al x v : dget x d = Some v -> dget x (storeClass c n al d).1 = Some v.
Proof.
move=> gx; rewrite /storeClass; have := alias_mono c n gx.
case: (storeAlias c d n) => d' [_|e] //=; case: al => //= l; exact: aliases_mono.
Qed.

(* C52: names keep their class *)
Theorem C52_stable d s x v : dget x d = Some v -> dget x (storeAll d s) = Some v.
Proof.
rewrite /storeAll; elim: s d => [|[[c n] al] s ih] d //= gx; apply: ih; exact: class_mono.
Qed.

Theorem C52_existing_name d c n al : n \in dkeys d -> storeClass c n al d = (d, Raise AssertionError).
Proof. by rewrite /storeClass /storeAlias => ->. Qed.

Definition entries c (l : seq string) : dict C := [seq (x, c) | x <- l].
Lemma keys_entries c l : dkeys (entries c l) = l.
Proof. by rewrite /dkeys /entries -map_comp map_id. Qed.
Lemma keys_cat d d' : dkeys (d ++ d') = dkeys d ++ dkeys d'. Proof. exact: map_cat. Qed.

(* the state after storing some names: the names before the first one that is taken *)
Lemma storeAliasesE c l d : exists i,
  [/\ (i <= size l)%N, (storeAliases c d l).1 = d ++ entries c (take i l),
      uniq (take i l) /\ ~~ has (mem (dkeys d)) (take i l) &
      ((storeAliases c d l).2 = Ok tt /\ i = size l) \/
      ((storeAliases c d l).2 = Raise AssertionError /\ (i < size l)%N /\
       nth ""%string l i \in dkeys d ++ take i l)].
Proof.
elim: l d => [|a l ih] d /=; first by exists 0; split; rewrite ?cats0 //; left.
rewrite /storeAlias; case: ifP => ad /=.
  by exists 0; split; rewrite ?cats0 //; right; split=> //; rewrite ltn0Sn cats0.
rewrite dset_new ?ad //; have [i [il e1 [u h] e2]] := ih (rcons d (a, c)).
have kr : dkeys (rcons d (a, c)) = rcons (dkeys d) a by rewrite /dkeys map_rcons.
rewrite kr in h e2; exists i.+1; split=> //=.
- by rewrite e1 -cats1 -catA.
- split; first rewrite u andbT; last rewrite ad /=.
    by apply/negP => ain; move/hasPn: h => /(_ a ain); rewrite /= mem_rcons inE eqxx.
  by apply/hasPn => x xt; move/hasPn: h => /(_ x xt); rewrite /= mem_rcons inE negb_or => /andP [].
case: e2 => [[-> ->]|[-> [isl n]]]; first by left.
by right; split=> //; split=> //; move: n; rewrite -cats1 -catA.
Qed.

(* C52: registration succeeds if and only if the name and the aliases are new and distinct *)
Theorem C52_success_iff d c n l :
  (storeClass c n (AList l) d).2 = Ok tt <-> uniq (n :: l) /\ ~~ has (mem (dkeys d)) (n :: l).
Proof.
have -> : storeClass c n (AList l) d = storeAliases c d (n :: l).
  by rewrite /storeClass /=; case: (storeAlias c d n) => d' [].
have [i [il e1 [u h] [[e2 ei]|[e2 [isl m]]]]] := storeAliasesE c (n :: l) d; rewrite e2.
  by rewrite ei take_size in u h.
split=> // -[u' h']; move: m; rewrite mem_cat => /orP [nd|nt].
  by move/hasPn: h' => /(_ (nth ""%string (n :: l) i) (mem_nth _ isl)); rewrite /= nd.
have : ~~ has (mem (take i (n :: l))) (drop i (n :: l)).
  by move: u'; rewrite -{1}(cat_take_drop i (n :: l)) cat_uniq => /and3P [].
have xd : nth ""%string (n :: l) i \in drop i (n :: l) by rewrite (drop_nth ""%string isl) inE eqxx.
by move/hasPn => /(_ _ xd); rewrite /= nt.
Qed.
Theorem C52_stored d c n l : (storeClass c n (AList l) d).2 = Ok tt ->
  (storeClass c n (AList l) d).1 = d ++ entries c (n :: l).
Proof.
have -> : storeClass c n (AList l) d = storeAliases c d (n :: l).
  by rewrite /storeClass /=; case: (storeAlias c d n) => d' [].
have [i [il -> _ [[e2 ->]|[-> _]]]] := storeAliasesE c (n :: l) d; last by [].
by rewrite take_size.
Qed.

Lemma alias_uniq d c a : uniq (dkeys d) -> uniq (dkeys (storeAlias c d a).1).
Proof. by rewrite /storeAlias; case: ifP => //= _; exact: uniq_set. Qed.
Theorem C52_keys_unique d s : uniq (dkeys d) -> uniq (dkeys (storeAll d s)).
Proof.
rewrite /storeAll; elim: s d => [|[[c n] al] s ih] d //= ud; apply: ih.
rewrite /storeClass; have := alias_uniq c n ud.
case: (storeAlias c d n) => d' [_|e] //=; case: al => //= l; elim: l d' => [|a l ih] d' //= ud'.
have := alias_uniq c a ud'; case: (storeAlias c d' a) => d2 [_|e] //=; exact: ih.
Qed.

(* C52: getClasses lists every class of the module once, with its first key, in the order of the
   registry *)
Definition first_key d (p : string * C) : bool := ohead [seq q.1 | q <- d & q.2 == p.2] == Some p.1.
Theorem C52_getClasses check d : uniq (dkeys d) ->
  getClasses check d = [seq p <- d | check p.2 && first_key d p].
Proof.
move=> ud; rewrite /getClasses.
suff H d1 : forall d2, uniq (dkeys (d1 ++ d2)) ->
   foldl (fun cl p => if (p.2 \notin [seq q.2 | q <- cl]) && check p.2 then dset p.1 p.2 cl else cl)
     [seq p <- d1 | check p.2 && first_key d1 p] d2 =
   [seq p <- d1 ++ d2 | check p.2 && first_key (d1 ++ d2) p] by exact: (H [::]).
move=> d2; elim: d2 d1 => [|[x c] d2 ih] d1 /= ud12; first by rewrite cats0.
rewrite -cat_rcons -ih ?cat_rcons //; congr foldl.
(* one step *)
have fk p : p \in d1 -> first_key (rcons d1 (x, c)) p = first_key d1 p.
  move=> pd; rewrite /first_key -cats1 filter_cat map_cat; case e: [seq q.1 | q <- d1 & q.2 == p.2] => //=.
  by have : p.1 \in [seq q.1 | q <- d1 & q.2 == p.2]; [apply: map_f; rewrite mem_filter eqxx|rewrite e].
rewrite filter_rcons /=.
have -> : [seq p <- d1 | check p.2 && first_key (rcons d1 (x, c)) p] = [seq p <- d1 | check p.2 && first_key d1 p].
  by apply: eq_in_filter => p pd; rewrite fk.
set f := [seq p <- d1 | _].
have inF : check c -> (c \in [seq q.2 | q <- f]) = (c \in [seq q.2 | q <- d1]).
  move=> cc; apply/mapP/mapP => [[q]|[q qd e]].
    by rewrite mem_filter => /andP [_ qd] e; exists q.
  have : has (fun q => q.2 == c) d1 by apply/hasP; exists q => //; rewrite -e.
  move=> hs; exists (nth q d1 (find (fun q => q.2 == c) d1)); last by rewrite (eqP (nth_find q hs)).
  rewrite mem_filter mem_nth -?has_find // andbT (eqP (nth_find q hs)) cc /first_key /=.
  by rewrite (eqP (nth_find q hs)); elim: (d1) hs => //= a s ih2; case: ifP => //= _; rewrite ?eqxx.
have fx : first_key (rcons d1 (x, c)) (x, c) = (c \notin [seq q.2 | q <- d1]).
  rewrite /first_key -cats1 filter_cat map_cat /= eqxx.
  case e: [seq q <- d1 | q.2 == c] => [|q s] /=.
    rewrite eqxx; apply/esym/negP => /mapP [q qd eq].
    by have : q \in [seq q <- d1 | q.2 == c]; [rewrite mem_filter -eq eqxx|rewrite e].
  have : q \in [seq q <- d1 | q.2 == c] by rewrite e inE eqxx.
  rewrite mem_filter => /andP [/eqP qc qd]; rewrite -qc map_f //.
  apply/eqP => -[qx]; move: ud12; rewrite keys_cat cat_uniq /= => /and3P [_ /norP [+ _] _].
  by rewrite -qx map_f.
rewrite fx andbC; case cc: (check c) => //=; rewrite inF //; case: ifP => // _.
rewrite dset_new //; apply/negP => /mapP [q]; rewrite mem_filter => /andP [_ qd] qx.
by move: ud12; rewrite keys_cat cat_uniq /= => /and3P [_ /norP [+ _] _]; rewrite qx map_f.
Qed.
Theorem C52_getClasses_once check d c : uniq (dkeys d) ->
  count_mem c [seq q.2 | q <- getClasses check d] = ((c \in [seq q.2 | q <- d]) && check c) :> nat.
Proof.
move=> ud; rewrite C52_getClasses // count_map.
have eF : count (preim snd (pred1 c)) [seq p <- d | check p.2 && first_key d p] =
    count (fun p => (p.2 == c) && (check c && (ohead [seq q.1 | q <- d & q.2 == c] == Some p.1))) d.
  rewrite count_filter; apply: eq_count => p /=; rewrite /first_key.
  by case: (p.2 =P c) => // ->.
rewrite eF; case cc: (check c); last by rewrite andbF (eq_count (a2 := pred0)) ?count_pred0 // => p /=; rewrite andbF.
rewrite andbT /= {eF}.
case e: [seq q <- d | q.2 == c] => [|q s] /=.
  rewrite (eq_in_count (a2 := pred0)) ?count_pred0 => [|p pd /=].
    case: mapP => // -[q qd qc]; have : q \in [seq q <- d | q.2 == c] by rewrite mem_filter -qc eqxx.
    by rewrite e.
  by rewrite andbF.
have qm : q \in [seq q <- d | q.2 == c] by rewrite e inE eqxx.
move: qm; rewrite mem_filter => /andP [/eqP qc qd].
have -> : c \in [seq q.2 | q <- d] by rewrite -qc map_f.
rewrite (eq_in_count (a2 := pred1 q)) ?count_uniq_mem ?qd //; first exact: map_uniq ud.
move=> p pd /=; apply/andP/eqP => [[_ /eqP [e1]]|->]; last by rewrite qc !eqxx.
have [i il ei] := nthP q pd; have [j jl ej] := nthP q qd.
have e2 : nth q.1 (dkeys d) i == nth q.1 (dkeys d) j by rewrite !(nth_map q) // ei ej -e1.
have sz : size (dkeys d) = size d by rewrite size_map.
by move: e2; rewrite nth_uniq ?sz // => /eqP ij; rewrite -ei ij.
Qed.

(* C53: a registration that fails at an alias *)
Theorem C53_class_stays d c n al : n \notin dkeys d ->
  dget n (storeClass c n al d).1 = Some c.
Proof.
move=> nd; rewrite /storeClass /storeAlias (negbTE nd).
have gn : dget n (dset n c d) = Some c by rewrite dget_set eqxx.
case: al => //= l; exact: aliases_mono.
Qed.
Theorem C53_unchanged_iff d c n al : (storeClass c n al d).2 = Raise AssertionError ->
  (storeClass c n al d).1 = d <-> n \in dkeys d.
Proof.
move=> _; split=> [e|nd]; last by rewrite C52_existing_name.
apply/negPn/negP => nd; have := C53_class_stays c al nd; rewrite e => /dget_some.
by rewrite (negbTE nd).
Qed.
(* the registry after a failure: the names before the first conflict are kept *)
Theorem C53_state d c n l : (storeClass c n (AList l) d).2 = Raise AssertionError ->
  exists i, [/\ (i < size (n :: l))%N, nth ""%string (n :: l) i \in dkeys d ++ take i (n :: l) &
                (storeClass c n (AList l) d).1 = d ++ entries c (take i (n :: l))].
Proof.
have -> : storeClass c n (AList l) d = storeAliases c d (n :: l).
  by rewrite /storeClass /=; case: (storeAlias c d n) => d' [].
have [i [il e1 _ [[-> _]|[_ [isl m]]]]] := storeAliasesE c (n :: l) d => // _.
by exists i.
Qed.
(* a subclass that does not define its own aliases, after its parent was registered *)
Theorem C53_inherited_aliases d c c' n n' a l chain :
  (storeClass c n (AList (a :: l)) d).2 = Ok tt -> getaliases chain = AList (a :: l) ->
  n' \notin dkeys (storeClass c n (AList (a :: l)) d).1 ->
  let r := storeClass c' n' (getaliases (None :: chain)) (storeClass c n (AList (a :: l)) d).1 in
  r.2 = Raise AssertionError /\ dget n' r.1 = Some c'.
Proof.
move=> ok ga nn; rewrite /getaliases /= -/(getaliases chain) ga; split; last exact: C53_class_stays.
have ad : a \in dkeys (storeClass c n (AList (a :: l)) d).1.
  by rewrite C52_stored // keys_cat keys_entries mem_cat !inE eqxx !orbT.
set d1 := (storeClass _ _ _ _).1 in nn ad *.
rewrite /storeClass /storeAlias (negbTE nn) /= /storeAlias.
by rewrite dkeys_set (negbTE nn) mem_rcons inE ad orbT.
Qed.
(* the aliases of a class are those of the first class in its chain of base classes, itself first,
   that defines some *)
Theorem C53_nearest_aliases (pre post : seq (option aliases)) a :
  (forall x, List.In x pre -> x = None) ->
  getaliases pre = ANone /\ getaliases (pre ++ Some a :: post) = a.
Proof.
elim: pre => [|x pre ih] h //; rewrite (h x) /=; last by left.
by apply: ih => y hy; apply: h; right.
Qed.
End Registry.
Print Assumptions C53_nearest_aliases.
Print Assumptions C52_stable.
Print Assumptions C52_existing_name.
Print Assumptions C52_success_iff.
Print Assumptions C52_stored.
Print Assumptions C52_keys_unique.
Print Assumptions C52_getClasses.
Print Assumptions C52_getClasses_once.
Print Assumptions C53_class_stays.
Print Assumptions C53_unchanged_iff.
Print Assumptions C53_state.
Print Assumptions C53_inherited_aliases.

Section ExReg.
Local Open Scope string_scope.
(* the registration of Jumper, FlexJumper and of a class with a taken alias *)
Definition ex_regs : seq (nat * string * aliases) :=
  [:: (1, "Jumper", AList [:: "JUMPER"; "FB"]); (2, "FlexJumper", AList [:: "FLEX-JUMPER"; "FB2"]);
      (3, "Other", AList [:: "OTHER"; "FB"])].
Example C52_nonvacuous :
  storeAll [::] (take 2 ex_regs) = [:: ("Jumper", 1); ("JUMPER", 1); ("FB", 1); ("FlexJumper", 2); ("FLEX-JUMPER", 2); ("FB2", 2)] /\
  getClasses (fun _ => true) (storeAll [::] ex_regs) = [:: ("Jumper", 1); ("FlexJumper", 2); ("Other", 3)].
Proof. by []. Qed.

(* C53: the expected property does not hold *)
Theorem C53_atomic_refuted : exists (d : dict nat_eqType) c n l,
  (storeClass c n (AList l) d).2 = Raise AssertionError /\ (storeClass c n (AList l) d).1 <> d /\
  c \in [seq q.2 | q <- getClasses (fun _ => true) (storeClass c n (AList l) d).1].
Proof. by exists (storeAll [::] (take 2 ex_regs)), 3, "Other", [:: "OTHER"; "FB"]. Qed.
Print Assumptions C53_atomic_refuted.
Example C53_inherited_nonvacuous :
  (storeClass (1 : nat_eqType) "Jumper" (AList [:: "JUMPER"]) [::]).2 = Ok tt /\
  getaliases [:: Some (AList [:: "JUMPER"]); None] = AList [:: "JUMPER"] /\
  "Sub" \notin dkeys (storeClass (1 : nat_eqType) "Jumper" (AList [:: "JUMPER"]) [::]).1.
Proof. by []. Qed.
Example C53_nearest_nonvacuous :
  getaliases [:: None; Some (AList [:: "A"]); Some (AList [:: "B"])] = AList [:: "A"].
Proof. by []. Qed.
End ExReg.
