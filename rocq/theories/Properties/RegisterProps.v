(* Properties C72 and C73: the registration decorators, and the registries of the package. *)
From Verif.Base Require Import Str.
From mathcomp Require Import all_ssreflect.
From Verif.Base Require Import Outcome.
From Verif.Model Require Import QGen Butcher Registry Register Shipped.
From Verif.Spec Require Import RegisterSpec.
From Verif.Properties Require Import RegistryProps.
Set Implicit Arguments.
Unset Strict Implicit.
Unset Printing Implicit Defensive.
Local Open Scope seq_scope.

(* lookups *)
Lemma pmap_first (w : world) x (s : seq nat) (a : attr) :
  ohead (pmap (fun j => dget x (k_attrs (w j))) s) = Some a <->
  exists pre j post, [/\ s = pre ++ j :: post,
    forall h, h \in pre -> dget x (k_attrs (w h)) = None & dget x (k_attrs (w j)) = Some a].
Proof.
elim: s => [|h s ih] /=; first by split=> // -[[|? ?] [? [? [] //]]].
case e: (dget x (k_attrs (w h))) => [b|] /=.
  split=> [[<-]|[[|q pre] [j [post [[eh es] n ej]]]]].
  - by exists [::], h, s; split.
  - by rewrite -eh e in ej.
  by have := n q (mem_head _ _); rewrite -eh e.
apply: (iff_trans ih); split=> [[pre [j [post [-> n ej]]]]|[[|q pre] [j [post [[eh es] n ej]]]]].
- exists (h :: pre), j, post; split=> // u; rewrite inE => /predU1P [->|] //; exact: n.
- by rewrite -eh e in ej.
by exists pre, j, post; split=> // u up; apply: n; rewrite inE up orbT.
Qed.
Lemma getattrP w i x a : getattr w i x = Some a <-> attr_is w i x a.
Proof. exact: pmap_first. Qed.
Lemma getattrN w i x : getattr w i x = None <-> no_attr w i x.
Proof.
rewrite /getattr /no_attr; elim: (k_mro (w i)) => [|h s ih] /=; first by split.
case e: (dget x (k_attrs (w h))) => [b|] /=.
  by split=> // /(_ h (mem_head _ _)); rewrite e.
apply: (iff_trans ih); split=> n q; last by move=> qs; apply: n; rewrite inE qs orbT.
by rewrite inE => /predU1P [->|] //; exact: n.
Qed.
Lemma attr_fun w i x a b : attr_is w i x a -> attr_is w i x b -> a = b.
Proof. by move=> /getattrP e /getattrP; rewrite e => -[]. Qed.
Lemma mro_m2P w i b : mro_m2 w i = Some b <-> base_of w i b.
Proof.
rewrite /mro_m2 /base_of; split.
  rewrite -{2}(revK (k_mro (w i))); case: (rev _) => [|o [|q s]] //= [<-].
  by exists (rev s), o; rewrite !rev_cons -!cats1 -catA.
by case=> s [o ->]; rewrite rev_cat.
Qed.
Lemma getparamP s x p : getparam s x = Some p <-> param_is s x p.
Proof.
rewrite /getparam /param_is; elim: s => [|q s ih] /=; first by split=> // -[[|? ?] [? [] //]].
case: eqP => [qx|nq] /=.
  split=> [[<-]|[[|r l1] [l2 [[er es] px nx]]]]; first by exists [::], s.
    by rewrite er.
  by move: nx; rewrite /= inE -er qx eqxx.
apply: (iff_trans ih); split=> [[l1 [l2 [-> px nx]]]|[[|r l1] [l2 [[er es] px nx]]]].
- by exists (q :: l1), l2; split=> //=; rewrite inE negb_or nx andbT eq_sym; apply/eqP.
- by rewrite er in nq.
by exists l1, l2; split=> //; move: nx; rewrite /= inE negb_or => /andP [].
Qed.

Lemma attr_eqP a b : reflect (same_object a b) (attr_eq a b).
Proof.
apply: (iffP idP).
  case: a b => [f s n|g||c|l|l|l||g] [f' s' n'|g'||c'|l'|l'|l'||g'] //=; try by move/eqP => ->; left.
  - by case/andP => /eqP -> /eqP ->; right; exists f', s, s', n'.
  - by left.
  by left.
case=> [->|[f [s [t [n [-> ->]]]]]]; last by rewrite /= !eqxx.
by case: b => //= *; rewrite ?eqxx.
Qed.

Lemma checkOverridingP w i x b : checkOverriding w i x b = Ok tt <->
  exists2 a, overrides w i x a & b -> is_prop a.
Proof.
rewrite /checkOverriding /overrides; split.
  case e: (getattr w i x) => [a|] //; case e2: (mro_m2 w i) => [h|] //.
  case e3: (getattr w h x) => [a'|] //; case: ifP => // ne; case: ifP => // /negbT np _.
  exists a; last by move=> bt; move: np; rewrite bt negbK.
  split; first exact/getattrP.
  by exists h, a'; split; [exact/mro_m2P|exact/getattrP|move/attr_eqP; rewrite ne].
case=> a [/getattrP -> [h [a' [/mro_m2P -> /getattrP -> /attr_eqP /negbTE ->]]]] bp.
by case: b bp => //= ->.
Qed.


(* assignments *)
Lemma dget_dset (V : Type) x y (v : V) d : dget y (dset x v d) = if y == x then Some v else dget y d.
Proof.
elim: d => [|[z u] d ih] /=; first by case: eqP.
case: (x =P z) => [<-|nz] /=; first by case: eqP.
by rewrite ih; case: (y =P z) => // ->; case: eqP => // zx; case: nz.
Qed.
Lemma getattr_other w i x a j y : y != x -> getattr (setattr w i x a) j y = getattr w j y.
Proof.
move=> yx; rewrite /getattr /setattr; congr ohead.
have -> : k_mro (if j == i then Klass (k_name (w j)) (k_mro (w j)) (dset x a (k_attrs (w j))) else w j) = k_mro (w j) by case: ifP.
by apply: eq_pmap => h; case: ifP => //= _; rewrite dget_dset (negbTE yx).
Qed.
(* a class is the first of its resolution order *)
Definition wf (w : world) (i : nat) : Prop := exists s, k_mro (w i) = i :: s.
Lemma wf_set w i x a j : wf w j -> wf (setattr w i x a) j.
Proof. by case=> s e; exists s; rewrite -e /setattr; case: ifP. Qed.
Lemma getattr_same w i x a : wf w i -> getattr (setattr w i x a) i x = Some a.
Proof. by case=> s e; rewrite /getattr /setattr eqxx /= e /= eqxx /= dget_dset eqxx. Qed.
Lemma same_but_set w w' i xs x a : same_but w w' i xs -> same_but w (setattr w' i x a) i (x :: xs).
Proof.
case=> [h1 [h2 [h3 h4]]]; rewrite /setattr; split; first by move=> j /eqP ji; rewrite (negbTE ji) h1 //; apply/eqP.
rewrite eqxx /=; split=> //; split=> // y; rewrite inE negb_or => /andP [yx yn].
by rewrite dget_dset (negbTE yx) h4.
Qed.
Lemma same_but0 w i : same_but w w i [::]. Proof. by []. Qed.
Lemma name_set w i x a j : k_name (setattr w i x a j) = k_name (w j).
Proof. by rewrite /setattr; case: ifP. Qed.

(* storing *)
Lemma names_areP w i l : names_are w i l <->
  match aliases_of w i with
  | AList al => l = k_name (w i) :: al | ANone => l = [:: k_name (w i)] | ABad => False end.
Proof.
rewrite /names_are /aliases_of; split.
  case=> [[al /getattrP -> ->] //|[[/getattrN ->|[a /getattrP -> [] ->]] ->]] //.
case e: (getattr w i _) => [a|]; last by move=> ->; right; split=> //; left; apply/getattrN.
have {e} e : attr_is w i "aliases" a by apply/getattrP.
case: a e => //.
- by move=> e ->; right; split=> //; right; exists ANil => //; apply: Or31.
- by move=> [] // e ->; right; split=> //; right; exists (AFlag false) => //; apply: Or32.
- by move=> al e ->; left; exists al.
by move=> [|? ?] // e ->; right; split=> //; right; exists (AKeys [::]) => //; apply: Or33.
Qed.
Lemma has_new (d : dict nat) l : (~~ has (mem (dkeys d)) l) <-> (forall x, x \in l -> x \notin dkeys d).
Proof. by split=> [/hasPn h x /h|h]; [|apply/hasPn => x /h]. Qed.
Lemma storeP w i d : (store w i d).2 = Ok tt <-> exists2 l, names_are w i l & new_names d l.
Proof.
have st l : (storeClass (i : nat_eqType) (k_name (w i)) (AList l) d).2 = Ok tt <-> new_names d (k_name (w i) :: l).
  by apply: (iff_trans (C52_success_iff _ _ _ _)); rewrite /new_names has_new.
have none : storeClass (i : nat_eqType) (k_name (w i)) ANone d = storeClass (i : nat_eqType) (k_name (w i)) (AList [::]) d by [].
have e := names_areP w i; rewrite /store; case: (aliases_of w i) e => [|al|] e.
- rewrite none; apply: (iff_trans (st _)); split=> [h|[l /e -> //]].
  by exists [:: k_name (w i)] => //; apply/e.
- apply: (iff_trans (st _)); split=> [h|[l /e -> //]].
  by exists (k_name (w i) :: al) => //; apply/e.
split=> [|[l /e //]]; rewrite /storeClass; by case: (storeAlias _ _ _) => d' [].
Qed.
Lemma store_ok w i d l : names_are w i l -> new_names d l -> store w i d = (d ++ entries (i : nat_eqType) l, Ok tt).
Proof.
move=> nl nn; have ok : (store w i d).2 = Ok tt by apply/storeP; exists l.
move/names_areP: nl ok; rewrite /store; case: (aliases_of w i) => // [|al] -> ok.
  have := C52_stored (c := i : nat_eqType) (l := [::]) ok; rewrite -/(storeClass _ _ ANone d).
  by move: ok; rewrite /storeClass /=; case: (storeAlias _ _ _) => d' [[]|] //= _ ->.
have := C52_stored ok; by move: ok; case: (storeClass _ _ _ _) => d' r /= -> ->.
Qed.
Lemma store_err w i d r e : store w i d = (r, Raise e) -> e = AssertionError.
Proof.
have sa (c : nat_eqType) (d' : dict nat) x : (storeAlias c d' x).2 = Ok tt \/ (storeAlias c d' x).2 = Raise AssertionError.
  by rewrite /storeAlias; case: ifP; [right|left].
have sas (c : nat_eqType) l : forall d', (storeAliases c d' l).2 = Ok tt \/ (storeAliases c d' l).2 = Raise AssertionError.
  elim: l => [|a l ih] d' /=; first by left.
  by case: (sa c d' a); case: (storeAlias c d' a) => d2 r2 /= ->; [exact: ih|right].
rewrite /store /storeClass; case: (sa i d (k_name (w i))); case: (storeAlias _ _ _) => d2 r2 /= ->; last by case.
by case: (aliases_of w i) => [|al|] [] //; case: (sas i al d2); case: (storeAliases _ _ _) => d3 r3 /= -> [].
Qed.


Lemma store_set w j x a i d : x != "aliases"%string -> store (setattr w j x a) i d = store w i d.
Proof. by move=> nx; rewrite /store /aliases_of name_set getattr_other // eq_sym. Qed.

(* the class after the checks *)
Definition marked (w : world) (i : nat) (k : param) f s n : world :=
  setattr (if is_none (p_default k) then w else setattr w i "_K_DEPENDENT" (AFlag true)) i
    "__init__" (AFun f s n.+1).
Lemma registerQDE w i d f s n p f' s' n' k : attr_is w i "__init__" (AFun f s n) -> param_is s "kwargs" p ->
  p_kind p = VarKw -> overrides w i "computeQDelta" (AFun f' s' n') -> param_is s' "k" k -> p_kind k = PosOrKw ->
  registerQD w i d = (marked w i k f s n, (store w i d).1, (store w i d).2).
Proof.
move=> /getattrP e1 /getparamP e2 e3 ov /getparamP e4 e5.
have h1 : checkGenericConstr w i = Ok tt by rewrite /checkGenericConstr e1 e2 e3.
have h2 : checkOverriding w i "computeQDelta" false = Ok tt.
  by apply/checkOverridingP; exists (AFun f' s' n').
rewrite /registerQD h1 h2; have [/getattrP -> _] := ov; rewrite e4 e5 /= /marked.
case: ifP => _; rewrite ?getattr_other // e1 !store_set //; by case: (store w i d).
Qed.

Lemma override_err w i x b e : checkOverriding w i x b = Raise e ->
  e \in [:: AssertionError; AttributeError; IndexError].
Proof.
rewrite /checkOverriding; case: (getattr w i x) => [a|]; last by case=> <-.
case: (mro_m2 w i) => [h|]; last by case=> <-.
case: (getattr w h x) => [a'|]; last by case=> <-.
by case: ifP => _; [case=> <-|case: ifP => // _ [<-]].
Qed.
Lemma constr_err w i e : checkGenericConstr w i = Raise e ->
  e \in [:: AssertionError; AttributeError; TypeError].
Proof.
rewrite /checkGenericConstr; case: (getattr _ _ _) => [[f s n|g||b|l|l|l||g]|]; do ?by case=> <-.
by case: (getparam s _) => [p|]; [case: ifP => // _|]; case=> <-.
Qed.
Lemma registerQD_early w i d :
  (exists f s n p f' s' n' k, [/\ attr_is w i "__init__" (AFun f s n), param_is s "kwargs" p & p_kind p = VarKw] /\
  [/\ overrides w i "computeQDelta" (AFun f' s' n'), param_is s' "k" k & p_kind k = PosOrKw]) \/
  exists2 e, registerQD w i d = (w, d, Raise e) & e \in [:: AssertionError; AttributeError; TypeError; IndexError].
Proof.
case e1: (checkGenericConstr w i) => [[]|e]; last first.
  right; exists e; first by rewrite /registerQD e1.
  by move: (constr_err e1); rewrite !inE => /or3P [] ->; rewrite ?orbT.
case e2: (checkOverriding w i "computeQDelta" false) => [[]|e]; last first.
  right; exists e; first by rewrite /registerQD e1 e2.
  by move: (override_err e2); rewrite !inE => /or3P [] ->; rewrite ?orbT.
have [a ov _] := (checkOverridingP _ _ _ _).1 e2; have [/getattrP ga _] := ov.
move: (e1); rewrite /checkGenericConstr; case e3: (getattr _ _ _) => [[f s n|g||b|l|l|l||g]|] //.
case e4: (getparam s _) => [p|] //; case: ifP => // kv _.
case: a ov ga => [f' s' n'|g||b|l|l|l||g] ov ga;
  try by right; exists TypeError => //; rewrite /registerQD e1 e2 ga.
case e5: (getparam s' "k") => [k|]; last by right; exists AssertionError => //; rewrite /registerQD e1 e2 ga e5.
case e6: (is_poskw (p_kind k)); last by right; exists AssertionError => //; rewrite /registerQD e1 e2 ga e5 e6.
left; exists f, s, n, p, f', s', n', k; split; split=> //; try exact/getparamP.
- exact/getattrP.
- by case: (p_kind p) kv.
by case: (p_kind k) e6.
Qed.

(* C72: the decorator of QDelta generators *)
Theorem C72_qdelta_success w i d : (registerQD w i d).2 = Ok tt <->
  exists f s n p f' s' n' k l,
  [/\ attr_is w i "__init__" (AFun f s n), param_is s "kwargs" p & p_kind p = VarKw] /\
  [/\ overrides w i "computeQDelta" (AFun f' s' n'), param_is s' "k" k & p_kind k = PosOrKw] /\
  names_are w i l /\ new_names d l.
Proof.
split.
  case: (registerQD_early w i d) => [[f [s [n [p [f' [s' [n' [k [[h1 h2 h3] [h4 h5 h6]]]]]]]]]]|[e -> //]].
  rewrite (registerQDE d h1 h2 h3 h4 h5 h6) /= => /storeP [l nl nn].
  by exists f, s, n, p, f', s', n', k, l.
case=> f [s [n [p [f' [s' [n' [k [l [[h1 h2 h3] [[h4 h5 h6] [nl nn]]]]]]]]]]].
by rewrite (registerQDE d h1 h2 h3 h4 h5 h6) /= (store_ok nl nn).
Qed.

(* what a successful registration changes: the registry, and the constructor and the flag of the class *)
Theorem C72_qdelta_effect w i d w' d' : registerQD w i d = (w', d', Ok tt) ->
  exists f s n f' s' n' k l,
  [/\ attr_is w i "__init__" (AFun f s n), attr_is w i "computeQDelta" (AFun f' s' n'), param_is s' "k" k & names_are w i l] /\
  [/\ same_but w w' i [:: "__init__"; "_K_DEPENDENT"]%string,
      dget "__init__" (k_attrs (w' i)) = Some (AFun f s n.+1),
      dget "_K_DEPENDENT" (k_attrs (w' i)) =
        (if p_default k is DNone then dget "_K_DEPENDENT" (k_attrs (w i)) else Some (AFlag true)) &
      d' = d ++ [seq (x, i) | x <- l]].
Proof.
move=> e; have ok : (registerQD w i d).2 = Ok tt by rewrite e.
move/C72_qdelta_success: ok => [f [s [n [p [f' [s' [n' [k [l [[h1 h2 h3] [[h4 h5 h6] [nl nn]]]]]]]]]]]].
move: e; rewrite (registerQDE d h1 h2 h3 h4 h5 h6) (store_ok nl nn) /= => -[<- <-].
exists f, s, n, f', s', n', k, l; split; first by split=> //; case: h4.
rewrite /marked; split=> //.
- case: ifP => _; last by apply: same_but_set; apply: same_but_set.
  have := same_but_set "__init__" (AFun f s n.+1) (same_but0 w i).
  by case=> [q1 [q2 [q3 q4]]]; split=> //; split=> //; split=> // x; rewrite !inE negb_or => /andP [x1 x2]; apply: q4; rewrite inE.
- by rewrite /setattr eqxx /= dget_dset eqxx.
by rewrite {1}/setattr eqxx /= dget_dset /= /setattr; case: (p_default k) => //=; rewrite eqxx /= dget_dset eqxx.
Qed.

(* a failed registration: nothing is changed, or only the last step failed and the class keeps the
   changes although it is not usable under its names *)
Theorem C72_qdelta_failure w i d w' d' e : registerQD w i d = (w', d', Raise e) ->
  (w' = w /\ d' = d /\ e \in [:: AssertionError; AttributeError; TypeError; IndexError]) \/
  (e = AssertionError /\ ~ (exists2 l, names_are w i l & new_names d l) /\
   same_but w w' i [:: "__init__"; "_K_DEPENDENT"]%string /\
   exists f s n, attr_is w i "__init__" (AFun f s n) /\ dget "__init__" (k_attrs (w' i)) = Some (AFun f s n.+1)).
Proof.
case: (registerQD_early w i d) => [[f [s [n [p [f' [s' [n' [k [[h1 h2 h3] [h4 h5 h6]]]]]]]]]]|[e' -> he [<- <- <-]]]; last by left.
rewrite (registerQDE d h1 h2 h3 h4 h5 h6) => -[<- ed er]; right.
have es : store w i d = (d', Raise e) by rewrite -ed -er; case: (store w i d).
split; first exact: store_err es.
split; first by move=> /storeP; rewrite es.
split; last by exists f, s, n; split=> //; rewrite /marked /setattr eqxx /= dget_dset eqxx.
rewrite /marked; case: ifP => _; last by apply: same_but_set; apply: same_but_set.
have := same_but_set "__init__" (AFun f s n.+1) (same_but0 w i).
by case=> [q1 [q2 [q3 q4]]]; split=> //; split=> //; split=> // x; rewrite !inE negb_or => /andP [x1 x2]; apply: q4; rewrite inE.
Qed.

(* the most frequent mistakes *)
Theorem C72_qdelta_mistakes w i d :
  (forall f s n, attr_is w i "__init__" (AFun f s n) -> ~ (exists2 p, param_is s "kwargs" p & p_kind p = VarKw) ->
     registerQD w i d = (w, d, Raise AssertionError)) /\
  (forall f s n p b a, attr_is w i "__init__" (AFun f s n) -> param_is s "kwargs" p -> p_kind p = VarKw ->
     base_of w i b -> attr_is w b "computeQDelta" a -> attr_is w i "computeQDelta" a ->
     registerQD w i d = (w, d, Raise AssertionError)).
Proof.
split=> [f s n /getattrP h1 h2|f s n p b a /getattrP h1 /getparamP h2 h3 /mro_m2P h4 /getattrP h5 /getattrP h6].
  have e : checkGenericConstr w i = Raise AssertionError.
    rewrite /checkGenericConstr h1; case e: (getparam s _) => [p|] //; case: ifP => // k.
    by case: h2; exists p; [exact/getparamP|case: (p_kind p) k].
  by rewrite /registerQD e.
have e : checkGenericConstr w i = Ok tt by rewrite /checkGenericConstr h1 h2 h3.
have e2 : checkOverriding w i "computeQDelta" false = Raise AssertionError.
  rewrite /checkOverriding h6 h4 h5; have -> // : attr_eq a a.
  by case: a {h5 h6} => //= *; rewrite !eqxx.
by rewrite /registerQD e e2.
Qed.

(* the flag: set by a default other than None or by no default, and inherited *)
Theorem C72_kdependent w i d w' d' b : wf w i -> registerQD w i d = (w', d', Ok tt) -> isKDependent w i = Ok b ->
  exists f s n k, [/\ attr_is w i "computeQDelta" (AFun f s n), param_is s "k" k &
    isKDependent w' i = Ok (if p_default k is DNone then b else AFlag true)].
Proof.
move=> wfi e; have ok : (registerQD w i d).2 = Ok tt by rewrite e.
move/C72_qdelta_success: ok => [f [s [n [p [f' [s' [n' [k [l [[h1 h2 h3] [[h4 h5 h6] [nl nn]]]]]]]]]]]].
move: e; rewrite (registerQDE d h1 h2 h3 h4 h5 h6) => -[<- _ _] kb.
exists f', s', n', k; split=> //; first by case: h4.
rewrite /isKDependent /marked getattr_other //; case: (p_default k) => //=; rewrite ?getattr_same //.
Qed.

(* C72: registerTable; without a table of that name nothing is registered *)
Theorem C72_table tables w i d :
  ((registerTable tables w i d).2 = Ok tt <-> k_name (w i) \in tables /\ (registerQD w i d).2 = Ok tt) /\
  (k_name (w i) \in tables -> registerTable tables w i d = registerQD w i d) /\
  (k_name (w i) \notin tables -> registerTable tables w i d = (w, d, Raise AttributeError)).
Proof.
rewrite /registerTable; case: (boolP (_ \in _)) => h; split=> //.
  by split=> [|[]].
by split=> [|[]].
Qed.

(* C72: the decorator of Q generators *)
Section Q.
Variable body : world -> nat -> nat -> seq string -> outcome unit.
Notation inst := (instantiate body).
(* a call of the class: the constructor accepts the keywords or TypeError is raised *)
Lemma allIn (T : Type) (f : pred T) s : all f s <-> forall p, List.In p s -> f p.
Proof.
elim: s => [|x s ih] /=; first by split.
split=> [/andP [fx /ih h] p [<-|/h]|h] //; apply/andP; split; first by apply: h; left.
by apply/ih => p ps; apply: h; right.
Qed.
Lemma hasIn (T : Type) (f : pred T) s : has f s <-> exists2 p, List.In p s & f p.
Proof.
elim: s => [|x s ih] /=; first by split=> // -[].
split=> [/orP [fx|/ih [p ps fp]]|[p [<- ->|ps fp]]] //; first by exists x => //; left.
  by exists p => //; right.
by apply/orP; right; apply/ih; exists p.
Qed.
Lemma bindsP s keys : reflect (accepts s keys) (binds s keys).
Proof.
have nm p : named p <-> by_name p by rewrite /named /by_name; case: (p_kind p); split=> //; tauto || case.
apply: (iffP idP); rewrite /binds /accepts.
  case: s => [//|self s] /and4P [h1 h2 /allIn h3 h4]; exists self, s; split.
    by split=> //; case: (p_kind self) h1.
  split=> [p /h3 + /nm pn pd|]; first by rewrite pn pd /= !orbF.
  case/orP: h4 => [/hasIn [p ps pk]|/allP h4]; [left|right].
    by exists p => //; case: (p_kind p) pk.
  by move=> x /h4 /hasIn [p ps /andP [/nm pn /eqP px]]; exists p.
case=> self [s' [[-> -> ->] [h3 h4]]] /=; apply/andP; split.
  apply/allIn => p ps; case nE: (named p); last by rewrite orbT.
  by case dE: (p_default p); rewrite ?orbT // (h3 p ps _ dE) //; apply/nm.
apply/orP; case: h4 => [[p ps pk]|h4]; [left|right].
  by apply/hasIn; exists p => //; rewrite pk.
by apply/allP => x /h4 [p [ps /nm pn px]]; apply/hasIn; exists p => //; rewrite pn px /=.
Qed.
Theorem C72_call w i keys f s n : attr_is w i "__init__" (AFun f s n) ->
  (accepts s keys -> inst w i keys = body w i f keys) /\
  (~ accepts s keys -> inst w i keys = Raise TypeError).
Proof. by move=> /getattrP e; rewrite /instantiate e; case: bindsP. Qed.
(* the class can be built without arguments, or with its default parameters *)
Definition buildable (w : world) (i : nat) : Prop :=
  inst w i [::] = Ok tt \/
  (inst w i [::] = Raise TypeError /\ exists2 l, attr_is w i "DEFAULT_PARAMS" (AKeys l) & inst w i l = Ok tt).
Definition qnames := [:: "nodes"; "Q"; "weights"; "order"]%string.

Lemma checkAllP w i xs : checkAll w i xs = Ok tt <->
  forall x, x \in xs -> exists g, overrides w i x (AProp g).
Proof.
elim: xs => [|x xs ih] /=; first by split.
case e: (checkOverriding w i x true) => [[]|er] /=.
  apply: (iff_trans ih); split=> h y; last by move=> ys; apply: h; rewrite inE ys orbT.
  rewrite inE => /predU1P [->|]; last exact: h.
  have [a ov /(_ isT)] := (checkOverridingP _ _ _ _).1 e; case: a ov => // g ov _; by exists g.
split=> // /(_ x (mem_head _ _)) [g ov].
have : exists2 a, overrides w i x a & true -> is_prop a by exists (AProp g).
by move/checkOverridingP; rewrite e.
Qed.
Lemma checkDefaultP w i : checkDefault body w i = Ok tt <-> buildable w i.
Proof.
rewrite /checkDefault /buildable; case: (inst w i [::]) => [[]|e]; first by split=> // _; left.
split; last first.
  by case=> [//|[[->] [l /getattrP -> ->]]].
case: e => //; case ea: (getattr _ _ _) => [[f s n|g||b|l|l|l||g]|] //.
by case ei: (inst w i l) => [[]|] // _; right; split=> //; exists l => //; exact/getattrP.
Qed.
Theorem C72_q_success w i d : (registerQ body w i d).2 = Ok tt <->
  [/\ forall x, x \in qnames -> exists g, overrides w i x (AProp g), buildable w i &
      exists2 l, names_are w i l & new_names d l].
Proof.
rewrite /registerQ; split.
  case e1: (checkAll w i qnames) => [[]|] //; case e2: (checkDefault body w i) => [[]|] // st.
  by split; [exact/checkAllP|exact/checkDefaultP|exact/storeP].
by case=> /checkAllP -> /checkDefaultP -> /storeP.
Qed.
(* the registry after it *)
Theorem C72_q_effect w i d d' r : registerQ body w i d = (d', r) ->
  match r with
  | Ok _ => exists2 l, names_are w i l & d' = d ++ [seq (x, i) | x <- l]
  | Raise e => d' = d \/
      (e = AssertionError /\ (forall x, x \in qnames -> exists g, overrides w i x (AProp g)) /\ buildable w i /\
       ~ exists2 l, names_are w i l & new_names d l)
  end.
Proof.
rewrite /registerQ; case e1: (checkAll w i qnames) => [[]|e]; last by case=> <- <-; left.
case e2: (checkDefault body w i) => [[]|e]; last by case=> <- <-; left.
move=> es; case: r es => [[]|e] es.
  have /storeP [l nl nn] : (store w i d).2 = Ok tt by rewrite es.
  by move: es; rewrite (store_ok nl nn) => -[<-]; exists l.
right; split; first exact: store_err es.
split; first exact/checkAllP.
split; first exact/checkDefaultP.
by move=> /storeP; rewrite es.
Qed.
(* a class that cannot be built: the exception *)
Theorem C72_q_not_buildable w i d : (forall x, x \in qnames -> exists g, overrides w i x (AProp g)) ->
  [/\ forall e, e <> TypeError -> inst w i [::] = Raise e -> registerQ body w i d = (d, Raise e),
      inst w i [::] = Raise TypeError -> no_attr w i "DEFAULT_PARAMS" -> registerQ body w i d = (d, Raise AttributeError) &
      forall l e, inst w i [::] = Raise TypeError -> attr_is w i "DEFAULT_PARAMS" (AKeys l) ->
        inst w i l = Raise e -> registerQ body w i d = (d, Raise TypeError)].
Proof.
move=> /checkAllP ca; rewrite /registerQ -/qnames ca /checkDefault; split.
- by move=> e ne ->; case: e ne.
- by move=> -> /getattrN ->.
by move=> l e -> /getattrP -> ->.
Qed.

(* C72: Runge-Kutta tables *)
Definition table_is (w : world) (i : nat) (sA sb sc : seq nat) : Prop :=
  exists A b c b2, [/\ attr_is w i "A" A, attr_is w i "b" b, attr_is w i "c" c & attr_is w i "b2" b2] /\
    [/\ np_array A = Ok sA, np_array b = Ok sb, np_array c = Ok sc &
        exists sb2, np_array b2 = Ok sb2].
Lemma convertP w i x w' s : convert w i x = Ok (w', s) <->
  exists a, [/\ attr_is w i x a, np_array a = Ok s & w' = setattr w i x (AArr s)].
Proof.
rewrite /convert; case e: (getattr w i x) => [a|].
  case ea: (np_array a) => [s'|er] /=.
    split=> [[<- <-]|[a' [/getattrP]]]; first by exists a; split=> //; exact/getattrP.
    by rewrite e => -[<-]; rewrite ea => -[<-] ->.
  by split=> // -[a' [/getattrP]]; rewrite e => -[<-]; rewrite ea.
by split=> // -[a' [/getattrP]]; rewrite e.
Qed.
Lemma convert_same w i x : match convert w i x with Ok (w', s) => w' = setattr w i x (AArr s) | _ => True end.
Proof. by case e: (convert w i x) => [[w' s]|] //; move/convertP: e => [a []]. Qed.
(* the class after the conversions *)
Definition tnames := [:: "A"; "b"; "c"; "b2"]%string.
Lemma same_but_weaken w w' i xs ys : {subset xs <= ys} -> same_but w w' i xs -> same_but w w' i ys.
Proof.
move=> sub [h1 [h2 [h3 h4]]]; split=> //; split=> //; split=> // x xn; apply: h4.
by apply/negP => /sub; rewrite (negbTE xn).
Qed.
Lemma convertTable_same w i w' r : convertTable w i = (w', r) -> same_but w w' i tnames.
Proof.
have z := same_but0 w i; rewrite /convertTable.
case: (convert w i "A") (convert_same w i "A") => [[wA sA] ->|e _ [<- _]]; last by apply: same_but_weaken z.
have zA := same_but_set "A" (AArr sA) z; move: (setattr _ _ _ _) zA => {wA} wA zA.
case: (convert wA i "b") (convert_same wA i "b") => [[wb sb] ->|e _ [<- _]]; last first.
  by apply: same_but_weaken zA => x; rewrite !inE => /eqP ->.
have zb := same_but_set "b" (AArr sb) zA; move: (setattr _ _ _ _) zb => {wb} wb zb.
case: (convert wb i "c") (convert_same wb i "c") => [[wc sc] ->|e _ [<- _]]; last first.
  by apply: same_but_weaken zb => x; rewrite !inE => /orP [] /eqP ->.
have zc := same_but_set "c" (AArr sc) zb; move: (setattr _ _ _ _) zc => {wc} wc zc.
have zc' : same_but w wc i tnames by apply: same_but_weaken zc => x; rewrite !inE => /or3P [] /eqP ->.
have fin w3 r3 : match convert wc i "b2" with Raise e => (wc, Raise e) | Ok (w, _) => (w, Ok (sA, sb, sc)) end = (w3, r3) ->
    same_but w w3 i tnames.
  have := convert_same wc i "b2"; case: (convert wc i "b2") => [[wd sd]|e]; last by move=> _ [<-].
  move=> -> [<- _]; apply: same_but_weaken (same_but_set "b2" (AArr sd) zc) => x.
  by rewrite !inE => /or4P [] ->; rewrite ?orbT.
by case: (getattr wc i "b2") => [[f s n|g||b|l|l|l||g]|]; try exact: fin; case=> <- _.
Qed.
Lemma convertTableP w i sA sb sc :
  (convertTable w i).2 = Ok (sA, sb, sc) <-> table_is w i sA sb sc.
Proof.
have E a : getattr w i "A" = Some a -> forall b, getattr w i "b" = Some b -> forall c, getattr w i "c" = Some c ->
  forall b2, getattr w i "b2" = Some b2 -> (convertTable w i).2 =
    dop sA <- np_array a; dop sb <- np_array b; dop sc <- np_array c; dop _ <- np_array b2; Ok (sA, sb, sc).
  move=> ea b eb c ec b2 e2; rewrite /convertTable /convert ea.
  case: (np_array a) => [s1|//] /=; rewrite !getattr_other // eb.
  case: (np_array b) => [s2|//] /=; rewrite !getattr_other // ec.
  case: (np_array c) => [s3|//] /=; rewrite !getattr_other // e2.
  by case: b2 {e2}.
split.
  case e1: (getattr w i "A") => [a|]; last by rewrite /convertTable /convert e1.
  case e2: (getattr w i "b") => [b|]; last first.
    by rewrite /convertTable /convert e1; case: (np_array a) => //= ?; rewrite getattr_other // e2.
  case e3: (getattr w i "c") => [c|]; last first.
    rewrite /convertTable /convert e1; case: (np_array a) => //= ?; rewrite getattr_other // e2.
    by case: (np_array b) => //= ?; rewrite !getattr_other // e3.
  case e4: (getattr w i "b2") => [b2|]; last first.
    rewrite /convertTable /convert e1; case: (np_array a) => //= ?; rewrite getattr_other // e2.
    by case: (np_array b) => //= ?; rewrite !getattr_other // e3; case: (np_array c) => //= ?; rewrite !getattr_other // e4.
  rewrite (E _ e1 _ e2 _ e3 _ e4).
  case h1: (np_array a) => [s1|//] /=; case h2: (np_array b) => [s2|//] /=; case h3: (np_array c) => [s3|//] /=.
  case h4: (np_array b2) => [s4|//] /= [<- <- <-].
  by exists a, b, c, b2; split; split=> //; try exact/getattrP; exists s4.
case=> a [b [c [b2 [[/getattrP e1 /getattrP e2 /getattrP e3 /getattrP e4] [h1 h2 h3 [s4 h4]]]]]].
by rewrite (E _ e1 _ e2 _ e3 _ e4) h1 h2 h3 h4.
Qed.
(* the checks of the shapes *)
Definition shapes_ok (sA sb sc : seq nat) : Prop :=
  let n := foldr muln 1 sc in sA = [:: n; n] /\ exists s, sb = rcons s n.
Lemma same_attr w w' i xs j x : same_but w w' i xs -> x \notin xs -> getattr w' j x = getattr w j x.
Proof.
move=> [h1 [h2 [h3 h4]]] xn; rewrite /getattr.
have -> : k_mro (w' j) = k_mro (w j) by case: (j =P i) => [->|/h1 ->].
congr ohead; apply: eq_pmap => h; case: (h =P i) => [->|/h1 -> //]; exact: h4.
Qed.
Lemma same_store w w' i xs d : same_but w w' i xs -> "aliases"%string \notin xs -> store w' i d = store w i d.
Proof.
by move=> sb xn; rewrite /store /aliases_of (same_attr i sb xn); case: sb => [_ [-> _]].
Qed.
Lemma same_overrides w w' i xs x a : same_but w w' i xs -> x \notin xs -> overrides w' i x a <-> overrides w i x a.
Proof.
move=> sb xn; have [h1 [h2 [h3 h4]]] := sb; rewrite /overrides /base_of h3.
have ga j b : attr_is w' j x b <-> attr_is w j x b by rewrite -!getattrP (same_attr j sb xn).
split=> -[/ga e [b [a' [hb /ga ha ne]]]]; split=> //; exists b, a'; split=> //.
Qed.

(* the decorator of tables; the order only has to be something, which the abstract property is *)
Theorem C72_rk_success w i rk d : (registerRK body w i rk d).2 = Ok tt <->
  let w' := (convertTable w i).1 in
  (exists sA sb sc, table_is w i sA sb sc /\ shapes_ok sA sb sc) /\
  [/\ forall x, x \in qnames -> exists g, overrides w i x (AProp g), buildable w' i,
      exists2 l, names_are w i l & new_names rk l & exists2 l, names_are w i l & new_names d l].
Proof.
rewrite /registerRK /checkAndStore; case ec: (convertTable w i) => [w' r] /=.
have sm := convertTable_same ec.
have ov x : x \in qnames -> (exists g, overrides w' i x (AProp g)) <-> (exists g, overrides w i x (AProp g)).
  move=> xq; have xn : x \notin tnames by move: xq; rewrite !inE => /or4P [] /eqP ->.
  by split=> -[g /(same_overrides _ sm xn) h]; exists g.
have st d0 : store w' i d0 = store w i d0 by apply: same_store sm _.
have tb sA sb sc : table_is w i sA sb sc <-> r = Ok (sA, sb, sc) by rewrite -convertTableP ec.
have ct sA sb sc : checkTable w' i sA sb sc = Ok tt <->
    shapes_ok sA sb sc /\ exists2 a, attr_is w i "order" a & a <> ANil.
  rewrite /checkTable /shapes_ok -/(np_size sc); split.
    case/lastP: sb => [|s n] //; rewrite rev_rcons; case: eqP => // ->; case: eqP => // ->.
    rewrite (same_attr i sm) //; case eo: (getattr w i "order") => [a|] // h.
    split; first by split=> //; exists s.
    by exists a; [exact/getattrP|move=> ea; rewrite ea in h].
  case=> [[-> [s ->]] [a /getattrP ha na]]; rewrite rev_rcons !eqxx /= (same_attr i sm) // ha.
  by case: a na {ha} => // /(_ erefl).
case: r ec tb => [[[sA sb] sc]|e] ec tb; last first.
  by split=> // -[[sA [sb [sc [/tb]]]]].
case ek: (checkTable w' i sA sb sc) => [[]|e] /=; last first.
  split=> // -[[sA' [sb' [sc' [/tb [<- <- <-] sh]]]] [h _ _ _]].
  have [g [ho _]] := h "order"%string isT.
  by have : checkTable w' i sA sb sc = Ok tt; [apply/ct; split=> //; exists (AProp g)|rewrite ek].
have [sh _] := (ct _ _ _).1 ek.
rewrite st; case es: (store w i rk) => [rk' rr]; case: rr es => [[]|e] es; last first.
  by split=> // -[_ [_ _ /storeP]]; rewrite es.
case er: (registerQ body w' i d) => [d' rq] /=.
have := C72_q_success w' i d; rewrite er /= => ->.
have sd : (exists2 l, names_are w' i l & new_names d l) <-> (exists2 l, names_are w i l & new_names d l).
  by rewrite -!storeP st.
split.
  case=> h1 h2 /sd h3; split; first by exists sA, sb, sc; split=> //; exact/tb.
  by split=> //; [move=> x xq; apply/(ov x xq); exact: h1|apply/storeP; rewrite es].
by case=> _ [h1 h2 _ /sd h3]; split=> // x xq; apply/(ov x xq); exact: h1.
Qed.
End Q.

Print Assumptions C72_qdelta_success.
Print Assumptions C72_qdelta_effect.
Print Assumptions C72_qdelta_failure.
Print Assumptions C72_qdelta_mistakes.
Print Assumptions C72_kdependent.
Print Assumptions C72_table.
Print Assumptions C72_call.
Print Assumptions C72_q_success.
Print Assumptions C72_q_effect.
Print Assumptions C72_q_not_buildable.
Print Assumptions C72_rk_success.

(* C72: a class that keeps the flag of its parent although its own matrix does not depend on k *)
Section Ex.
Local Open Scope string_scope.
Definition sig_k0 := [:: Param "self" PosOrKw DEmpty; Param "k" PosOrKw DNone].
(* the package with one more class, number 100 *)
Definition plus (k : klass) : world := fun j => if j == 100 then k else world0 j.
Definition flexible : world := setattr world0 56 "_K_DEPENDENT" (AFlag true).
Definition plusf (k : klass) : world := fun j => if j == 100 then k else flexible j.
Definition k_sub := Klass "Sub" [:: 100; 56; 55; 42; 0]
  [:: ("aliases", ANames [:: "SUB"]); ("computeQDelta", AFun 1000 sig_k0 0)].
Definition flag (r : outcome attr) : option bool := if r is Ok (AFlag b) then Some b else None.
Lemma flagP r b : flag r == Some b -> r = Ok (AFlag b).
Proof. by case: r => [[]|] //= c /eqP [->]. Qed.
Theorem C72_kdependent_refuted : exists w i w' d',
  registerQD w i [::] = (w', d', Ok tt) /\ isKDependent w' i = Ok (AFlag true) /\
  exists f n, attr_is w i "computeQDelta" (AFun f sig_k0 n).
Proof.
exists (plusf k_sub), 100; case e: (registerQD (plusf k_sub) 100 [::]) => [[w' d'] r]; exists w', d'.
have er : r = Ok tt by have -> : r = (registerQD (plusf k_sub) 100 [::]).2 by [rewrite e]; apply: ok_eqP; vm_compute.
split; first by rewrite er.
split; last by exists 1000, 0; apply/getattrP; vm_compute.
have -> : w' = (registerQD (plusf k_sub) 100 [::]).1.1 by rewrite e.
by apply: flagP; vm_compute.
Qed.
(* a generator with another base class listed after QGenerator *)
Definition k_mixed (m : nat) := Klass "Mixed" [:: 100; 1; m; 0]
  [:: ("nodes", AProp 1001); ("Q", AProp 1002); ("weights", AProp 1003); ("order", AProp 1004)].
Definition k_mixin := Klass "Mixin" [:: 101; 0] [::].
Definition k_first := Klass "First" [:: 100; 101; 1; 0] (k_attrs (k_mixed 101)).
Definition plus2 (k : klass) : world := fun j => if j == 101 then k_mixin else plus k j.
Theorem C72_mixin_refuted : exists w i, [/\ 
  forall x, x \in qnames -> exists2 g, attr_is w i x (AProp g) & ~ attr_is w 1 x (AProp g),
  buildable body0 w i, k_mro (w i) = [:: i; 1; 101; 0] &
  registerQ body0 w i [::] = ([::], Raise AttributeError)].
Proof.
exists (plus2 (k_mixed 101)), 100; split=> //.
  move=> x; rewrite !inE => /or4P [] /eqP ->; eexists; try (by apply/getattrP; vm_compute);
  by move=> /getattrP; vm_compute.
by left.
Qed.
Example C72_mixin_first : (registerQ body0 (plus2 k_first) 100 [::]).2 = Ok tt.
Proof. by vm_compute. Qed.
(* a table whose order is not defined: found only after it was stored in RK_SCHEMES *)
Definition k_rk (at' : dict attr) := Klass "MyRK" [:: 100; 2; 1; 0] at'.
Definition t_rk (b c : seq nat) := [:: ("A", AArr [:: 1; 1]); ("b", AArr b); ("c", AArr c)].
Theorem C72_rk_trace_refuted : exists w i rk w' rk' d',
  registerRK body0 w i rk [::] = (w', rk', d', Raise AssertionError) /\
  dget (k_name (w i)) rk = None /\ dget (k_name (w i)) rk' = Some i /\ d' = [::].
Proof.
pose w := plus (k_rk (t_rk [:: 1] [:: 1])); exists w, 100, [::].
case e: (registerRK body0 w 100 [::] [::]) => [[[w' rk'] d'] r]; exists w', rk', d'.
have -> : r = (registerRK body0 w 100 [::] [::]).2 by rewrite e.
have -> : rk' = (registerRK body0 w 100 [::] [::]).1.1.2 by rewrite e.
have -> : d' = (registerRK body0 w 100 [::] [::]).1.2 by rewrite e.
split; last by split; [|split]; apply/eqP; vm_compute.
by congr pair; vm_compute.
Qed.
(* embedded weights of any size, and a table without nodes, are accepted *)
Definition t_b2 := [:: ("A", AArr [:: 1; 1]); ("b", AArr [:: 1]); ("c", AArr [:: 1]); ("b2", AArr [:: 7]); ("order", AProp 1001)].
Theorem C72_rk_b2_refuted : exists w i n m,
  [/\ attr_is w i "b" (AArr [:: n]), attr_is w i "b2" (AArr [:: m]), n <> m &
      (registerRK body0 w i [::] [::]).2 = Ok tt].
Proof.
exists (plus (k_rk t_b2)), 100, 1, 7; split; [by apply/getattrP; vm_compute|by apply/getattrP; vm_compute|by []|].
by apply: ok_eqP; vm_compute.
Qed.
Definition t_noc := [:: ("A", AArr [:: 1; 1]); ("b", AArr [:: 1]); ("order", AProp 1001)].
Theorem C72_rk_nodes_refuted : exists w i,
  attr_is w i "c" ANil /\ (registerRK body0 w i [::] [::]).2 = Ok tt.
Proof. by exists (plus (k_rk t_noc)), 100; split; [apply/getattrP; vm_compute|vm_compute]. Qed.
End Ex.
Print Assumptions C72_kdependent_refuted.
Print Assumptions C72_mixin_refuted.
Print Assumptions C72_rk_trace_refuted.
Print Assumptions C72_rk_b2_refuted.
Print Assumptions C72_rk_nodes_refuted.

(* C73: importing the package *)
Definition is_q (k : deco) := if k is DRegQ then true else false.
Definition is_rk (k : deco) := if k is DRegRK then true else false.
Definition is_qd (k : deco) := match k with DRegQD | DRegTable => true | _ => false end.
Definition with_deco (P : deco -> bool) : seq nat := [seq p.2 | p <- decorated & P p.1].

Definition names (w : world) (i : nat) : seq string :=
  k_name (w i) :: (if aliases_of w i is AList l then l else [::]).
Definition expected (s : seq nat) : dict nat := flatten [seq [seq (x, i) | x <- names world0 i] | i <- s].
Lemma dgetP (V : eqType) (d : dict V) x v : uniq (dkeys d) -> dget x d = Some v <-> (x, v) \in d.
Proof.
elim: d => [|[y u] d ih] //= /andP [yn ud]; rewrite inE xpair_eqE; case: (x =P y) => [->|_] /=; last by rewrite ih.
split=> [[->]|/orP [/eqP -> //|m]]; first by rewrite eqxx.
by case/negP: yn; apply/mapP; exists (y, v).
Qed.
Lemma expectedP s x i : all (fun i => if aliases_of world0 i is ABad then false else true) s ->
  (x, i) \in expected s <-> i \in s /\ exists2 l, names_are world0 i l & x \in l.
Proof.
move=> ok; split.
  case/flattenP => t /mapP [j js ->] /mapP [y yn [-> ->]]; split=> //; exists (names world0 j) => //.
  by apply/names_areP; move/allP: ok => /(_ _ js); rewrite /names; case: (aliases_of world0 j).
case=> js [l /names_areP nl xl]; apply/flattenP; exists [seq (x, i) | x <- names world0 i]; first by apply: map_f.
by apply/mapP; exists x => //; move: nl xl; rewrite /names; case: (aliases_of _ _) => // [|al] ->.
Qed.

(* all registrations of the package succeed, and the registries contain every decorated class under its
   name and its aliases, and nothing else *)
Theorem C73_import : exists w rk q qd, import0 = ((w, rk, q, qd), Ok tt) /\
  forall x i,
  [/\ dget x rk = Some i <-> i \in with_deco is_rk /\ exists2 l, names_are world0 i l & x \in l,
      dget x q = Some i <-> i \in with_deco (predU is_rk is_q) /\ exists2 l, names_are world0 i l & x \in l &
      dget x qd = Some i <-> i \in with_deco is_qd /\ exists2 l, names_are world0 i l & x \in l].
Proof.
case e: import0 => [[[[w rk] q] qd] r]; exists w, rk, q, qd.
have ck : ok_eq r tt && (rk == expected (with_deco is_rk)) && (q == expected (with_deco (predU is_rk is_q))) &&
   (qd == expected (with_deco is_qd)).
  have -> : r = import0.2 by rewrite e.
  have -> : rk = import0.1.1.1.2 by rewrite e.
  have -> : q = import0.1.1.2 by rewrite e.
  have -> : qd = import0.1.2 by rewrite e.
  by vm_compute.
case/andP: ck => /andP [/andP [/ok_eqP -> /eqP ->] /eqP ->] /eqP ->; split; first by [].
have fin s : uniq (dkeys (expected s)) -> all (fun i => if aliases_of world0 i is ABad then false else true) s ->
  forall x i, dget x (expected s) = Some i <-> i \in s /\ exists2 l, names_are world0 i l & x \in l.
  by move=> u ok x i; apply: (iff_trans (@dgetP _ (expected s) x i u) (@expectedP s x i ok)).
have h1 := fin (with_deco is_rk); have h2 := fin (with_deco (predU is_rk is_q)); have h3 := fin (with_deco is_qd).
by move=> x i; split; [apply: h1|apply: h2|apply: h3]; vm_compute.
Qed.

(* the sweeps that depend on k *)
Theorem C73_kdependent : forall i, i \in with_deco is_qd ->
  isKDependent import0.1.1.1.1 i = Ok (AFlag (k_name (world0 i) \in [:: "MIN_SR_FLEX"; "Jumper"; "FlexJumper"]%string)).
Proof.
have h : all (fun i => flag (isKDependent import0.1.1.1.1 i) == Some (k_name (world0 i) \in [:: "MIN_SR_FLEX"; "Jumper"; "FlexJumper"]%string)) (with_deco is_qd) by vm_compute.
by move=> i hi; move/allP: h => /(_ _ hi) /flagP.
Qed.

(* the tables of Butcher.v are those of RK_SCHEMES, with the same names, aliases and shapes *)
Definition shape_of (w : world) (i : nat) (x : string) : option (seq nat) :=
  match getattr w i x with Some (AArr s) => Some s | Some ANil => None | _ => Some [::] end.
Definition scheme_shape (s : scheme) :=
  (s_name s :: s_aliases s, Some [:: size (tA (s_tab s)); size (head [::] (tA (s_tab s)))],
   Some [:: size (tb (s_tab s))], Some [:: size (tc (s_tab s))], omap (fun l => [:: size l]) (tb2 (s_tab s))).
Theorem C73_tables : [seq scheme_shape s | s <- schemes] =
  [seq (names world0 i, shape_of world0 i "A", shape_of world0 i "b", shape_of world0 i "c", shape_of world0 i "b2")
  | i <- with_deco is_rk].
Proof. by apply/eqP; vm_compute. Qed.

(* C72: MIN_SR_FLEX, class 56, meets the conditions *)
Example C72_nonvacuous : wf world0 56 /\ isKDependent world0 56 = Ok (AFlag false) /\
  exists w' d', registerQD world0 56 [:: ("MIN_SR_S"%string, 55)] = (w', d', Ok tt) /\
    d' = [:: ("MIN_SR_S"%string, 55); ("MIN_SR_FLEX"%string, 56); ("MIN-SR-FLEX"%string, 56)].
Proof.
split; first by exists [:: 55; 42; 0].
split; first by apply: flagP; vm_compute.
pose d := [:: ("MIN_SR_S"%string, 55)].
case e: (registerQD world0 56 d) => [[w' d'] r]; exists w', d'.
have -> : r = (registerQD world0 56 d).2 by rewrite e.
have -> : d' = (registerQD world0 56 d).1.2 by rewrite e.
by split; [congr pair; apply: ok_eqP; vm_compute|apply/eqP; vm_compute].
Qed.
Example C72_rk_nonvacuous : (registerRK body0 world0 3 [::] [::]).2 = Ok tt /\
  (registerQ body0 world0 41 [::]).2 = Ok tt /\ instantiate body0 world0 41 [::] = Raise TypeError /\
  (registerQ body0 world0 1 [::]).2 = Raise AssertionError.
Proof. by split; [|split; [|split]]; try (by apply: ok_eqP; vm_compute); vm_compute. Qed.
(* Collocation, class 41, needs the number of nodes and their types *)
Example C72_call_nonvacuous : exists f s n, attr_is world0 41 "__init__" (AFun f s n) /\
  accepts s [:: "nNodes"; "nodeType"; "quadType"]%string /\ ~ accepts s [::] /\
  ~ accepts s [:: "nNodes"; "nodeType"; "quadType"; "nodes"]%string.
Proof.
case e: (getattr world0 41 "__init__") => [[f s n|g||b|l|l|l||g]|]; try by vm_compute in e.
exists f, s, n; split; first exact/getattrP.
have -> : s = (if getattr world0 41 "__init__" is Some (AFun _ s _) then s else [::]) by rewrite e.
by split; [|split]; apply/bindsP; vm_compute.
Qed.
Print Assumptions C73_import.
Print Assumptions C73_kdependent.
Print Assumptions C73_tables.
