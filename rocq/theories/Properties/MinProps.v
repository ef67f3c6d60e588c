(* Property C68: diagonal coefficients found by optimisation - MIN, and the tables behind MIN3 and
   MIN_VDHS. *)
From Coq Require Import ZArith QArith Reals List.
From Verif.Base Require Import Str.
From mathcomp Require Import all_ssreflect all_algebra ring complex.
From Verif.Base Require Import RField RRcf QcEmb PolyInt IntvZ IntvMx Outcome Arr Ext.
From Verif.Spec Require Import NodesSpec CollSpec LagrangeSpec.
From Verif.Model Require Import Registry Nodes Lagrange Collocation Fejer Sweeps MinCoeffs.
From Verif.Proofs Require Import LagrangeP QuadP NodesThms OracleP CollP LegEncl StiffP StiffC.
From Verif.Properties Require Import FejerProps RealProps.
Set Implicit Arguments.
Unset Strict Implicit.
Unset Printing Implicit Defensive.
Import GRing.Theory Num.Theory Order.TTheory.
Local Open Scope ring_scope.
Open Scope string_scope.
Bind Scope ring_scope with R.

(* specification *)
Section Spec.
(* a dictionary has no repeated key, here and in the inner levels *)
Definition ukeys (K : eqType) (V : Type) (d : seq (K * V)) : bool := uniq [seq e.1 | e <- d].
Definition utables (tables : dict mintable) : bool :=
  ukeys tables && all (fun e : string * mintable => ukeys e.2 && all (fun e : string * dict (seq (int * seq Q)) =>
    ukeys e.2 && all (fun e : string * seq (int * seq Q) => ukeys e.2) e.2) e.2) tables.
(* the tables hold the coefficients c under the four keys *)
Definition stored (tables : dict mintable) (name nt qt : string) (n : int) (c : seq Q) : Prop :=
  exists t t1 t2, [/\ In (name, t) tables, In (nt, t1) t, In (qt, t2) t1 & In (n, c) t2].
Definition has_table (tables : dict mintable) (name : string) : Prop := exists t, In (name, t) tables.
(* A is the diagonal matrix of the coefficients c *)
Definition is_diag (F : realFieldType) (A : seq (seq F)) (c : seq F) : Prop :=
  is_shape A (size c) (size c) /\
  forall i j, (i < size c)%N -> (j < size c)%N -> ent A i j = if i == j then nth 0 c i else 0.

(* the entries of the tables with a bound, in thousandths, for the moduli of the eigenvalues of
   I - QDelta^-1 Q *)
Definition min_bounds : seq (string * string * string * nat * nat) :=
  let row name nt qt := map (fun p : nat * nat => (name, nt, qt, p.1, p.2)) in
  row "MIN3" "LEGENDRE" "LOBATTO" [:: (2, 1); (3, 1); (4, 6); (5, 51); (7, 98); (9, 289)]%N ++
  row "MIN3" "LEGENDRE" "RADAU-RIGHT" [:: (2, 1); (3, 3); (4, 55); (5, 109); (7, 107); (9, 218)]%N ++
  row "MIN3" "EQUID" "RADAU-RIGHT" [:: (2, 1); (3, 3); (4, 56); (5, 146); (7, 200); (9, 440)]%N ++
  row "MIN_VDHS" "LEGENDRE" "RADAU-RIGHT" [:: (3, 23); (4, 148)]%N.
End Spec.

Section Get.
Variables (K : eqType) (V : Type).
Implicit Types (d : seq (K * V)).
Fixpoint aget (x : K) d : option V := if d is (y, v) :: d then if x == y then Some v else aget x d else None.
Lemma aget_Some x v d : aget x d = Some v -> In (x, v) d.
Proof.
elim: d => //= -[y w] d ih; case: eqP => [->|_ /ih] => [[->]|]; [by left|by right].
Qed.
Lemma aget_In x v d : ukeys d -> In (x, v) d -> aget x d = Some v.
Proof.
elim: d => //= -[y w] d ih /andP [ny u] [[-> ->]|h]; first by rewrite eqxx.
case: eqP => [e|_]; last exact: ih.
case/negP: ny; rewrite -e; elim: d h {ih u} => //= -[a b] d ih [[-> _]|/ih h]; rewrite inE ?eqxx //.
by rewrite h orbT.
Qed.
Lemma aget_None x v d : aget x d = None -> ~ In (x, v) d.
Proof. by elim: d => [_ []|[y w] d ih /=]; case: eqP => // ne /ih h [[e _]|//]; case: ne. Qed.
End Get.
Lemma dgetE V x (d : dict V) : dget x d = aget x d. Proof. by elim: d => //= -[y w] d ->. Qed.
Lemma igetE V x (d : seq (int * V)) : iget x d = aget x d. Proof. by elim: d => //= -[y w] d ->. Qed.
Lemma all_In (T : Type) (p : pred T) l x : all p l -> In x l -> p x.
Proof. by elim: l => //= y l ih /andP [py pl] [<-|/ih]; auto. Qed.

Lemma has_In (T : Type) (p : pred T) l : has p l -> exists2 x, In x l & p x.
Proof.
elim: l => //= y l ih /orP [py|/ih [x xl px]]; first by exists y; [left|].
by exists x; [right|].
Qed.

Section Lookup.
Variable F : realFieldType.
Variable tables : dict mintable.
Hypothesis ut : utables tables.

Lemma utE name t : In (name, t) tables -> ukeys t.
Proof. by move: ut => /andP [_ a] /(all_In a) /andP []. Qed.
Lemma utE1 name t nt t1 : In (name, t) tables -> In (nt, t1) t -> ukeys t1.
Proof. by move: ut => /andP [_ a] /(all_In a) /andP [_ b] /(all_In b) /andP []. Qed.
Lemma utE2 name t nt t1 qt t2 : In (name, t) tables -> In (nt, t1) t -> In (qt, t2) t1 -> ukeys t2.
Proof. by move: ut => /andP [_ a] /(all_In a) /andP [_ b] /(all_In b) /andP [_ c] /(all_In c). Qed.

Lemma stored_get name nt qt n c : stored tables name nt qt n c -> exists t t1 t2,
  [/\ dget name tables = Some t, dget nt t = Some t1, dget qt t1 = Some t2 & iget n t2 = Some c].
Proof.
case=> [t [t1 [t2 [h0 h1 h2 h3]]]]; exists t, t1, t2; have /andP [u0 _] := ut.
rewrite !dgetE igetE; split; [exact: aget_In|exact: aget_In (utE h0) h1|exact: aget_In (utE1 h0 h1) h2|].
exact: aget_In (utE2 h0 h1 h2) h3.
Qed.

(* one entry per key *)
Theorem C68_stored_unique name nt qt n c c' :
  stored tables name nt qt n c -> stored tables name nt qt n c' -> c = c'.
Proof.
case/stored_get => [t [t1 [t2 [e0 e1 e2 e3]]]] /stored_get [u [u1 [u2 [f0 f1 f2 f3]]]].
move: f0 f1 f2 f3; rewrite e0 => -[<-]; rewrite e1 => -[<-]; rewrite e2 => -[<-].
by rewrite e3 => -[].
Qed.

Lemma diagm_is_diag (c : seq F) : is_diag (diagm c) c.
Proof. by split; [exact: diagm_shape|move=> i j hi hj; rewrite ent_diagm]. Qed.

(* computeQDelta of a class built on a table, whatever k *)
Theorem C68_lookup name nt qt n k : match fromtable F tables name nt qt n k with
  | Ok A => exists c, [/\ stored tables name nt qt n c, Posz (size c) = n & is_diag A [seq qr F x | x <- c]]
  | Raise NotImplementedError => has_table tables name /\ forall c, ~ stored tables name nt qt n c
  | Raise ValueError => ~ has_table tables name \/
      exists2 c, stored tables name nt qt n c & Posz (size c) <> n
  | Raise _ => False
  end.
Proof.
rewrite /fromtable.
case e0: (dget name tables) => [t|]; last first.
  by left=> -[t h]; move: e0; rewrite dgetE => e0; exact: (aget_None e0 h).
have h0 : In (name, t) tables by apply: aget_Some; rewrite -dgetE.
have no : (forall c, ~ stored tables name nt qt n c) -> has_table tables name /\ forall c, ~ stored tables name nt qt n c.
  by split=> //; exists t.
case e1: (dget nt t) => [t1|]; last first.
  by apply: no => c /stored_get [u [u1 [u2 []]]]; rewrite e0 => -[<-]; rewrite e1.
have h1 : In (nt, t1) t by apply: aget_Some; rewrite -dgetE.
case e2: (dget qt t1) => [t2|]; last first.
  by apply: no => c /stored_get [u [u1 [u2 []]]]; rewrite e0 => -[<-]; rewrite e1 => -[<-]; rewrite e2.
have h2 : In (qt, t2) t1 by apply: aget_Some; rewrite -dgetE.
case e3: (iget n t2) => [c|]; last first.
  apply: no => c /stored_get [u [u1 [u2 []]]]; rewrite e0 => -[<-]; rewrite e1 => -[<-]; rewrite e2 => -[<-].
  by rewrite e3.
have h3 : In (n, c) t2 by apply: aget_Some; rewrite -igetE.
have st : stored tables name nt qt n c by exists t, t1, t2.
case: eqP => [e|ne] /=; first by exists c; split=> //; exact: diagm_is_diag.
by right; exists c.
Qed.
End Lookup.

(* registerTable accepts a class exactly when the module has a table of its name *)
Theorem C68_registerTable tables name :
  (has_table tables name -> registerTable tables name = Ok tt) /\
  (~ has_table tables name -> registerTable tables name = Raise AttributeError).
Proof.
rewrite /registerTable dgetE; case e: (aget name tables) => [t|]; split=> //.
  by case; exists t; exact: aget_Some.
by case=> t h; case: (aget_None e h).
Qed.

(* the shipped tables *)
Definition entries : seq (string * string * string * int * seq Q) :=
  flatten [seq flatten [seq flatten [seq [seq (e.1, e1.1, e2.1, e3.1, e3.2) | e3 <- e2.2] | e2 <- e1.2] | e1 <- e.2]
          | e <- mintables].
Lemma In_flatten (T S : Type) (f : S -> seq T) (l : seq S) x y : In y l -> In x (f y) -> In x (flatten [seq f y | y <- l]).
Proof.
elim: l => //= z l ih [->|h] hx; apply: in_or_app; first by left.
by right; exact: ih.
Qed.
Lemma stored_entries name nt qt n c : stored mintables name nt qt n c -> In (name, nt, qt, n, c) entries.
Proof.
case=> [t [t1 [t2 [h0 h1 h2 h3]]]]; rewrite /entries.
apply: (In_flatten h0); apply: (In_flatten h1); apply: (In_flatten h2).
exact: (in_map (fun e3 : int * seq Q => (name, nt, qt, e3.1, e3.2)) _ _ h3).
Qed.

(* a coefficient is positive, but the first one is zero if the left end is a node *)
Definition pos_q (x : Q) : bool := Z.ltb 0 (Qnum x).
Definition pos_ok (e : string * string * string * int * seq Q) : bool :=
  let qt := e.1.1.2 in let c := e.2 in
  (Posz (size c) == e.1.2) && (0 < size c)%N &&
  if has_left qt then Z.eqb 0 (Qnum (nth q0 c 0)) && all pos_q (behead c) else all pos_q c.
Lemma entries_pos : all pos_ok entries. Proof. by vm_compute. Qed.
Definition keys_ok (e : string * string * string * int * seq Q) : bool :=
  has (fun b : string * string * string * nat * nat => (b.1.1 == e.1.1) && (Posz b.1.2 == e.1.2)) min_bounds.
Lemma entries_keys : all keys_ok entries. Proof. by vm_compute. Qed.
Lemma utables_min : utables mintables. Proof. by vm_compute. Qed.
Lemma coefs_stored name nt qt (n : nat) : (0 < size (coefs name nt qt n))%N ->
  stored mintables name nt qt n (coefs name nt qt n).
Proof.
rewrite /coefs; case e0: (dget name mintables) => [t|] //; case e1: (dget nt t) => [t1|] //.
case e2: (dget qt t1) => [t2|] //; case e3: (iget n t2) => [c|] // _.
by exists t, t1, t2; split; apply: aget_Some; rewrite -?dgetE -?igetE.
Qed.

Section Shipped.
Variable F : realFieldType.
Notation tab name nt qt n k := (fromtable F mintables name nt qt n k).

(* MIN3 and MIN_VDHS support exactly the listed numbers of nodes and raise NotImplementedError for
   all others; a ValueError is impossible *)
Theorem C68_supported name nt qt n k : name \in [:: "MIN3"; "MIN_VDHS"] ->
  if has (fun b : string * string * string * nat * nat => (b.1.1 == (name, nt, qt)) && (Posz b.1.2 == n)) min_bounds
  then exists2 A, tab name nt qt n k = Ok A & is_shape A `|n| `|n|
  else tab name nt qt n k = Raise NotImplementedError.
Proof.
move=> hn; have := C68_lookup F utables_min name nt qt n k.
have ht : has_table mintables name.
  by move: hn; rewrite !inE => /orP [] /eqP ->; eexists; [left|right; left].
have sz c : stored mintables name nt qt n c -> Posz (size c) = n.
  by move/stored_entries/(all_In entries_pos) => /andP [/andP [/eqP ->]].
case: ifP => hb; case e: (fromtable _ _ _ _ _ _ _) => [A|[]] //.
- case=> c [_ <- [sh _]]; exists A => //; by rewrite size_map in sh.
- by case=> [/(_ ht)|[c /sz ->]].
- case=> _ nos; case/hasP: hb => -[[[[name' nt'] qt'] n'] r'] hb /= /andP [/eqP [E0 E1 E2] /eqP En]; subst.
  have := allP (_ : all (fun b : string * string * string * nat * nat => let: (name, nt, qt, n, r) := b in
    (0 < size (coefs name nt qt n))%N) min_bounds) _ hb.
  by move=> h; case: (nos (coefs name nt qt n')); apply: coefs_stored; apply: h; vm_compute.
- case=> c [st _ _]; case/negP: (negbT hb).
  exact: (all_In entries_keys (stored_entries st)).
by case=> [/(_ ht)|[c /sz ->]].
Qed.

(* the coefficients of the shipped tables are positive, except a zero for a node on the left end *)
Theorem C68_positive name nt qt (n : nat) k A : tab name nt qt n k = Ok A ->
  forall i, (i < n)%N -> if has_left qt && (i == 0)%N then ent A i i = 0 else 0 < ent A i i.
Proof.
move=> e i hi; have := C68_lookup F utables_min name nt qt n k; rewrite e => -[c [st [sc] [_ dg]]].
have /andP [_ pk] : (Posz (size c) == n) && (0 < size c)%N &&
    (if has_left qt then Z.eqb 0 (Qnum (nth q0 c 0)) && all pos_q (behead c) else all pos_q c).
  exact: all_In entries_pos (stored_entries st).
rewrite dg ?size_map ?sc // eqxx (nth_map q0) ?sc //.
have pq x : pos_q x -> 0 < qr F x.
  by move=> /Z.ltb_lt h; rewrite /qr divr_gt0 ?posr_gt0 //; apply: (zr_lt F h).
move: pk; case: (has_left qt) => [/andP [/Z.eqb_eq z0 /(all_nthP q0) al]|/(all_nthP q0) al]; last first.
  by apply: pq; apply: al; rewrite sc.
case: i hi => [|i] hi /=; first by rewrite /qr -z0 /= mul0r.
by rewrite -nth_behead; apply: pq; apply: al; rewrite size_behead sc; move: hi; case: (n).
Qed.

(* the certificates cover the listed bounds *)
Definition covered (b : string * string * string * nat * nat) : bool :=
  has (fun x => (ce_name x, ce_nt x, ce_qt x, ce_n x, Pos.to_nat (ce_r x)) == b) certs.
Lemma covered_all : all covered min_bounds. Proof. by vm_compute. Qed.

Variables (fpi : F) (eigh : seq F -> seq F -> seq F) (fsqrt : F -> F).
Variables (flog fexp : F -> F) (underflow : seq F -> bool).
Variables (leggauss roots_legendre fejer : nat -> outcome (seq F * seq F)).
Notation cinit := (coll_init fpi eigh fsqrt flog fexp underflow leggauss roots_legendre fejer).

(* on the unit interval every eigenvalue of the stiff limit I - QDelta^-1 Q of the sweep, in any
   extension L of F, is smaller than the bound.  The eigenvalue problem is written without inverse;
   a node on the left end has a zero coefficient and a zero row of Q, and is left out. *)
Theorem C68_stiff name nt qt (n r : nat) k c : (name, nt, qt, n, r) \in min_bounds ->
  nodes_ok fpi eigh fsqrt nt qt n -> logs_all flog fexp underflow ->
  rules_ok leggauss roots_legendre fejer n "FEJER" -> cinit n nt qt 0 1 = Ok c ->
  exists Q A, [/\ co_Q c = fmat Q, is_shape Q n n, tab name nt qt n k = Ok A, is_shape A n n &
  forall (L : numFieldType) (f : {rmorphism F -> L}) (v : 'cV[L]_n) (lam : L),
    {homo f : x y / x <= y} -> v != 0 -> (has_left qt -> forall i : 'I_n, (i == 0 :> nat)%N -> v i 0 = 0) ->
    map_mx f (mxl n n A - mxl n n Q) *m v = lam *: (map_mx f (mxl n n A) *m v) ->
    `|lam| < f (r%:R / 1000%:R)].
Proof.
move=> hb; have /has_In [x xc /eqP ex] := allP covered_all _ hb.
have ck := all_In certs_ok xc; case: ex => <- <- <- <- <- ok lg rl ec.
have [s es [zs ss al _ _]] := base_nodes ok.
have := collE ok ltr01 lg rl es; rewrite ec /= => -[self [[->] _ zt _ _]] /=.
have sep := cert_sep ck ok es; have := ok => -[_ _ /least_pos [n0 _] _].
have tE : snap_nodes 0 1 (scale_nodes 0 1 s) = map (node_in 0 1) s.
  by apply: snap_id => //; rewrite ?ltr01 ?zs.
rewrite tE in zt *; set cc := coefs (ce_name x) (ce_nt x) (ce_qt x) (ce_n x).
have sc : size cc = ce_n x by move: ck => /and3P [_ /eqP].
have st : stored mintables (ce_name x) (ce_nt x) (ce_qt x) (ce_n x) cc by apply: coefs_stored; rewrite sc.
exists (Qm (map (node_in 0 1) s) 0), (diagm [seq qr F y | y <- cc]); split=> //.
- by have := Qm_shape (map (node_in 0 1) s) 0; rewrite zt.
- have := stored_get utables_min st => -[t [t1 [t2 [e0 e1 e2 e3]]]].
  by rewrite /fromtable e0 e1 e2 e3 sc eqxx.
- by have := diagm_shape [seq qr F y | y <- cc]; rewrite size_map sc.
move=> L f v lam fm v0 vz h; have := cert_bound ck ok es fm v0 _ h.
rewrite /posr; apply.
move=> i; rewrite /ce_skip; case hl: (lob (ce_qt x)) => //= hi; apply: vz.
  by move: hl; rewrite /lob => /eqP ->.
by move: hi; rewrite ltnS leqn0.
Qed.
End Shipped.

(* MIN: for whatever point x the minimiser returns, QDelta is the inverse of diag(x), so the matrix
   I - QDelta^-1 Q is the matrix I - diag(x) Q whose spectral radius was minimised *)
Section Min.
Variable F : realFieldType.
Theorem C68_min (x : seq F) : let n := size x in
  ((mxl n n (diagm x) \notin unitmx) -> qd_MIN x = Raise LinAlgError) /\
  ((mxl n n (diagm x) \in unitmx) -> exists A, [/\ qd_MIN x = Ok A,
    is_shape A n n, mxl n n A *m mxl n n (diagm x) = 1%:M, (forall i j, (i < n)%N -> (j < n)%N -> i != j -> ent A i j = 0) &
    forall Q : 'M[F]_n, 1%:M - invmx (mxl n n A) *m Q = 1%:M - mxl n n (diagm x) *m Q]).
Proof.
move=> n; have dx : mxl n n (diagm x) = diag_mx (rvl n x) by rewrite mxl_diagm.
have un : (mxl n n (diagm x) \in unitmx) = (0 \notin x).
  rewrite dx unitmxE det_diag unitfE; apply/prodf_neq0/idP => [h|h i _]; rewrite ?mxE.
    by apply/negP => /(nthP 0) [i hi e]; have := h (Ordinal hi) isT; rewrite mxE /= e eqxx.
  by apply: contra h => /eqP <-; exact: mem_nth.
rewrite un negbK /qd_MIN; split=> [->//|h]; rewrite (negbTE h).
exists (diagm [seq y^-1 | y <- x]).
have zn : size [seq y^-1 | y <- x] = n by rewrite size_map.
have inv : mxl n n (diagm [seq y^-1 | y <- x]) *m mxl n n (diagm x) = 1%:M.
  rewrite dx; have := mxl_diagm [seq y^-1 | y <- x]; rewrite zn => ->.
  rewrite mulmx_diag; apply/matrixP => i j; rewrite !mxE (nth_map 0) //.
  rewrite mulVf //; by apply: contra h => /eqP <-; exact: mem_nth.
split=> //.
- by have := diagm_shape [seq y^-1 | y <- x]; rewrite zn.
- by move=> i j hi hj ij; rewrite ent_diagm ?zn // (negbTE ij).
move=> Q; congr (_ - _ *m Q).
have [u1 _] := mulmx1_unit inv.
by apply: (can_inj (mulKmx u1)); rewrite mulmxV // inv.
Qed.
End Min.

(* the real and complex numbers, without premises *)
Section Real.
Variable underflow : seq RF -> bool.
Notation fejerR := (fun k : nat => computeFejerRule k).
Notation eighR := (@eigh_ref r_rcfType).
Notation gaussR := (@gauss_ref r_rcfType).
Notation collR := (coll_init (F := RF) PI eighR sqrt ln exp underflow gaussR gaussR fejerR).
Notation CC := (complex_numClosedFieldType r_rcfType).
Notation toC := (ComplexField.real_complex_rmorphism RF : {rmorphism RF -> CC}).

Lemma bounds_ok b : b \in min_bounds -> [/\ b.1.1.1.2 \in NODE_TYPES, b.1.1.2 \in QUAD_TYPES &
  (least_nodes b.1.1.2 <= b.1.2)%N].
Proof.
move=> h; apply/and3P; move: b h; apply/allP; by vm_compute.
Qed.

Theorem C68_real name nt qt (n r : nat) k : (name, nt, qt, n, r) \in min_bounds -> exists c Q A,
  [/\ collR n nt qt 0 1 = Ok c, co_Q c = fmat Q, is_shape Q n n &
      fromtable RF mintables name nt qt n k = Ok A /\ is_shape A n n] /\
  forall (v : 'cV[CC]_n) (lam : CC),
    v != 0 -> (has_left qt -> forall i : 'I_n, (i == 0 :> nat)%N -> v i 0 = 0) ->
    map_mx toC (mxl n n A - mxl n n Q) *m v = lam *: (map_mx toC (mxl n n A) *m v) ->
    `|lam| < toC (r%:R / 1000%:R).
Proof.
move=> hb; have [hnt hqt hn] := bounds_ok hb.
have ok := C66_nodes_ok hnt hqt hn; have [n0 _] := least_pos hn.
have lg : logs_all (F := RF) ln exp underflow by left; exact: r_exp_log.
have rl : rules_ok (F := RF) gaussR gaussR fejerR n "FEJER" by apply: C66_rules_ok => //; right; right.
have [c ec _] := C66_collocation underflow hnt hqt hn ltr01.
have [Q [A [e1 e2 e3 e4 h]]] := C68_stiff k hb ok lg rl ec.
exists c, Q, A; split; first by split.
move=> v lam v0 vz hv; apply: (h CC toC v lam _ v0 vz hv).
by move=> x y; rewrite lecR.
Qed.
End Real.

(* non-vacuity *)
Example C68_lookup_nonvacuous (F : realFieldType) :
  let t : dict mintable := [:: ("T", [:: ("EQUID", [:: ("GAUSS", [:: (Posz 2, [:: 1 # 2; 3 # 4]%Q); (Posz 3, [:: 1 # 2]%Q)])])])] in
  utables t /\
  fromtable F t "T" "EQUID" "GAUSS" 2 None = Ok [:: [:: qr F (1 # 2); 0]; [:: 0; qr F (3 # 4)]] /\
  fromtable F t "T" "EQUID" "GAUSS" 3 None = Raise ValueError /\
  fromtable F t "U" "EQUID" "GAUSS" 2 None = Raise ValueError /\
  fromtable F t "T" "EQUID" "GAUSS" 4 None = Raise NotImplementedError /\
  fromtable F t "T" "EQUID" "LOBATTO" 2 None = Raise NotImplementedError /\
  fromtable F t "T" "LEGENDRE" "GAUSS" 2 None = Raise NotImplementedError /\
  registerTable t "T" = Ok tt /\ registerTable t "U" = Raise AttributeError.
Proof. by []. Qed.

Example C68_supported_nonvacuous (F : realFieldType) :
  qd_MIN_VDHS F "LEGENDRE" "RADAU-RIGHT" 3 (Some (Posz 7)) =
    Ok [:: [:: qr F (4365 # 13624); 0; 0]; [:: 0; qr F (1032 # 7373); 0]; [:: 0; 0; qr F (1887 # 5077)]] /\
  qd_MIN_VDHS F "LEGENDRE" "RADAU-RIGHT" 2 None = Raise NotImplementedError /\
  qd_MIN3 F "LEGENDRE" "LOBATTO" 2 None = Ok [:: [:: qr F (0 # 1); 0]; [:: 0; qr F (5 # 10)]].
Proof. by []. Qed.

Example C68_min_nonvacuous (F : realFieldType) :
  qd_MIN [:: 2%:R; 4%:R] = Ok [:: [:: 2%:R^-1; 0]; [:: 0; 4%:R^-1]] :> outcome (seq (seq F)) /\
  qd_MIN [:: 2%:R; 0] = Raise LinAlgError :> outcome (seq (seq F)).
Proof. by rewrite /qd_MIN !inE eqxx orbT; split=> //; rewrite ![0 == _]eq_sym !pnatr_eq0. Qed.

Lemma tab_diag (F : realFieldType) name nt qt n k A : fromtable F mintables name nt qt n k = Ok A ->
  exists2 c, Posz (size c) = n & is_diag A [seq qr F x | x <- c].
Proof. by move=> e; have := C68_lookup F utables_min name nt qt n k; rewrite e => -[c []]; exists c. Qed.
(* there are eigenvalues to be bounded *)
Lemma eigenpair (L : closedFieldType) n (A B : 'M[L]_n.+1) : A \in unitmx ->
  exists lam, exists2 v : 'cV[L]_n.+1, v != 0 & B *m v = lam *: (A *m v).
Proof.
move=> uA; pose K := (invmx A *m B)^T.
have /closed_rootP [lam] : size (char_poly K) != 1%N by rewrite size_char_poly.
rewrite -eigenvalue_root_char => /eigenvalueP [v e v0]; exists lam, v^T; first by rewrite trmx_eq0.
move: e => /(congr1 trmx); rewrite trmx_mul trmxK linearZ /= -mulmxA => e.
by apply: (can_inj (mulKVmx uA)); rewrite e -scalemxAr mulKmx.
Qed.
Example C68_stiff_nonvacuous : ("MIN3", "EQUID", "RADAU-RIGHT", 2%N, 1%N) \in min_bounds /\
  forall Q A : seq (seq RF), fromtable RF mintables "MIN3" "EQUID" "RADAU-RIGHT" (Posz 2) None = Ok A ->
  exists (lam : complex_numClosedFieldType r_rcfType) (v : 'cV_2), v != 0 /\
    map_mx (ComplexField.real_complex_rmorphism RF) (mxl 2 2 A - mxl 2 2 Q) *m v =
    lam *: (map_mx (ComplexField.real_complex_rmorphism RF) (mxl 2 2 A) *m v).
Proof.
split; first by vm_compute.
move=> Q A eA; set f := ComplexField.real_complex_rmorphism RF.
have uA : map_mx f (mxl 2 2 A) \in unitmx.
  rewrite map_unitmx unitmxE det_trig; last first.
    apply/is_trig_mxP => i j ij; rewrite mxE; have [c [sc] [_ dg]] := tab_diag eA.
    rewrite dg ?size_map ?sc //; case: eqP ij => // ->; by rewrite ltnn.
  rewrite unitfE; apply/prodf_neq0 => i _; rewrite mxE; apply: lt0r_neq0.
  exact: (C68_positive eA (ltn_ord i)).
have [lam [v v0 e]] := @eigenpair (complex_numClosedFieldType r_rcfType) 1%N _ (map_mx f (mxl 2 2 A - mxl 2 2 Q)) uA.
by exists lam, v.
Qed.

Print Assumptions C68_stored_unique.
Print Assumptions C68_lookup.
Print Assumptions C68_registerTable.
Print Assumptions C68_supported.
Print Assumptions C68_positive.
Print Assumptions C68_stiff.
Print Assumptions C68_min.
Print Assumptions C68_real.
