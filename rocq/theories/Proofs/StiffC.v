(* Certified bounds for the stored diagonal coefficients (Model/MinCoeffs.v): for every entry an
   enclosure of the nodes and a bound on the eigenvalues of I - QDelta^-1 Q, checked in integer
   arithmetic. *)
From Coq Require Import ZArith QArith Lia.
From Verif.Base Require Import Str.
From mathcomp Require Import all_ssreflect all_algebra ring.
From Verif.Base Require Import QcEmb PolyInt IntvZ IntvMx Outcome Arr.
From Verif.Spec Require Import NodesSpec CollSpec LagrangeSpec.
From Verif.Model Require Import Registry Nodes Lagrange Collocation MinCoeffs.
From Verif.Proofs Require Import LagrangeP QuadP NodesThms CollP LegEncl StiffP.
Set Implicit Arguments.
Unset Strict Implicit.
Unset Printing Implicit Defensive.
Import GRing.Theory Num.Theory Order.TTheory.
Local Open Scope ring_scope.
Delimit Scope Z_scope with cz.
Open Scope string_scope.

(* lower ends of the enclosures of the nodes inside (0,1) in units of 2^-112 (Legendre nodes only),
   number of squarings, bound in thousandths *)
Record cert := Cert { ce_name : string; ce_nt : string; ce_qt : string; ce_n : nat; ce_lows : seq Z;
  ce_e : nat; ce_r : positive }.
Definition certs : seq cert := [::
  Cert "MIN3" "LEGENDRE" "LOBATTO" 2 [::] 3 1%positive;
  Cert "MIN3" "LEGENDRE" "LOBATTO" 3 [:: 2596148429267413814265248164610048]%cz 3 1%positive;
  Cert "MIN3" "LEGENDRE" "LOBATTO" 4 [:: 1435115555763165447268715957579114; 3757181302771662181261780371640981]%cz 3 6%positive;
  Cert "MIN3" "LEGENDRE" "LOBATTO" 5 [:: 896570330344752199518638178583765; 2596148429267413814265248164610048; 4295726528190075429011858150636330]%cz 3 51%positive;
  Cert "MIN3" "LEGENDRE" "LOBATTO" 7 [:: 440763965003539994108611207406378; 1378947370534497006414952411953210; 2596148429267413814265248164610048; 3813349488000330622115543917266885; 4751532893531287634421885121813717]%cz 5 98%positive;
  Cert "MIN3" "LEGENDRE" "LOBATTO" 9 [:: 260243122759154600794077979155718; 838072333394168141053664522210779; 1653441595915514432426134940741473; 2596148429267413814265248164610048; 3538855262619313196104361388478622; 4354224525140659487476831807009316; 4932053735775673027736418350064377]%cz 5 289%positive;
  Cert "MIN3" "LEGENDRE" "RADAU-RIGHT" 2 [:: 1730765619511609209510165443073365]%cz 3 1%positive;
  Cert "MIN3" "LEGENDRE" "RADAU-RIGHT" 3 [:: 805070953767293190935530917408238; 3348766533060568911888866145967837]%cz 3 3%positive;
  Cert "MIN3" "LEGENDRE" "RADAU-RIGHT" 4 [:: 459974983881823205448626600874548; 2126073513909732958506151401530928; 4089761748896079358441574420877504]%cz 3 55%positive;
  Cert "MIN3" "LEGENDRE" "RADAU-RIGHT" 5 [:: 296501938094566871223853592065168; 1437451110020544791937349882712200; 3030174768660108588620697472794295; 4466622153953362198938981415486284]%cz 3 109%positive;
  Cert "MIN3" "LEGENDRE" "RADAU-RIGHT" 7 [:: 152219592645216193757200864392018; 768868047874907356491802012313168; 1749724548721169326568973932080176; 2900788371870400734107822469891233; 3994090565297265008894380643435790; 4812977097225948659187348374189417]%cz 5 107%positive;
  Cert "MIN3" "LEGENDRE" "RADAU-RIGHT" 9 [:: 92318597564671047687477094134183; 474179282408166525247512710944973; 1112753244323309421357160697965971; 1931182209753783252828434563288314; 2830771110819849439143555696188531; 3703017573063786188126531994688346; 4442704395616463741235507031743479; 4960544112698733221194512273992443]%cz 5 218%positive;
  Cert "MIN3" "EQUID" "RADAU-RIGHT" 2 [::] 3 1%positive;
  Cert "MIN3" "EQUID" "RADAU-RIGHT" 3 [::] 3 3%positive;
  Cert "MIN3" "EQUID" "RADAU-RIGHT" 4 [::] 3 56%positive;
  Cert "MIN3" "EQUID" "RADAU-RIGHT" 5 [::] 3 146%positive;
  Cert "MIN3" "EQUID" "RADAU-RIGHT" 7 [::] 5 200%positive;
  Cert "MIN3" "EQUID" "RADAU-RIGHT" 9 [::] 5 440%positive;
  Cert "MIN_VDHS" "LEGENDRE" "RADAU-RIGHT" 3 [:: 805070953767293190935530917408238; 3348766533060568911888866145967837]%cz 3 23%positive;
  Cert "MIN_VDHS" "LEGENDRE" "RADAU-RIGHT" 4 [:: 459974983881823205448626600874548; 2126073513909732958506151401530928; 4089761748896079358441574420877504]%cz 3 148%positive].

Definition coefs (name nt qt : string) (n : nat) : seq Q :=
  if dget name mintables is Some t then if dget nt t is Some t then if dget qt t is Some t then
  if iget (Posz n) t is Some c then c else [::] else [::] else [::] else [::].
Definition ce_encl (x : cert) : seq intv :=
  if ce_nt x == "EQUID" then equid_encl (ce_n x) else leg_encl (lob (ce_qt x)) (ce_lows x).
Definition ce_skip (x : cert) : nat := lob (ce_qt x).
Definition ce_check (x : cert) : bool :=
  let T := ce_encl x in let n := ce_n x in let c := coefs (ce_name x) (ce_nt x) (ce_qt x) n in
  [&& size T == n, size c == n, (ce_skip x < n)%N,
      if ce_nt x == "EQUID" then ce_qt x == "RADAU-RIGHT"
      else [&& ce_nt x == "LEGENDRE", ce_qt x \in [:: "RADAU-RIGHT"; "LOBATTO"], chain T &
               leg_check (lob (ce_qt x)) n (ce_lows x)],
      sep_check T & stiff_check T c (ce_skip x) (n - ce_skip x) (ce_e x) (ce_r x) 1000].
Lemma certs_ok : all ce_check certs.
Proof. vm_cast_no_check (erefl true). Qed.

Opaque SC shr IntvZ.sc.
Section Sound.
Variable F : realFieldType.
Variables (fpi : F) (eigh : seq F -> seq F -> seq F) (fsqrt : F -> F).
Variable x : cert.
Hypothesis ck : ce_check x.
Notation n := (ce_n x).
Notation k := (ce_skip x).
Notation c := (coefs (ce_name x) (ce_nt x) (ce_qt x) n).
Hypothesis ok : nodes_ok fpi eigh fsqrt (ce_nt x) (ce_qt x) n.
Variable s : seq F.
Hypothesis es : getNodes fpi eigh fsqrt (NodesGen (ce_nt x) (ce_qt x)) n%:Z = Ok s.

Lemma cert_nodes i : (i < n)%N -> IntvZ.inI (node_in 0 1 (nth 0 s i)) (nth izero (ce_encl x) i).
Proof.
move: ck => /and5P [/eqP sT sc sk hc _] hi; have [hnt hqt hM hct] := ok.
move: hc sT; rewrite /ce_encl; case: (ce_nt x =P "EQUID") => [e /eqP q sT|ne /and4P [/eqP e q ch lc] sT].
  have n0 : (0 < n)%N by apply: leq_ltn_trans hi.
  move: es; rewrite e q getNodes_equid // => -[<-].
  by rewrite nth_mkseq //; exact: equid_enclP.
have ct := hct ne; move: es ct; rewrite e => es' ct.
exact: (leg_enclP q sk ct es' sT ch lc).
Qed.

Lemma cert_sep : separated 0 1 s.
Proof.
have [s' es' [zs _ al _ _]] := base_nodes ok; move: es'; rewrite es => -[e]; subst s'.
move: ck => /and5P [/eqP sT _ _ _ /andP [sp _]].
apply: (sepP _ al _ sp); first by rewrite zs sT.
by move=> i; rewrite sT; exact: cert_nodes.
Qed.

Variables (L : numFieldType) (f : {rmorphism F -> L}).
Hypothesis fm : {homo f : x y / x <= y}.
Notation tau := [seq node_in 0 1 y | y <- s].
Lemma cert_bound (v : 'cV[L]_n) lam : v != 0 -> (forall i : 'I_n, (i < k)%N -> v i 0 = 0) ->
  map_mx f (mxl n n (diagm [seq qr F y | y <- c]) - mxl n n (Qm tau 0)) *m v =
    lam *: (map_mx f (mxl n n (diagm [seq qr F y | y <- c])) *m v) ->
  `|lam| < f (posr F (ce_r x) / posr F 1000).
Proof.
have [s' es' [zs _ al _ _]] := base_nodes ok; move: es'; rewrite es => -[e]; subst s'.
move: ck => /and5P [/eqP sT /eqP sc sk _ /andP [_ st]].
have nE : (k + (n - k) = n)%N by rewrite subnKC // ltnW.
have zt : size tau = (k + (n - k))%N by rewrite size_map zs nE.
have sT' : size (ce_encl x) = (k + (n - k))%N by rewrite sT nE.
have sc' : size c = (k + (n - k))%N by rewrite sc nE.
have hT i : (i < k + (n - k))%N -> IntvZ.inI (nth 0 tau i) (nth izero (ce_encl x) i).
  by rewrite nE => hi; rewrite (nth_map 0) ?zs //; exact: cert_nodes.
have := stiff_bound fm zt sT' sc' hT st; move: v; rewrite nE => v; exact.
Qed.
End Sound.
