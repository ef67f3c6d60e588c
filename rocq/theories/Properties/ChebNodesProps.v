(* Property C67: closed forms of the Chebyshev nodes. *)
From Coq Require Import Reals.
From Verif.Base Require Import Str.
From mathcomp Require Import all_ssreflect all_algebra ring zify.
From Verif.Base Require Import RField RRcf Outcome Arr.
From Verif.Model Require Import Nodes Fejer.
From Verif.Spec Require Import NodesSpec CollSpec.
From Verif.Proofs Require Import NodesThms FejerP OracleP ChebNodesP.
From Verif.Properties Require Import NodesProps RealProps.
Set Implicit Arguments.
Unset Strict Implicit.
Unset Printing Implicit Defensive.
Import GRing.Theory Num.Theory Order.TTheory.
Local Open Scope ring_scope.
Bind Scope ring_scope with R.
Local Arguments cos x%R.
Local Arguments sin x%R.

(* node type, quadrature type, p and r of the angles (2 i + p) pi / (2 n + 2 - r) *)
Definition closed_forms : seq (string * string * nat * nat) :=
  [:: ("CHEBY-1", "GAUSS", 1%N, 2%N); ("CHEBY-2", "GAUSS", 2%N, 0%N);
      ("CHEBY-3", "GAUSS", 2%N, 1%N); ("CHEBY-4", "GAUSS", 1%N, 1%N);
      ("CHEBY-1", "LOBATTO", 0%N, 4%N); ("CHEBY-1", "RADAU-RIGHT", 1%N, 3%N);
      ("CHEBY-1", "RADAU-LEFT", 0%N, 3%N); ("CHEBY-3", "RADAU-RIGHT", 2%N, 2%N);
      ("CHEBY-4", "RADAU-LEFT", 0%N, 2%N)]%string.
Definition closed_node (p r n i : nat) : R := - cos ((2 * i + p)%:R * PI / (2 * n + 2 - r)%:R).

Lemma rPI0 : 0 < PI :> R. Proof. by apply/rltE; apply: PI_RGT_0. Qed.

Lemma sin_even j : ~~ odd j -> sin (j%:R * (PI / 2%:R)) = 0.
Proof.
move=> ej; have {1}-> : j = (2 * j./2)%N by lia.
have -> : (2 * j./2)%:R * (PI / 2%:R) = (j./2)%:R * PI :> R by rewrite natrM; move: (j./2)%:R => x; field.
exact: sin_nPI.
Qed.
Lemma cos_odd j : odd j -> cos (j%:R * (PI / 2%:R)) = 0.
Proof.
move=> oj; have {1}-> : j = (2 * j./2 + 1)%N by lia.
have -> : (2 * j./2 + 1)%:R * (PI / 2%:R) = (j./2)%:R * PI + PI / 2%:R :> R.
  by rewrite natrD natrM; move: (j./2)%:R => x; field.
rewrite rcosD sin_nPI mul0r subr0.
have -> : cos (PI / 2%:R) = 0 by rewrite rdivE; [exact: cos_PI2|rewrite pnatr_eq0].
by rewrite mulr0.
Qed.

(* values of the classical polynomials at cos (2 u) *)
Section Roots.
Variables (n j N : nat) (u : R).
Hypothesis Nu : N%:R * u = j%:R * (PI / 2%:R) :> R.
Notation P k nt := (clas r_realFieldType nt k).[cos (2%:R * u)].

Lemma r_T : N = (2 * n)%N -> odd j -> P n "CHEBY-1" = 0.
Proof. by move=> e oj; rewrite cos_T mulrA -natrM mulnC -e Nu cos_odd. Qed.
Lemma r_U : N = (2 * n + 2)%N -> ~~ odd j -> sin (2%:R * u) <> 0 :> R -> P n "CHEBY-2" = 0.
Proof.
move=> e oj /eqP nz; apply: (mulIf nz); rewrite mul0r cos_U mulrA -natrM.
have -> : (n.+1 * 2)%N = N by lia.
by rewrite Nu sin_even.
Qed.
Lemma r_V : N = (2 * n + 1)%N -> odd j -> cos u <> 0 :> R -> P n "CHEBY-3" = 0.
Proof. by move=> e oj /eqP nz; apply: (mulIf nz); rewrite mul0r cos_V -e Nu cos_odd. Qed.
Lemma r_W : N = (2 * n + 1)%N -> ~~ odd j -> sin u <> 0 :> R -> P n "CHEBY-4" = 0.
Proof. by move=> e oj /eqP nz; apply: (mulIf nz); rewrite mul0r cos_W -e Nu sin_even. Qed.

Lemma angP (k : nat) : k = N.+1 -> k%:R * u = N%:R * u + u :> R.
Proof. by move=> ->; rewrite -addn1 natrD mulrDl mul1r. Qed.
Lemma angM (k : nat) : k.+1 = N -> k%:R * u = N%:R * u - u :> R.
Proof. by move=> <-; rewrite -addn1 natrD mulrDl mul1r addrK. Qed.
Lemma angPP (k : nat) : k = N.+2 -> k%:R * u = N%:R * u + 2%:R * u :> R.
Proof. by move=> ->; rewrite -addn2 natrD mulrDl. Qed.
Lemma angMM (k : nat) : k.+2 = N -> k%:R * u = N%:R * u - 2%:R * u :> R.
Proof. by move=> <-; rewrite -addn2 natrD mulrDl addrK. Qed.
Lemma T2 k : P k "CHEBY-1" = cos ((2 * k)%:R * u).
Proof. by rewrite cos_T mulrA -natrM mulnC. Qed.

Lemma r_TL : (1 < n)%N -> N = (2 * n - 2)%N -> ~~ odd j -> P n "CHEBY-1" + 0 * P n.-1 "CHEBY-1" + -1 * P n.-2 "CHEBY-1" = 0.
Proof.
move=> n1 e oj; rewrite !T2 (angPP (k := 2 * n)) ?(angMM (k := 2 * n.-2)); try lia.
rewrite Nu rcosB rcosD sin_even // !mul0r; ring.
Qed.
Lemma r_TR : (0 < n)%N -> N = (2 * n - 1)%N -> ~~ odd j -> P n "CHEBY-1" + -1 * P n.-1 "CHEBY-1" + 0 * P n.-2 "CHEBY-1" = 0.
Proof.
move=> n1 e oj; rewrite !T2 (angP (k := 2 * n)) ?(angM (k := 2 * n.-1)); try lia.
rewrite Nu rcosB rcosD sin_even // !mul0r; ring.
Qed.
Lemma r_TRl : (0 < n)%N -> N = (2 * n - 1)%N -> odd j -> P n "CHEBY-1" + 1 * P n.-1 "CHEBY-1" + 0 * P n.-2 "CHEBY-1" = 0.
Proof.
move=> n1 e oj; rewrite !T2 (angP (k := 2 * n)) ?(angM (k := 2 * n.-1)); try lia.
rewrite Nu rcosB rcosD cos_odd // !mul0r; ring.
Qed.
Lemma r_VR : (0 < n)%N -> N = (2 * n)%N -> ~~ odd j -> cos u <> 0 :> R ->
  P n "CHEBY-3" + -1 * P n.-1 "CHEBY-3" + 0 * P n.-2 "CHEBY-3" = 0.
Proof.
move=> n1 e oj /eqP nz; apply: (mulIf nz); rewrite mul0r [0 * _]mul0r addr0 mulN1r mulrBl !cos_V.
rewrite (angP (k := 2 * n + 1)) ?(angM (k := 2 * n.-1 + 1)); try lia.
rewrite Nu rcosB rcosD sin_even // !mul0r; ring.
Qed.
Lemma r_WL : (0 < n)%N -> N = (2 * n)%N -> ~~ odd j -> sin u <> 0 :> R ->
  P n "CHEBY-4" + 1 * P n.-1 "CHEBY-4" + 0 * P n.-2 "CHEBY-4" = 0.
Proof.
move=> n1 e oj /eqP nz; apply: (mulIf nz); rewrite mul0r [0 * _]mul0r addr0 mul1r mulrDl !cos_W.
rewrite (angP (k := 2 * n + 1)) ?(angM (k := 2 * n.-1 + 1)); try lia.
rewrite Nu rsinB rsinD sin_even // !mul0r; ring.
Qed.
End Roots.

Lemma ang_half (y z q : R) : y != 0 -> y * ((q - z * q / y) / 2%:R) = (y - z) * (q / 2%:R) :> R.
Proof. by move=> y0; field. Qed.

Lemma rcos_gt0 (u : R) : - (PI / 2%:R) < u -> u < PI / 2%:R -> 0 < cos u.
Proof.
have -> : PI / 2%:R = Rdiv PI 2 by rewrite rdivE ?pnatr_eq0.
by move=> /rltE h1 /rltE h2; apply/rltE; apply: cos_gt_0.
Qed.

Lemma ang_comp (x y w q : R) : w != 0 -> y + x = w -> x * (q / w) = q - y * q / w :> R.
Proof. by move=> w0 e; have -> : x = w - y; [rewrite -e addrC addKr|field]. Qed.

Section Nodes.
Variables (fpi : r_realFieldType) (eigh : seq R -> seq R -> seq R) (fsqrt : R -> R).

Theorem C67_closed_forms nt qt p r n : (nt, qt, p, r) \in closed_forms -> (least_nodes qt <= n)%N ->
  eig_contract (F := r_realFieldType) fpi eigh fsqrt (NodesGen nt qt) n ->
  getNodes (F := r_realFieldType) fpi eigh fsqrt (NodesGen nt qt) n = Ok (mkseq (closed_node p r n) n).
Proof.
move=> tb ln ct.
have hnt : nt \in ORTHO by move: tb; rewrite !inE => /or4P [|||/or4P [||| /or3P []]] /eqP [-> _ _ _].
have hqt : qt \in QUAD_TYPES by move: tb; rewrite !inE => /or4P [|||/or4P [||| /or3P []]] /eqP [_ -> _ _].
have [pr er el] : [/\ (p + r <= 4)%N, has_right qt -> (p + r = 4)%N & has_left qt -> p = 0%N].
  by move: tb; rewrite !inE => /or4P [|||/or4P [||| /or3P []]] /eqP [_ -> -> ->].
have rn : (r < 2 * n + 2)%N /\ (0 < n)%N.
  by move: tb ln; rewrite !inE => /or4P [|||/or4P [||| /or3P []]] /eqP [_ -> _ ->]; rewrite /least_nodes /=; lia.
have [rn1 n0] := rn.
set N := (2 * n + 2 - r)%N; have N0 : (0 < N)%N by rewrite subn_gt0.
have NR : N%:R != 0 :> R by rewrite pnatr_eq0 -lt0n.
have le i : (i < n)%N -> (2 * i + p <= N)%N by rewrite /N; lia.
pose phi i : R := (2 * i + p)%:R * PI / N%:R.
have pos : 0 < PI / N%:R :> R by rewrite divr_gt0 ?rPI0 ?ltr0n.
have phE i : phi i = (2 * i + p)%:R * (PI / N%:R) by rewrite /phi mulrA.
have ph0 i : 0 <= phi i by rewrite phE mulr_ge0 ?ler0n // ltW.
have phN i : (i < n)%N -> phi i <= PI.
  move=> /le h; rewrite /phi ler_pdivr_mulr ?ltr0n // mulrC ler_pmul2l ?rPI0 //; rewrite ler_nat; exact: h.
have el' : closed_node p r n =1 fun i => - cos (phi i) by [].
have size_s := size_mkseq (closed_node p r n) n.
have inc i k : (i < k)%N -> (k < n)%N -> closed_node p r n i < closed_node p r n k.
  move=> ik kn; rewrite !el' ltr_opp2; apply/rltE; apply: cos_decreasing_1.
  - by apply/rleE; apply: ph0.
  - by apply/rleE; apply: phN; apply: ltn_trans kn.
  - by apply/rleE; apply: ph0.
  - by apply/rleE; apply: phN.
  by apply/rltE; rewrite !phE ltr_pmul2r // ltr_nat; lia.
have srt : sorted <%O (mkseq (closed_node p r n) n).
  apply/(sortedP 0) => i; rewrite size_mkseq => h; rewrite !nth_mkseq ?inc //; exact: ltnW.
have pt x : x \in mkseq (closed_node p r n) n -> exists i j u,
    [/\ (i < n)%N, j = (N - (2 * i + p))%N, x = cos (2%:R * u) & N%:R * u = j%:R * (PI / 2%:R) :> R] /\
    [/\ (0 < 2 * i + p)%N -> cos u <> 0, (0 < j)%N -> sin u <> 0 &
        (0 < 2 * i + p)%N -> (0 < j)%N -> sin (2%:R * u) <> 0].
  move=> /mapP [i]; rewrite mem_iota add0n => /andP [_ i_n] ->.
  pose u : R := (PI - phi i) / 2%:R; have u2 : 2%:R * u = PI - phi i by rewrite /u; field.
  exists i, (N - (2 * i + p))%N, u; split; first split=> //.
  - by rewrite el' u2 rcosB rcosPI rsinPI mul0r addr0 mulN1r.
  - by rewrite natrB ?le // /u /phi; apply: ang_half.
  have hi : (0 < 2 * i + p)%N -> 0 < phi i by move=> h; rewrite phE mulr_gt0 // ltr0n.
  have hj : (0 < N - (2 * i + p))%N -> phi i < PI.
    by rewrite subn_gt0 => h; rewrite /phi ltr_pdivr_mulr ?ltr0n // mulrC ltr_pmul2l ?rPI0 // ltr_nat.
  have u0 : 0 <= u by rewrite /u mulr_ge0 ?subr_ge0 ?phN ?invr_ge0 ?ler0n.
  have uh : u <= PI / 2%:R by rewrite /u ler_pmul2r ?invr_gt0 ?ltr0n // ler_subl_addr ler_addl.
  have h2 : PI / 2%:R < PI :> R.
    by rewrite ltr_pdivr_mulr ?ltr0n // mulr_natr mulr2n ltr_addl rPI0.
  have pos_sin (v : R) : 0 < v -> v < PI -> sin v <> 0.
    move=> /rltE v0 /rltE v1; apply/eqP; apply: lt0r_neq0; apply/rltE; exact: sin_gt_0.
  split.
  - move=> /hi h; apply/eqP; apply: lt0r_neq0; apply: rcos_gt0.
      by apply: lt_le_trans u0; rewrite oppr_lt0 divr_gt0 ?rPI0 ?ltr0n.
    by rewrite /u ltr_pmul2r ?invr_gt0 ?ltr0n // ltr_subl_addr ltr_addl.
  - by move=> /hj h; apply: pos_sin; [rewrite /u divr_gt0 ?ltr0n // subr_gt0|apply: le_lt_trans h2].
  move=> /hi h /hj h'; apply: pos_sin; rewrite u2; [by rewrite subr_gt0|by rewrite ltr_subl_addr ltr_addl].
have end_l : has_left qt -> -1 \in mkseq (closed_node p r n) n.
  move=> /el p0; apply/mapP; exists 0%N; first by rewrite mem_iota.
  by rewrite el' phE p0 mulr0n mul0r rcos0.
have end_r : has_right qt -> 1 \in mkseq (closed_node p r n) n.
  move=> /er p4; apply/mapP; exists n.-1; first by rewrite mem_iota; lia.
  rewrite el' /phi (_ : (2 * n.-1 + p)%N = N); last by rewrite /N; lia.
  by rewrite mulrC mulKf // rcosPI opprK.
have [c1 [c2 [cG cR cE]]] : exists c1 c2 : R, [/\ qt = "GAUSS"%string -> c1 = 0 /\ c2 = 0,
    qt = "RADAU-LEFT"%string \/ qt = "RADAU-RIGHT"%string -> c2 = 0 &
    forall x, x \in mkseq (closed_node p r n) n ->
      (clas r_realFieldType nt n).[x] + c1 * (clas r_realFieldType nt n.-1).[x] +
      c2 * (clas r_realFieldType nt n.-2).[x] = 0].
  have z (x y t : R) : x = 0 -> x + 0 * y + 0 * t = 0 by move=> ->; rewrite !mul0r !addr0.
  clear - tb ln pt n0 rn1 N z; move: tb; rewrite !inE => /or4P [|||/or4P [||| /or3P []]] /eqP [en eq ep er]; subst nt qt p r.
  - exists 0, 0; split=> // x /pt [i [j [u [[h ej -> Nu] [h1 h2 h3]]]]]; apply: z.
    by apply: (r_T Nu); move: ej; rewrite /N; clear - h; lia.
  - exists 0, 0; split=> // x /pt [i [j [u [[h ej -> Nu] [h1 h2 h3]]]]]; apply: z.
    by apply: (r_U Nu); [..|apply: h3]; move: ej; rewrite /N; clear - h; lia.
  - exists 0, 0; split=> // x /pt [i [j [u [[h ej -> Nu] [h1 h2 h3]]]]]; apply: z.
    by apply: (r_V Nu); [..|apply: h1]; move: ej; rewrite /N; clear - h; lia.
  - exists 0, 0; split=> // x /pt [i [j [u [[h ej -> Nu] [h1 h2 h3]]]]]; apply: z.
    by apply: (r_W Nu); [..|apply: h2]; move: ej; rewrite /N; clear - h; lia.
  - exists 0, (-1); split=> // [[]//|x /pt [i [j [u [[h ej -> Nu] [h1 h2 h3]]]]]].
    by apply: (r_TL Nu) => //; move: ej; rewrite /N; clear - h; lia.
  - exists (-1), 0; split=> // x /pt [i [j [u [[h ej -> Nu] [h1 h2 h3]]]]].
    by apply: (r_TR Nu) => //; move: ej; rewrite /N; clear - h; lia.
  - exists 1, 0; split=> // x /pt [i [j [u [[h ej -> Nu] [h1 h2 h3]]]]].
    by apply: (r_TRl Nu) => //; move: ej; rewrite /N; clear - h; lia.
  - exists (-1), 0; split=> // x /pt [i [j [u [[h ej -> Nu] [h1 h2 h3]]]]].
    by apply: (r_VR Nu) => //; [..|apply: h1]; move: ej; rewrite /N; clear - h; lia.
  exists 1, 0; split=> // x /pt [i [j [u [[h ej -> Nu] [h1 h2 h3]]]]].
  by apply: (r_WL Nu) => //; [..|apply: h2]; move: ej; rewrite /N; clear - h; lia.
exact: (nodes_criterion hnt hqt ln ct size_s srt cE cG cR end_l end_r).
Qed.

(* the nodes of the Fejer rule are the CHEBY-1 GAUSS nodes *)
Theorem C67_fejer_nodes n q : (0 < n)%N ->
  eig_contract (F := r_realFieldType) fpi eigh fsqrt (NodesGen "CHEBY-1" "GAUSS") n ->
  computeFejerRule n = Ok q ->
  getNodes (F := r_realFieldType) fpi eigh fsqrt (NodesGen "CHEBY-1" "GAUSS") n = Ok q.1.
Proof.
move=> n0 ct; rewrite fejer_ok // => -[<-] /=.
rewrite (@C67_closed_forms _ _ 1%N 2%N) //; congr Ok; apply: (@eq_from_nth _ (0 : R)).
  by rewrite size_mkseq size_map size_rev size_iota.
rewrite size_mkseq => i i_n; rewrite nth_mkseq // (nth_map 0%N) ?size_rev ?size_iota //.
rewrite nth_rev ?size_iota // nth_iota; last by move: i_n; clear; lia.
rewrite /closed_node (_ : (2 * n + 2 - 2)%N = (2 * n)%N); last by lia.
have e : (2 * i + 1)%:R + ((1 + (n - i.+1))%:R * 2%:R - 1) = (2 * n)%:R :> R.
  by rewrite addrA -natrM -natrD; apply/eqP; rewrite subr_eq -[1]/(1%:R) -natrD eqr_nat; apply/eqP; lia.
have nz : (2 * n)%:R != 0 :> R by rewrite pnatr_eq0; lia.
have -> : ((1 + (n - i.+1))%:R * 2%:R - 1) * (PI / (2 * n)%:R) = PI - (2 * i + 1)%:R * PI / (2 * n)%:R :> R.
  exact: ang_comp nz e.
by rewrite rcosB rcosPI rsinPI mul0r addr0 mulN1r.
Qed.
End Nodes.

(* for the reference eigenvalue solver there is no premise *)
Theorem C67_real nt qt p r n : (nt, qt, p, r) \in closed_forms -> (least_nodes qt <= n)%N ->
  getNodes (F := r_realFieldType) PI (@eigh_ref r_rcfType) sqrt (NodesGen nt qt) n =
  Ok (mkseq (closed_node p r n) n).
Proof.
move=> tb ln; have hnt : nt \in NODE_TYPES /\ nt <> "EQUID"%string.
  by move: tb; rewrite !inE => /or4P [|||/or4P [||| /or3P []]] /eqP [-> _ _ _].
have hqt : qt \in QUAD_TYPES by move: tb; rewrite !inE => /or4P [|||/or4P [||| /or3P []]] /eqP [_ -> _ _].
have [_ _ _ ct] := C66_nodes_ok hnt.1 hqt ln.
exact: C67_closed_forms tb ln (ct hnt.2).
Qed.

(* two-point and three-point cases *)
Example C67_nonvacuous :
  getNodes (F := r_realFieldType) PI (@eigh_ref r_rcfType) sqrt (NodesGen "CHEBY-2" "GAUSS") 2 =
    Ok [:: - (1 / 2%:R); 1 / 2%:R] /\
  getNodes (F := r_realFieldType) PI (@eigh_ref r_rcfType) sqrt (NodesGen "CHEBY-1" "LOBATTO") 3 =
    Ok [:: -1; 0; 1].
Proof.
have cn p r n i a b : (2 * i + p)%N = a -> (2 * n + 2 - r)%N = b ->
  closed_node p r n i = - cos (a%:R * PI / b%:R) by move=> <- <-.
have c3 : cos (PI / 3%:R) = 1 / 2%:R by rewrite !rdivE ?pnatr_eq0 //; exact: cos_PI3.
split.
  rewrite (@C67_real _ _ 2%N 0%N) // /mkseq [iota _ _]/= [map _ _]/=; congr Ok.
  rewrite (@cn 2 0 2 0 2 6)%N // (@cn 2 0 2 1 4 6)%N //; congr [:: _; _].
    by rewrite (_ : 2%:R * PI / 6%:R = PI / 3%:R) ?c3 //; field.
  rewrite (_ : 4%:R * PI / 6%:R = PI - PI / 3%:R); last by field.
  by rewrite rcosB rcosPI rsinPI c3 mul0r addr0 mulN1r opprK.
rewrite (@C67_real _ _ 0%N 4%N) // /mkseq [iota _ _]/= [map _ _]/=; congr Ok.
rewrite (@cn 0 4 3 0 0 4)%N // (@cn 0 4 3 1 2 4)%N // (@cn 0 4 3 2 4 4)%N //; congr [:: _; _; _].
- by rewrite mulr0n !mul0r rcos0.
- rewrite (_ : 2%:R * PI / 4%:R = 1%:R * (PI / 2%:R)); last by field.
  by rewrite cos_odd ?oppr0.
by rewrite (_ : 4%:R * PI / 4%:R = PI) ?rcosPI ?opprK //; field.
Qed.

Print Assumptions C67_closed_forms.
Print Assumptions C67_fejer_nodes.
Print Assumptions C67_real.
