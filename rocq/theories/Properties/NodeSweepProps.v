(* Properties C74 and C75: the two forms of a sweep, and its convergence. *)
From Coq Require Import ZArith QArith Qcanon.
From Verif.Base Require Import Str.
From mathcomp Require Import all_ssreflect all_algebra ring zify.
From Verif.Base Require Import QcField Outcome Arr Ext LinSolve.
From Verif.Model Require Import Lagrange QGen Nodes Collocation Sweeps Registry Sdc.
From Verif.Spec Require Import QCoeffSpec SdcSpec SweepSpec NodeSweepSpec.
From Verif.Proofs Require Import StabP SdcP SdcOrderP SweepP.
From Verif.Properties Require Import TimeStepProps AlgProps SdcProps.
Set Implicit Arguments.
Unset Strict Implicit.
Unset Printing Implicit Defensive.
Import GRing.Theory Num.Theory Order.TTheory.
Local Open Scope ring_scope.

Section Forms.
Variable K : fieldType.
Implicit Types (Q A : seq (seq K)) (v : seq K).

Lemma ent_smat (R : ringType) (A : seq (seq R)) n m j : is_shape A n n -> (m < n)%N -> (j < n)%N ->
  ent (smat A) m j = ent A m j - (if m is k.+1 then ent A k j else 0).
Proof.
move=> sh ml jl; have [sA _] := is_shapeP _ _ _ sh.
rewrite /smat sA (ent_mm (mkmat_shape _ _ _) sh ml jl).
rewrite (bigD1 (Ordinal ml)) //= ent_mkmat // eqxx mul1r; congr (_ + _).
case: m ml => [|k] ml.
  rewrite big1 ?oppr0 // => i ni; rewrite ent_mkmat // ifN; last by rewrite eq_sym; apply: contra ni => /eqP h; apply/eqP/val_inj.
  by rewrite mul0r.
have kl : (k < n)%N by apply: ltnW.
rewrite (bigD1 (Ordinal kl)) /=; last by apply/eqP => /(congr1 val) /= /eqP; rewrite (ltn_eqF (ltnSn k)).
rewrite ent_mkmat // (gtn_eqF (ltnSn k)) eqxx mulN1r big1 ?addr0 // => i /andP [h1 h2].
rewrite ent_mkmat // ifN; last by rewrite eq_sym; apply: contra h1 => /eqP h; apply/eqP/val_inj.
rewrite ifN ?mul0r // eqSS eq_sym; apply: contra h2 => /eqP h; by apply/eqP/val_inj.
Qed.

(* zero-to-node form, entry by entry *)
Lemma sweep_rows n Q A (lam dt u : K) v v' : is_shape Q n n -> is_shape A n n -> size v = n ->
  sdc_sweep lam dt Q u A v = Some v' <-> stagemx n A (lam * dt) \in unitmx /\ (size v' = n /\
  forall m, (m < n)%N -> nth 0 v' m = u +
    (lam * dt) * (\sum_(j < n) ent A m j * (nth 0 v' j - nth 0 v j) + \sum_(j < n) ent Q m j * nth 0 v j)).
Proof.
move=> hQ hA sv; rewrite (sweepE hQ _ _ _ hA sv); set z := lam * dt; case: ifP => un; last by split=> // -[].
have st (x : 'cV_n) : stagemx n A z *m x = x - z *: (mxl n n A *m x).
  by rewrite /stagemx mulmxBl mul1mx -scalemxAl.
have rows s : (forall m, (m < n)%N -> nth 0 s m = u +
    z * (\sum_(j < n) ent A m j * (nth 0 s j - nth 0 v j) + \sum_(j < n) ent Q m j * nth 0 v j)) <->
    stagemx n A z *m cvl n s = const_mx u + z *: ((mxl n n Q - mxl n n A) *m cvl n v).
  rewrite st; have E (m : 'I_n) : (cvl n s - z *: (mxl n n A *m cvl n s)) m 0
      - (const_mx u + z *: ((mxl n n Q - mxl n n A) *m cvl n v)) m 0 =
      nth 0 s m - (u + z * (\sum_(j < n) ent A m j * (nth 0 s j - nth 0 v j) + \sum_(j < n) ent Q m j * nth 0 v j)).
    rewrite mulmxBl !mxE (eq_bigr (fun j : 'I_n => ent A m j * nth 0 s j)); last by move=> j _; rewrite !mxE.
    rewrite [\sum_(j < n) mxl n n Q m j * _](eq_bigr (fun j : 'I_n => ent Q m j * nth 0 v j)); last by move=> j _; rewrite !mxE.
    rewrite [\sum_(j < n) mxl n n A m j * _](eq_bigr (fun j : 'I_n => ent A m j * nth 0 v j)); last by move=> j _; rewrite !mxE.
    rewrite [\sum_(j < n) ent A m j * (_ - _)](eq_bigr (fun j : 'I_n => ent A m j * nth 0 s j - ent A m j * nth 0 v j)); last by move=> j _; rewrite mulrBr.
    rewrite sumrB; move: (\sum_(j < n) _) (\sum_(j < n) _) (\sum_(j < n) _) (nth 0 s m) => a b c d; ring.
  split=> [h|h m ml].
    by apply/matrixP => m j; rewrite ord1; apply/eqP; rewrite -subr_eq0 E -h ?subrr.
  by have := E (Ordinal ml); rewrite h subrr => /esym /eqP; rewrite subr_eq0 => /eqP.
split=> [[<-]|[_ [sv' /rows e]]].
  by split=> //; split; [rewrite size_lcv|apply/rows; rewrite lcvK mulKVmx].
by congr Some; apply: (@cvl_inj _ n); rewrite ?size_lcv // lcvK -e mulKmx.
Qed.

(* C74: the sweep with Q and QDelta is the sweep from node to node with S and SDelta *)
Theorem C74_forms n Q A (lam dt u : K) v v' : is_shape Q n n -> is_shape A n n -> size v = n ->
  sdc_sweep lam dt Q u A v = Some v' <->
  stagemx n A (lam * dt) \in unitmx /\ node_sweep n (smat Q) (smat A) (lam * dt) u v v'.
Proof.
move=> hQ hA sv; apply: (iff_trans (sweep_rows lam dt u v' hQ hA sv)); set z := lam * dt.
pose r m := \sum_(j < n) ent A m j * (nth 0 v' j - nth 0 v j) + \sum_(j < n) ent Q m j * nth 0 v j.
have S m : (m < n)%N ->
    z * (\sum_(j < n) ent (smat A) m j * (nth 0 v' j - nth 0 v j)) + z * (\sum_(j < n) ent (smat Q) m j * nth 0 v j) =
    z * (r m - (if m is k.+1 then r k else 0)).
  move=> ml; rewrite -mulrDr; congr (z * _).
  rewrite (eq_bigr (fun j : 'I_n => ent A m j * (nth 0 v' j - nth 0 v j) -
     (if m is k.+1 then ent A k j else 0) * (nth 0 v' j - nth 0 v j))); last first.
    by move=> j _; rewrite (ent_smat hA) // mulrBl.
  rewrite [\sum_(j < n) ent (smat Q) _ _ * _](eq_bigr (fun j : 'I_n => ent Q m j * nth 0 v j -
     (if m is k.+1 then ent Q k j else 0) * nth 0 v j)); last first.
    by move=> j _; rewrite (ent_smat hQ) // mulrBl.
  rewrite !sumrB addrACA -opprD; congr (_ - _); case: m {ml} => [|k] //.
  by rewrite [X in X + _]big1 ?[X in _ + X]big1 ?addr0 // => j _; rewrite mul0r.
split=> -[un [sv' h]]; split=> //; split=> // m.
  move=> ml; rewrite -addrA S // h // -/(r m); case: m ml => [|k] ml; first by rewrite subr0.
  by rewrite /before h ?(ltnW ml) // -/(r k); ring.
rewrite -/(r m); elim: m => [|k ih] ml.
  by rewrite h // -addrA S // subr0.
by rewrite h // -addrA S // /before ih ?(ltnW ml) //; ring.
Qed.

(* a lower triangular QDelta: the sweep is possible exactly if no node refuses it *)
Theorem C74_triangular n A (z : K) : (forall i j, (i < j)%N -> (j < n)%N -> ent A i j = 0) ->
  stagemx n A z \in unitmx <-> forall m, (m < n)%N -> 1 - z * ent A m m != 0.
Proof.
move=> tri.
have tr : is_trig_mx (stagemx n A z).
  by apply/is_trig_mxP => i j ij; rewrite !mxE tri // mulr0 subr0 -val_eqE /= (ltn_eqF ij).
rewrite unitmxE (det_trig tr) unitfE prodf_seq_neq0; split=> [/allP h m ml|h].
  by have := h (Ordinal ml) (mem_index_enum _); rewrite /= !mxE eqxx.
by apply/allP => i _; rewrite /= !mxE eqxx h.
Qed.
End Forms.

(* the sweeps of timestepping.py, for a complex lam and real coefficients *)
Section Steps.
Variables (F : realFieldType) (K : fieldType) (f : {rmorphism F -> K}).
Variables (tr : F -> F) (nodes : seq F) (tl : F) (self : ts F).
Hypothesis e : ts_init tr false nodes tl = Ok self.
Notation M := (size nodes).
Notation delta := (step nodes tl).
Variables (Q : seq (seq K)) (lam dt u : K) (v v' : seq K).
Hypotheses (hQ : is_shape Q M M) (sv : size v = M).
Notation z := (lam * dt).
(* z times the integrals of the interpolated right-hand side between neighbouring nodes *)
Notation integral m := (z * (\sum_(j < M) ent (smat Q) m j * nth 0 v j)).

Lemma embed_shape A m n : is_shape A m n -> is_shape (embed f A) m n.
Proof.
move=> /is_shapeP [sA h]; apply/is_shapeP; rewrite size_map; split=> // i il.
by rewrite (nth_map [::]) ?sA // size_map h.
Qed.
Lemma ent_embed A m n i j : is_shape A m n -> (i < m)%N -> (j < n)%N -> ent (embed f A) i j = f (ent A i j).
Proof.
by move=> /is_shapeP [sA h] il jl; rewrite /ent (nth_map [::]) ?sA // (nth_map 0) ?h.
Qed.
Lemma ent_smat_embed A m j : is_shape A M M -> (m < M)%N -> (j < M)%N ->
  ent (smat (embed f A)) m j = f (ent (smat A) m j).
Proof.
move=> sh ml jl; rewrite (ent_smat (embed_shape sh) ml jl) (ent_smat sh ml jl) rmorphB (ent_embed sh) //.
by congr (_ - _); case: m ml => [|k] ml; rewrite ?rmorph0 // (ent_embed sh) // ltnW.
Qed.
Lemma sum_one (m : nat) (c : K) (g : nat -> K) : (m < M)%N ->
  \sum_(j < M) (if m == j then c else 0) * g j = c * g m.
Proof.
move=> ml; rewrite (bigD1 (Ordinal ml)) //= eqxx big1 ?addr0 // => i ni.
rewrite ifN ?mul0r //; apply: contra ni => /eqP h; by apply/eqP/val_inj.
Qed.
Lemma sum_before (m : nat) (c : K) (g : nat -> K) : (m < M)%N ->
  \sum_(j < M) (if m == j.+1 then c else 0) * g j = if m is k.+1 then c * g k else 0.
Proof.
case: m => [|k] ml; first by rewrite big1 // => i _; rewrite mul0r.
by rewrite -(sum_one c g (ltnW ml)); apply: eq_bigr.
Qed.

(* what each sweep does at node m *)
Definition be_node m : Prop :=
  nth 0 v' m = before u v' m + z * f (delta m) * (nth 0 v' m - nth 0 v m) + integral m.
Definition fe_node m : Prop :=
  nth 0 v' m = before u v' m + z * f (delta m) * (before u v' m - before u v m) + integral m.
Definition trap_node m : Prop :=
  nth 0 v' m = before u v' m + z * f (delta m / 2%:R) *
    ((nth 0 v' m - nth 0 v m) + (before u v' m - before u v m)) + integral m.
Definition pic_node m : Prop := nth 0 v' m = before u v' m + integral m.

Lemma forms_node A (P : nat -> Prop) : is_shape A M M ->
  (forall m, (m < M)%N -> P m <-> nth 0 v' m = before u v' m +
     z * (\sum_(j < M) f (ent (smat A) m j) * (nth 0 v' j - nth 0 v j)) + integral m) ->
  sdc_sweep lam dt Q u (embed f A) v = Some v' <->
  stagemx M (embed f A) z \in unitmx /\ (size v' = M /\ forall m, (m < M)%N -> P m).
Proof.
move=> sh h; apply: (iff_trans (C74_forms lam dt u v' hQ (embed_shape sh) sv)).
have E m : (m < M)%N -> \sum_(j < M) ent (smat (embed f A)) m j * (nth 0 v' j - nth 0 v j) =
  \sum_(j < M) f (ent (smat A) m j) * (nth 0 v' j - nth 0 v j).
  by move=> ml; apply: eq_bigr => j _; rewrite ent_smat_embed.
by split=> -[un [s' g]]; split=> //; split=> // m ml; [apply/h => //|]; rewrite -?E // ?g //; rewrite E //; apply/h => //; apply: g.
Qed.

(* C74: backward Euler, forward Euler, trapezoidal and Picard sweeps *)
Theorem C74_BE : sdc_sweep lam dt Q u (embed f (qd_BE self)) v = Some v' <->
  (forall m, (m < M)%N -> 1 - z * f (delta m) != 0) /\ size v' = M /\ forall m, (m < M)%N -> be_node m.
Proof.
have [sB [sF [sT en]]] := C37_entries e (fun h => False_ind _ (notF h)).
have nn := C37_N2N e (fun h => False_ind _ (notF h)).
apply: (iff_trans (@forms_node _ be_node sB _)) => [m ml|].
  rewrite /be_node [\sum_(j < M) f _ * _](eq_bigr (fun j : 'I_M => (if m == j then f (delta m) else 0) * (nth 0 v' j - nth 0 v j))).
    rewrite (@sum_one m _ (fun j => nth 0 v' j - nth 0 v j) ml) mulrA; exact: iff_refl.
  by move=> j _; have [-> _] := nn m j ml (ltn_ord j); case: eqP; rewrite ?rmorph0.
have -> : stagemx M (embed f (qd_BE self)) z \in unitmx <-> forall m, (m < M)%N -> 1 - z * f (delta m) != 0; last by [].
apply: (iff_trans (@C74_triangular _ M _ z _)) => [i j ij jl|].
  by rewrite (ent_embed sB) ?(ltn_trans ij) //; have [-> _] := en i j (ltn_trans ij jl) jl; rewrite leqNgt ij rmorph0.
by split=> h m ml; have := h m ml; rewrite (ent_embed sB) //; have [-> _] := en m m ml ml; rewrite leqnn.
Qed.
Theorem C74_FE : sdc_sweep lam dt Q u (embed f (qd_FE self)) v = Some v' <->
  size v' = M /\ forall m, (m < M)%N -> fe_node m.
Proof.
have [sB [sF [sT en]]] := C37_entries e (fun h => False_ind _ (notF h)).
have nn := C37_N2N e (fun h => False_ind _ (notF h)).
apply: (iff_trans (@forms_node _ fe_node sF _)) => [m ml|].
  rewrite /fe_node [\sum_(j < M) f _ * _](eq_bigr (fun j : 'I_M => (if m == j.+1 then f (delta m) else 0) * (nth 0 v' j - nth 0 v j))).
    rewrite (@sum_before m _ (fun j => nth 0 v' j - nth 0 v j) ml); case: (m) => [|k] /=.
      rewrite subrr !mulr0; exact: iff_refl.
    rewrite mulrA; exact: iff_refl.
  by move=> j _; have [_ [-> _]] := nn m j ml (ltn_ord j); case: ifP; rewrite ?rmorph0.
have un : stagemx M (embed f (qd_FE self)) z \in unitmx.
  apply/C74_triangular => [i j ij jl|m ml].
    by rewrite (ent_embed sF) ?(ltn_trans ij) //; have [_ [-> _]] := en i j (ltn_trans ij jl) jl; rewrite ltnNge (ltnW ij) rmorph0.
  by rewrite (ent_embed sF) //; have [_ [-> _]] := en m m ml ml; rewrite ltnn rmorph0 mulr0 subr0 oner_eq0.
by split=> [[_]|].
Qed.
Theorem C74_TRAP : sdc_sweep lam dt Q u (embed f (qd_TRAP self)) v = Some v' <->
  (forall m, (m < M)%N -> 1 - z * f (delta m / 2%:R) != 0) /\ size v' = M /\ forall m, (m < M)%N -> trap_node m.
Proof.
have [sB [sF [sT en]]] := C37_entries e (fun h => False_ind _ (notF h)).
have nn := C37_N2N e (fun h => False_ind _ (notF h)).
apply: (iff_trans (@forms_node _ trap_node sT _)) => [m ml|].
  rewrite /trap_node [\sum_(j < M) f _ * _](eq_bigr (fun j : 'I_M => (if m == j then f (delta m / 2%:R) else 0) * (nth 0 v' j - nth 0 v j) +
     (if m == j.+1 then f (delta m / 2%:R) else 0) * (nth 0 v' j - nth 0 v j))).
    rewrite big_split /= (@sum_one m _ (fun j => nth 0 v' j - nth 0 v j) ml).
    rewrite (@sum_before m _ (fun j => nth 0 v' j - nth 0 v j) ml); case: (m) => [|k] /=.
      rewrite subrr !addr0 mulrA; exact: iff_refl.
    rewrite -mulrDr mulrA; exact: iff_refl.
  move=> j _; have [_ [_ ->]] := nn m j ml (ltn_ord j); case: (m =P j) => [->|_].
    by rewrite (ltn_eqF (ltnSn j)) mul0r addr0.
  by rewrite mul0r add0r; case: ifP; rewrite ?rmorph0.
have tE i j : (i < M)%N -> (j < M)%N -> ent (qd_TRAP self) i j =
    ((if (j <= i)%N then delta j else 0) + (if (j < i)%N then delta j.+1 else 0)) / 2%:R.
  by move=> il jl; have [h1 [h2 ->]] := en i j il jl; rewrite h1 h2.
have -> : stagemx M (embed f (qd_TRAP self)) z \in unitmx <-> forall m, (m < M)%N -> 1 - z * f (delta m / 2%:R) != 0; last by [].
apply: (iff_trans (@C74_triangular _ M _ z _)) => [i j ij jl|].
  by rewrite (ent_embed sT) ?(ltn_trans ij) // tE ?(ltn_trans ij) // leqNgt ij ltnNge (ltnW ij) addr0 mul0r rmorph0.
by split=> h m ml; have := h m ml; rewrite (ent_embed sT) // tE // leqnn ltnn addr0.
Qed.
Theorem C74_PIC A : is_shape A M M -> sdc_sweep lam dt Q u (embed f (qd_PIC A)) v = Some v' <->
  size v' = M /\ forall m, (m < M)%N -> pic_node m.
Proof.
move=> shA; have [sP en] := C46_PIC shA.
apply: (iff_trans (@forms_node _ pic_node sP _)) => [m ml|].
  rewrite [\sum_(j < M) f _ * _]big1 ?mulr0 ?addr0; first exact: iff_refl.
  move=> j _; rewrite (ent_smat sP) // en // sub0r.
  by case: (m) ml => [|k] ml; rewrite ?en ?(ltnW ml) // oppr0 rmorph0 mul0r.
have un : stagemx M (embed f (qd_PIC A)) z \in unitmx.
  apply/C74_triangular => [i j ij jl|m ml]; rewrite (ent_embed sP) ?(ltn_trans ij) // en ?(ltn_trans ij) // rmorph0 //.
  by rewrite mulr0 subr0 oner_eq0.
by split=> [[_]|].
Qed.
End Steps.

(* C75: for small steps the sweeps converge to the collocation solution *)
Section Convergence.
Variable K : numFieldType.
Variable cexp : K -> K.
Variables (n : nat) (Q : seq (seq K)).
Hypothesis hQ : is_shape Q n n.
Variables (QD : nat -> seq (seq K)) (z c : K).
Hypothesis hD : forall k, is_shape (QD k) n n.
Hypothesis small : forall k, `|z| * mnorm (QD k) <= 2%:R^-1.
Hypothesis close : forall k, mnorm (msub Q (QD k)) <= c.

Lemma contraction k (U : 'cV[K]_n) : collocation Q z 1 U ->
  nrm1 (sdcv n Q QD z k.+1 - U) <= 2%:R * `|z| * c * nrm1 (sdcv n Q QD z k - U).
Proof.
move=> cU; have un := small_unit (hD k) (small k).
have [h _] := C57_error_recursion hQ (hD k) cU un.
set e1 := sdcv n Q QD z k.+1 - U in h *; set e0 := sdcv n Q QD z k - U in h *.
have h' : e1 = z *: (mxl n n (msub Q (QD k)) *m e0) + z *: (mxl n n (QD k) *m e1).
  by rewrite (mxl_msub hQ (hD k)) -h /stagemx mulmxBl mul1mx -scalemxAl subrK.
apply: (le_trans (small_bound (hD k) (small k) h')).
rewrite -!mulrA ler_wpmul2l ?ler0n // nrm1Z ler_wpmul2l //.
apply: (le_trans (nrm1_mul _ (msub_shape hQ (hD k)))); apply: ler_wpmul2r; [exact: nrm1_ge0|exact: close].
Qed.

Theorem C75_nodes k (U : 'cV[K]_n) : collocation Q z 1 U ->
  \sum_i `|sdcv n Q QD z k i 0 - U i 0| <= (2%:R * `|z| * c) ^+ k * \sum_i `|1 - U i 0|.
Proof.
move=> cU; have E (x y : 'cV[K]_n) : \sum_i `|x i 0 - y i 0| = nrm1 (x - y).
  by apply: eq_bigr => i _; rewrite !mxE.
have c0 : 0 <= 2%:R * `|z| * c.
  by rewrite !mulr_ge0 ?ler0n //; apply: le_trans (close 0); exact: mnorm_ge0.
rewrite E; have st j := contraction j cU; move: (2%:R * `|z| * c) c0 st => q q0 st; elim: k => [|k ih].
  by rewrite expr0 mul1r -E; apply: ler_sum => i _; rewrite mxE.
by rewrite (le_trans (st k)) // exprS -mulrA ler_wpmul2l.
Qed.
End Convergence.

Lemma sdcv_ext (K : fieldType) n (Q : seq (seq K)) QD QD' z k : (forall j, (j < k)%N -> QD j = QD' j) ->
  sdcv n Q QD z k = sdcv n Q QD' z k.
Proof.
elim: k => [//|k ih] h /=; rewrite h ?ltnSn // ih // => j jk; by apply: h; apply: leq_trans jk _.
Qed.

(* the result of one time-step approaches that of the collocation method geometrically in the
   number of sweeps *)
Theorem C75_step (K : numFieldType) (cexp : K -> K) n Q (qds : seq (seq (seq K))) QDelta w we nodes
    (lam u0 tEnd c : K) (N : nat) (nS : int) :
  is_shape Q n n -> (0 < n)%N -> (0 < N)%N -> size w = n -> size nodes = n ->
  qd_sweeps n nS QDelta = Ok qds ->
  let z := lam * (tEnd / N%:R) in
  `|z| * mnorm Q <= 2%:R^-1 ->
  (forall A, A \in qds -> `|z| * mnorm A <= 2%:R^-1 /\ mnorm (msub Q A) <= c) ->
  exists a b, [/\ solveDahlquistSDC cexp lam u0 tEnd N%:Z nS Q QDelta (Some w) [::] = Ok (a, None),
    solveDahlquist nodes w we Q lam u0 tEnd N%:Z false = Ok b &
    `|nth 0 a 1 - nth 0 b 1| <= `|u0| * `|z| * vnorm1 w * n%:R * (2%:R * `|z| * c) ^+ size qds].
Proof.
move=> hQ n0 N0 sw sn eq z zQ hq; have [_ hq0] := qds_ok eq.
have hqds A : A \in qds -> is_shape A n n by move=> Aq; rewrite -(nth_index [::] Aq); apply: hq0; rewrite index_mem.
have [ks [_ _ ->]] := @solveSDC_E K cexp lam u0 tEnd N nS n Q QDelta _ (Some w) [::] hQ n0 N0 eq sw nomon.
have au : all_unit lam (tEnd / N%:R) n qds.
  by apply/allP => A Aq; apply: small_unit; [exact: hqds|have [] := hq A Aq].
rewrite au; case: N N0 @z zQ hq au => // N _ z zQ hq au; rewrite (dahlquistE _ _ _ _ _ hQ sn sw) -/z.
have un := small_unit hQ zQ; rewrite un; do 2 eexists; split; [by []|by []|].
rewrite !nth_mkseq // !expr1 -mulrBl normrM mulrC -!mulrA ler_wpmul2l //.
have [U eU] := stages_ex un; rewrite (stabf_stages _ un eU) /sdcR -/z.
have cU : collocation Q z 1 U by apply/collocation_stage.
rewrite opprD addrACA subrr add0r -mulrBr normrM ler_wpmul2l //.
set QD := fun j => nth [::] qds j.
have -> : forall x y : 'cV[K]_n, (rvl n w *m x) 0 0 - (rvl n w *m y) 0 0 = (rvl n w *m (x - y)) 0 0.
  by move=> x y; rewrite mulmxBr [in RHS]mxE [X in _ = _ + X]mxE.
apply: (le_trans (dot_bound _ sw)); rewrite ler_wpmul2l ?vnorm1_ge0 //.
have st0 : nrm1 (const_mx 1 - U) <= n%:R.
  have -> : const_mx 1 - U = - (z *: (mxl n n Q *m U)) by rewrite {1}cU opprD addrA subrr add0r.
  have -> : nrm1 (- (z *: (mxl n n Q *m U))) = nrm1 (z *: (mxl n n Q *m U)).
    by apply: eq_bigr => i _; rewrite mxE normrN.
  have zQ0 : 0 <= `|z| * mnorm Q by rewrite mulr_ge0 // mnorm_ge0.
  have h := small_bound hQ zQ cU; rewrite nrm1_const in h.
  rewrite nrm1Z (le_trans (ler_wpmul2l (normr_ge0 z) (nrm1_mul U hQ))) // mulrA.
  apply: (le_trans (ler_wpmul2l zQ0 h)); apply: (le_trans (ler_wpmul2r _ zQ)).
    by rewrite mulr_ge0 ?ler0n.
  by rewrite mulrA mulVf ?mul1r // pnatr_eq0.
pose QD' j := if (j < size qds)%N then nth [::] qds j else Q.
rewrite (@sdcv_ext _ n Q QD QD' z (size qds)); last by move=> j jl; rewrite /QD' jl.
have [e0|s0] := posnP (size qds); first by rewrite e0 expr0 mulr1.
have inq j : (j < size qds)%N -> nth [::] qds j \in qds by move=> jl; apply: mem_nth.
have c0 : 0 <= c.
  by have [_ h] := hq _ (inq 0%N s0); apply: le_trans h; exact: mnorm_ge0.
have hD k : is_shape (QD' k) n n by rewrite /QD'; case: ifP => // /inq; apply: hqds.
have sm k : `|z| * mnorm (QD' k) <= 2%:R^-1 by rewrite /QD'; case: ifP => // /inq /hq [].
have cl k : mnorm (msub Q (QD' k)) <= c.
  rewrite /QD'; case: ifP => [/inq /hq [] //|_]; rewrite (mnormE (msub_shape hQ hQ)) big1 // => i _.
  by rewrite big1 // => j _; rewrite (ent_msub hQ hQ) // subrr normr0.
have := C75_nodes hQ hD sm cl (size qds) cU => h.
have E : nrm1 (sdcv n Q QD' z (size qds) - U) = \sum_i `|sdcv n Q QD' z (size qds) i 0 - U i 0|.
  by apply: eq_bigr => i _; rewrite !mxE.
rewrite E; apply: (le_trans h); rewrite [n%:R * _]mulrC [X in _ <= X ^+ _ * _]mulrA; apply: ler_wpmul2l; first by rewrite exprn_ge0 // !mulr_ge0 ?ler0n.
by apply: le_trans st0; apply: ler_sum => i _; rewrite !mxE.
Qed.

Print Assumptions C74_forms.
Print Assumptions C74_triangular.
Print Assumptions C74_BE.
Print Assumptions C74_FE.
Print Assumptions C74_TRAP.
Print Assumptions C74_PIC.
Print Assumptions C75_nodes.
Print Assumptions C75_step.

(* Concrete cases: the nodes 1/2 and 1 with their collocation matrix, lam dt = -1, one sweep of each
   kind from the constant 1; for lam dt = 2 an implicit Euler step does not exist *)
Notation Qr := qc_realFieldType.
Definition nnodes : seq Qr := [:: qc 1 2; qc 1 1].
Definition nQ : seq (seq Qr) := [:: [:: qc 3 4; qc (-1) 4]; [:: 1; 0]]%R.
Definition nv : seq Qr := [:: 1; 1]%R.

Example C74_nonvacuous :
  let self := qts false nnodes 0%R in
  let sweep A := sdc_sweep (-1 : Qr) 1 nQ 1 (embed idfun A) nv in
  ts_init q_trunc false nnodes 0%R = Ok self /\ is_shape nQ 2 2 /\
  smat nQ = [:: [:: qc 3 4; qc (-1) 4]; [:: qc 1 4; qc 1 4]] /\
  sweep (qd_BE self) = Some [:: qc 2 3; qc 4 9] /\
  sweep (qd_FE self) = Some [:: qc 1 2; qc 1 4] /\
  sweep (qd_TRAP self) = Some [:: qc 3 5; qc 9 25] /\
  sweep (qd_PIC nQ) = Some [:: qc 1 2; 0%R] /\
  sdc_sweep (qc 2 1 : Qr) 1 nQ 1 (embed idfun (qd_BE self)) nv = None.
Proof.
move=> self sweep; split; first by apply: ok_orE.
split; first by vm_compute.
split; first by apply/eqP; vm_compute.
split; first by apply/eqP; vm_compute.
split; first by apply/eqP; vm_compute.
split; first by apply/eqP; vm_compute.
by split; apply/eqP; vm_compute.
Qed.

(* lam dt = 1/2 with the trapezoidal rule and two equal sweeps: the bound is 9/16 of 2 z |w|_1 *)
Example C75_nonvacuous :
  let z := qc 1 2 : Qr in
  is_shape (sQ : seq (seq Qr)) 2 2 /\ qd_sweeps 2 2%:Z (QD2 (sD : seq (seq Qr))) = Ok [:: sD; sD] /\
  `|z| * mnorm (sQ : seq (seq Qr)) <= 2%:R^-1 /\ `|z| * mnorm (sD : seq (seq Qr)) <= 2%:R^-1 /\
  mnorm (msub (sQ : seq (seq Qr)) sD) <= qc 3 4 /\ 2%:R * `|z| * qc 3 4 < 1 /\
  omapo fst (solveDahlquistSDC id z 1 1 1 2%:Z sQ (QD2 (sD : seq (seq Qr))) (Some sw) [::]) =
    Ok [:: 1; qc 163 98]%R /\
  solveDahlquist [:: 0; 1]%R sw (Raise AttributeError) (sQ : seq (seq Qr)) z 1 1 1 false = Ok [:: 1; qc 5 3]%R.
Proof.
move=> z; split; first by vm_compute.
split; first by apply: ok_eqP; vm_compute.
split; first by rewrite /mnorm !big_cons !big_nil; vm_compute.
split; first by rewrite /mnorm !big_cons !big_nil; vm_compute.
split; first by rewrite /mnorm !big_cons !big_nil; vm_compute.
split; first by vm_compute.
by split; apply: ok_eqP; vm_compute.
Qed.
