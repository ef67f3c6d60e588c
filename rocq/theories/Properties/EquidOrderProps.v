(* Property C65, continued: true orders of spectral deferred corrections on equidistant nodes,
   compared with getOrderSDC. *)
From Coq Require Import ZArith QArith Qcanon.
From Verif.Base Require Import Str.
From mathcomp Require Import all_ssreflect all_algebra ring zify.
From Verif.Base Require Import QcField QcEmb Outcome Arr Ext PolyInterp PolyInt LinSolve.
From Verif.Model Require Import Lagrange QGen Nodes Collocation Sweeps Registry Sdc.
From Verif.Spec Require Import LagrangeSpec QCoeffSpec NodesSpec CollSpec SweepSpec SdcSpec.
From Verif.Proofs Require Import LagrangeP LagrangeInit LagrangeThms StabP CollP SweepP SdcP SdcOrderP.
From Verif.Properties Require Import LagrangeProps CollProps TimeStepProps SdcProps SdcOrderProps OrderTableProps.
Set Implicit Arguments.
Unset Strict Implicit.
Unset Printing Implicit Defensive.
Import GRing.Theory Num.Theory Order.TTheory.
Local Open Scope ring_scope.

(* the expansion coefficients, computed *)
Section Comp.
Variable K : fieldType.
Variables (n : nat) (Q A : seq (seq K)).
Hypothesis hQ : is_shape Q n n.
Hypothesis hA : is_shape A n n.
Definition crow (prev : seq (seq K)) : seq (seq K) :=
  let E := msub Q A in
  nseq n 1 :: scanl (fun acc e => vadd (mv A acc) (mv E e)) (nseq n 1) prev.
Fixpoint ccoef (D k : nat) : seq (seq K) :=
  if k is j.+1 then take D.+1 (crow (ccoef D j)) else nseq n 1 :: nseq D (nseq n 0).
Definition cstep (w : option (seq K)) (D k : nat) : seq K :=
  if w is Some w then 1 :: [seq dot w v | v <- ccoef D k] else [seq last 0 v | v <- ccoef D k].

Lemma size_ccoef D k : size (ccoef D k) = D.+1.
Proof.
elim: k => [|k ih] /=; first by rewrite size_nseq.
by rewrite size_take size_scanl ih; case: ifP => //; lia.
Qed.

Lemma mvE' (B : seq (seq K)) v : is_shape B n n -> size v = n -> mv B v = lcv (mxl n n B *m cvl n v).
Proof.
move=> hB sv; apply: (@cvl_inj _ n); rewrite ?size_lcv ?size_mv //; first by case/is_shapeP: hB.
by rewrite lcvK (cvl_mv hB).
Qed.

Lemma ccoefE D k d : (d <= D)%N -> nth [::] (ccoef D k) d = lcv (sdc_coef n Q (fun _ => A) k d).
Proof.
have one : nseq n 1 = lcv (const_mx 1 : 'cV[K]_n).
  by apply: (@cvl_inj _ n); rewrite ?size_nseq ?size_lcv // lcvK cvl_nseq scale1r.
have zero : nseq n 0 = lcv (0 : 'cV[K]_n).
  by apply: (@cvl_inj _ n); rewrite ?size_nseq ?size_lcv // lcvK cvl_nseq scale0r.
elim: k d => [|k ih] d dD; first by case: d dD => [|d] dD //=; rewrite nth_nseq dD.
rewrite -[ccoef D k.+1]/(take D.+1 (crow (ccoef D k))) nth_take // /crow.
elim: d dD => [|d ihd] dD; first by [].
have st : nth [::] (scanl (fun acc e => vadd (mv A acc) (mv (msub Q A) e)) (nseq n 1) (ccoef D k)) d =
  vadd (mv A (nth [::] (nseq n 1 :: scanl (fun acc e => vadd (mv A acc) (mv (msub Q A) e)) (nseq n 1) (ccoef D k)) d))
       (mv (msub Q A) (nth [::] (ccoef D k) d)).
  have : (d < size (ccoef D k))%N by rewrite size_ccoef; lia.
  move: (ccoef D k) (nseq n 1); elim: d {ihd dD} => [|d h] [|e l] x //= dl.
  by rewrite h.
rewrite -[LHS]/(nth [::] (scanl _ _ _) d) st ihd ?(ltnW dD) // ih ?(ltnW dD) //.
have hE : is_shape (msub Q A) n n by apply: msub_shape.
rewrite !mvE' ?size_lcv // !lcvK; apply: (@cvl_inj _ n); rewrite ?size_lcv //.
  by rewrite size_map size_zip !size_lcv minnn.
rewrite lcvK [RHS]/= -mxl_msub //; apply/matrixP => i j.
rewrite !mxE (nth_map (0, 0)) ?size_zip ?size_lcv ?minnn // nth_zip ?size_lcv //= !nth_lcv.
by rewrite (ord1 j) !mxE.
Qed.

Lemma cstepE w D k d : (if w is Some w then size w = n else True) -> (d <= D)%N ->
  nth 0 (cstep w D k) d = step_coef n Q (fun _ => A) w k d.
Proof.
rewrite /cstep /step_coef; case: w => [w|] hw dD.
  case: d dD => [|d] dD //=.
  rewrite (nth_map [::]) ?size_ccoef ?ltnS ?(ltnW dD) // ccoefE ?(ltnW dD) //.
  by rewrite dot_rvl.
by rewrite (nth_map [::]) ?size_ccoef // ccoefE.
Qed.
End Comp.

(* the order is exactly p *)
Definition true_order (K : numFieldType) (f : K -> K) (p : nat) : Prop :=
  agrees f (expser p) p /\ ~ agrees f (expser p.+1) p.+1.

Section Lift.
Variables (F : realFieldType) (K : numFieldType) (f : {rmorphism F -> K}).
Variables (n : nat) (Q A : seq (seq F)) (w : option (seq F)) (k : nat).
Hypothesis hQ : is_shape Q n n.
Hypothesis hA : is_shape A n n.
Hypothesis hw : if w is Some w then size w = n else True.

Lemma coef_map d : sdc_coef n (map (map f) Q) (fun _ => map (map f) A) k d =
  map_mx f (sdc_coef n Q (fun _ => A) k d).
Proof.
elim: k d => [|j ih] d; first by case: d => [|d] /=; rewrite ?map_const ?map_mx0.
rewrite /=; elim: d => [|d ihd] /=; first by rewrite map_const.
by rewrite ihd ih !map_mxl // !raddfD /= !map_mxM !raddfB.
Qed.
Lemma lcv_map (x : 'cV[F]_n) : lcv (map_mx f x) = map f (lcv x).
Proof.
apply: (@eq_from_nth _ 0); first by rewrite size_map !size_lcv.
rewrite size_lcv => i il; rewrite (nth_map 0) ?size_lcv //.
by rewrite -[i]/(nat_of_ord (Ordinal il)) !nth_lcv mxE.
Qed.
Lemma step_map d : step_coef n (map (map f) Q) (fun _ => map (map f) A) (omap (map f) w) k d =
  f (step_coef n Q (fun _ => A) w k d).
Proof.
move: hw; rewrite /step_coef; case: w => [v|] hv /=.
  case: d => [|d]; first by rewrite rmorph1.
  rewrite coef_map (_ : rvl n (map f v) = map_mx f (rvl n v)); first by rewrite -map_mxM mxE.
  by apply/matrixP => i j; rewrite !mxE (nth_map 0) ?hv.
by rewrite coef_map lcv_map -{1}(rmorph0 f) last_map.
Qed.

Definition ordb (p : nat) : bool :=
  let s := cstep n Q A w p.+1 k in
  all (fun d => nth 0 s d * (d`!)%:R == 1) (iota 0 p.+1) && (nth 0 s p.+1 * (p.+1`!)%:R != 1).

Lemma ordb_ok p : ordb p -> true_order
  (fun z => sdcR n (map (map f) Q) (fun _ => map (map f) A) (omap (map f) w) z k) p.
Proof.
have hQ' := map_shape f hQ; have hA' := map_shape f hA.
have nz d : (d`!)%:R != 0 :> F by rewrite pnatr_eq0 -lt0n fact_gt0.
have iff d : f (step_coef n Q (fun _ => A) w k d) = (d`!)%:R^-1 <->
    step_coef n Q (fun _ => A) w k d * (d`!)%:R = 1.
  split=> [e|e]; last by rewrite (canRL (mulfK (nz d)) e) mul1r fmorphV rmorph_nat.
  by apply: (fmorph_inj f); rewrite rmorphM e rmorph_nat rmorph1 mulVf // pnatr_eq0 -lt0n fact_gt0.
have oi q : agrees (fun z => sdcR n (map (map f) Q) (fun _ => map (map f) A) (omap (map f) w) z k) (expser q) q <->
  (forall d, (d <= q)%N -> step_coef n (map (map f) Q) (fun _ => map (map f) A) (omap (map f) w) k d = (d`!)%:R^-1).
  by apply: order_iff => //; move: hw; case: w => //= v; rewrite size_map.
rewrite /ordb => /andP [/allP h1 h2]; split.
  apply/oi => d dp; rewrite step_map; apply/iff.
  have := h1 d; rewrite mem_iota add0n => /(_ dp) /eqP; rewrite cstepE // (leq_trans dp) //.
move/oi => /(_ p.+1 (leqnn _)); rewrite step_map => /iff e.
by move: h2; rewrite cstepE // e eqxx.
Qed.
End Lift.

(* equidistant nodes, in rational arithmetic; the oracles are those of the examples of CollProps
   and satisfy the contracts *)
Definition unf (x : ext Qf) : Qf := if x is Fin y then y else 0.
Definition scheme (x : string) (self : ts Qf) : outcome (seq (seq (ext Qf))) :=
  if x == "BE"%string then Ok (fmat (qd_BE self))
  else if x == "FE"%string then Ok (fmat (qd_FE self))
  else if x == "TRAP"%string then Ok (fmat (qd_TRAP self))
  else if x == "BEPAR"%string then Ok (fmat (qd_BEPAR self))
  else if x == "TRAPAR"%string then Ok (fmat (qd_TRAPAR self))
  else qd_SOE self q_id q_id q_under.

(* the combinations of the test-suite whose expected order is one too high *)
Definition over_quad : seq (string * nat * string * nat) :=
  [:: ("GAUSS", 4, "TRAPAR", 3); ("LOBATTO", 4, "TRAPAR", 3); ("RADAU-RIGHT", 4, "TRAPAR", 3);
      ("RADAU-LEFT", 4, "TRAPAR", 3); ("RADAU-LEFT", 3, "BEPAR", 3)]%string%N.
Definition over_last : seq (string * nat * string * nat) :=
  [:: ("LOBATTO", 4, "TRAP", 2); ("LOBATTO", 4, "TRAPAR", 4); ("RADAU-RIGHT", 3, "BEPAR", 4);
      ("RADAU-RIGHT", 4, "TRAPAR", 4); ("RADAU-RIGHT", 4, "SOE", 4)]%string%N.

(* order of the method minus one if the combination is in the list *)
Definition corrected (su : string) (over : seq (string * nat * string * nat)) (M : nat) (qt x : string)
    (p k : nat) : nat :=
  absz (getOrderSDC M "EQUID" qt p k x su - (if (qt, M, x, k) \in over then 1 else 0)).

Definition eq_check (su : string) (over : seq (string * nat * string * nat)) (M : nat) (qt : string) : bool :=
  let co := qinit M%:Z "EQUID" qt 0 1 in
  let c := ok_or (Coll "" "" 0 0 [::] (Lagr [::] [::] [::] None None) [::] [::]) co in
  let self := ok_or (Ts [::] [::] 0) (ts_init q_trunc false (co_nodes c) 0) in
  let Q := map (map unf) (co_Q c) in
  let w := map unf (co_weights c) in
  let p := odflt 0%N (coll_order c) in
  [&& is_ok co, coll_order c != None, is_ok (ts_init q_trunc false (co_nodes c) 0), co_Q c == fmat Q,
      co_weights c == map (@Fin Qf) w, is_shape Q M M, size w == M &
      all (fun x => let A := map (map unf) (ok_or [::] (scheme x self)) in
        [&& is_shape A M M, ok_eq (scheme x self) (fmat A) &
        all (fun k : nat => (0 < getOrderSDC M "EQUID" qt p k x su
                         - (if (qt, M, x, k) \in over then 1 else 0))%R &&
               ordb M Q A (if su == "QUADRATURE"%string then Some w else None) k
                 (corrected su over M qt x p k))
          (if su == "QUADRATURE"%string then iota 0 4 else iota 1 4)]) SCHEMES].

Section Tables.
Variables (K : numFieldType) (f : {rmorphism Qf -> K}).
Variables (su : string) (over : seq (string * nat * string * nat)) (M : nat) (qt : string).

Lemma eq_checkP (x : string) (k : nat) : eq_check su over M qt -> x \in SCHEMES ->
  k \in (if su == "QUADRATURE"%string then iota 0 4 else iota 1 4) ->
  exists c self Q w A p q, [/\ qinit M%:Z "EQUID" qt 0 1 = Ok c,
    ts_init q_trunc false (co_nodes c) 0 = Ok self, co_Q c = fmat Q, co_weights c = map (@Fin Qf) w &
    scheme x self = Ok (fmat A)] /\
  [/\ coll_order c = Some p,
     Posz q = getOrderSDC M "EQUID" qt p k x su - (if (qt, M, x, k) \in over then 1 else 0),
     true_order (fun z => sdcR M (map (map f) Q) (fun _ => map (map f) A)
       (if su == "QUADRATURE"%string then Some (map f w) else None) z k) q &
     [/\ is_shape Q M M, is_shape A M M, size w = M & (0 < q)%N]].
Proof.
rewrite /eq_check; set co := qinit _ _ _ _ _; set c := ok_or _ co; set self := ok_or _ (ts_init _ _ _ _).
set Q := map (map unf) _; set w := map unf _; set p := odflt _ _.
move=> /and4P [ok1 or1 ok2 /and5P [/eqP eQ /eqP ew shQ /eqP sw /allP al]] xS kI.
move/and3P: (al x xS); set A := map (map unf) _; move=> [shA /ok_eqP eA /allP /(_ k kI) /andP [q0 ob]].
have q0' : (0 < corrected su over M qt x p k)%N by move: q0; rewrite /corrected; case: ifP => _ h; rewrite absz_gt0 gt_eqF.
exists c, self, Q, w, A, p, (corrected su over M qt x p k); split.
  split; [exact: ok_orE|exact: ok_orE|exact: eQ|exact: ew|exact: eA].
split; first by rewrite /p; case: coll_order or1.
  by move: q0; rewrite /corrected; case: ifP => _; apply: gtz0_abs.
  move: ob; case: ifP => _ ob.
    exact: (@ordb_ok Qf K f M Q A (Some w) k shQ shA sw _ ob).
  exact: (@ordb_ok Qf K f M Q A None k shQ shA I _ ob).
by split.
Qed.
End Tables.

(* all 288 combinations of the convergence test with quadrature update *)
Theorem C65_equid_quadrature (K : numFieldType) (f : {rmorphism Qf -> K}) M qt x k :
  M \in MS -> qt \in QUAD_TYPES -> x \in SCHEMES -> (k < 4)%N ->
  exists c self Q w A p q, [/\ qinit M%:Z "EQUID" qt 0 1 = Ok c,
    ts_init q_trunc false (co_nodes c) 0 = Ok self, co_Q c = fmat Q, co_weights c = map (@Fin Qf) w &
    scheme x self = Ok (fmat A)] /\
  [/\ coll_order c = Some p,
     Posz q = getOrderSDC M "EQUID" qt p k x "QUADRATURE" - (if (qt, M, x, k) \in over_quad then 1 else 0),
     true_order (fun z => sdcR M (map (map f) Q) (fun _ => map (map f) A) (Some (map f w)) z k) q &
     [/\ is_shape Q M M, is_shape A M M, size w = M & (0 < q)%N]].
Proof.
move=> hM hq hx hk; apply: (@eq_checkP K f "QUADRATURE" over_quad M qt x k) => //; last by rewrite mem_iota.
have /allP /(_ M hM) /allP /(_ qt hq) //: all (fun M => all (eq_check "QUADRATURE" over_quad M) QUAD_TYPES) MS.
by vm_cast_no_check (erefl true).
Qed.

(* all 144 combinations of the convergence test with the last node *)
Theorem C65_equid_last (K : numFieldType) (f : {rmorphism Qf -> K}) M qt x k :
  M \in MS -> qt \in [:: "RADAU-RIGHT"; "LOBATTO"]%string -> x \in SCHEMES -> (0 < k <= 4)%N ->
  exists c self Q w A p q, [/\ qinit M%:Z "EQUID" qt 0 1 = Ok c,
    ts_init q_trunc false (co_nodes c) 0 = Ok self, co_Q c = fmat Q, co_weights c = map (@Fin Qf) w &
    scheme x self = Ok (fmat A)] /\
  [/\ coll_order c = Some p,
     Posz q = getOrderSDC M "EQUID" qt p k x "LASTNODE" - (if (qt, M, x, k) \in over_last then 1 else 0),
     true_order (fun z => sdcR M (map (map f) Q) (fun _ => map (map f) A) None z k) q &
     [/\ is_shape Q M M, is_shape A M M, size w = M & (0 < q)%N]].
Proof.
move=> hM hq hx hk; apply: (@eq_checkP K f "LASTNODE" over_last M qt x k) => //; last by rewrite mem_iota.
have /allP /(_ M hM) /allP /(_ qt hq) //: all (fun M => all (eq_check "LASTNODE" over_last M)
   [:: "RADAU-RIGHT"; "LOBATTO"]%string) MS.
by vm_cast_no_check (erefl true).
Qed.

(* so the expected order is not always attained: three equidistant nodes, three BEPAR sweeps *)
Theorem C65_expected_refuted (K : numFieldType) (f : {rmorphism Qf -> K}) :
  exists (M : nat) qt (k : nat) x c self Q w A (p q : nat), [/\ qinit M%:Z "EQUID" qt 0 1 = Ok c,
    ts_init q_trunc false (co_nodes c) 0 = Ok self, co_Q c = fmat Q, co_weights c = map (@Fin Qf) w &
    scheme x self = Ok (fmat A)] /\
  [/\ coll_order c = Some p, getOrderSDC M "EQUID" qt p k x "QUADRATURE" = Posz q.+1 &
     true_order (fun z => sdcR M (map (map f) Q) (fun _ => map (map f) A) (Some (map f w)) z k) q].
Proof.
exists 3%N, "RADAU-LEFT"%string, 3%N, "BEPAR"%string.
have [c [self [Q [w [A [p [q [h1 [h2 h3 h4 _]]]]]]]]] :=
  @C65_equid_quadrature K f 3%N "RADAU-LEFT"%string "BEPAR"%string 3%N isT isT isT isT.
exists c, self, Q, w, A, p, q; split; first exact: h1.
split; [exact: h2| |exact: h4].
have e : (if ("RADAU-LEFT"%string, 3%N, "BEPAR"%string, 3%N) \in over_quad then 1 else 0) = 1 :> int by [].
by rewrite e in h3; rewrite (intS q) addrC h3 subrK.
Qed.
Print Assumptions C65_equid_quadrature.
Print Assumptions C65_equid_last.
Print Assumptions C65_expected_refuted.

(* the embedding exists for every K, for instance the complex algebraic numbers *)
Example C65_nonvacuous (K : numFieldType) :
  [/\ rmorphism (qcr K), "TRAP"%string \in SCHEMES, 4%N \in MS,
     ("LOBATTO", 4, "TRAP", 2)%string%N \in over_last &
     (* four equidistant Lobatto nodes, two TRAP sweeps: expected 5, true 4; three nodes: 4 *)
     getOrderSDC 4 "EQUID" "LOBATTO" 4 2 "TRAP" "LASTNODE" = 5 /\
     getOrderSDC 3 "EQUID" "LOBATTO" 4 2 "TRAP" "LASTNODE" = 4].
Proof. by split=> //; apply: qcr_is_rmorphism. Qed.
