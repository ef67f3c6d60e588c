(* np.linalg.solve as exact Gaussian elimination, and its characterisation. *)
From mathcomp Require Import all_ssreflect all_algebra ring.
From Verif.Base Require Import Arr.
Set Implicit Arguments.
Unset Strict Implicit.
Unset Printing Implicit Defensive.
Import GRing.Theory.
Local Open Scope ring_scope.

Section Solve.
Variable K : fieldType.

(* an equation: coefficients and right hand side *)
Definition eqn : Type := (seq K * K)%type.

(* remove the first unknown of e with the pivot row (a :: p.1, p.2) *)
Definition reduce (a : K) (p : eqn) (e : eqn) : eqn :=
  let f := head 0 e.1 / a in (vsub (behead e.1) (vscale f p.1), e.2 - f * p.2).

Definition drop_at (T : Type) (i : nat) (s : seq T) : seq T := take i s ++ drop i.+1 s.

(* exact elimination; the pivot is the first non zero entry (LAPACK takes the one of
   largest modulus: the result is the same in exact arithmetic) *)
Fixpoint elim (n : nat) (sys : seq eqn) : option (seq K) :=
  match n with
  | 0 => Some [::]
  | m.+1 =>
    let i := find (fun e : eqn => head 0 e.1 != 0) sys in
    if (i < size sys)%N then
      let e := nth ([::], 0) sys i in
      let a := head 0 e.1 in
      let p := (behead e.1, e.2) in
      match elim m [seq reduce a p r | r <- drop_at i sys] with
      | Some y => Some ((e.2 - dot p.1 y) / a :: y)
      | None => None
      end
    else None
  end.

(* np.linalg.solve(A, b); None stands for LinAlgError (singular matrix) *)
Definition solve (A : seq (seq K)) (b : seq K) : option (seq K) := elim (size A) (zip A b).

Definition sat (x : seq K) (e : eqn) : Prop := dot e.1 x = e.2.
Definition wf (n : nat) (sys : seq eqn) : Prop :=
  size sys = n /\ forall e, e \in sys -> size e.1 = n.

Lemma dot_cons (a b : K) r x : dot (a :: r) (b :: x) = a * b + dot r x.
Proof. by []. Qed.

Lemma dot_vsub_scale (u v x : seq K) f : size u = size x -> size v = size x ->
  dot (vsub u (vscale f v)) x = dot u x - f * dot v x.
Proof.
move=> su sv; have sw : size (vsub u (vscale f v)) = size x.
  by rewrite size_map size_zip size_map su sv minnn.
rewrite !(@dotE _ _ _ (size x)) // mulr_sumr -sumrB; apply: eq_bigr => i _.
rewrite /vsub (nth_map (0, 0)) ?size_zip ?size_map ?su ?sv ?minnn //.
rewrite nth_zip ?size_map ?su ?sv //= (nth_map 0) ?sv //.
by rewrite mulrBl mulrA.
Qed.

Lemma dot0r r n : dot r (nseq n 0) = 0 :> K.
Proof.
rewrite /dot; elim: r n => [|a r ih] [|n] //=.
by rewrite mulr0 add0r ih.
Qed.

Lemma drop_at_mem (T : eqType) (sys : seq T) i d e : (i < size sys)%N ->
  e \in sys = (e == nth d sys i) || (e \in drop_at i sys).
Proof.
move=> il; rewrite -{1}(cat_take_drop i sys) (drop_nth d) // !(mem_cat, inE).
by rewrite orbCA.
Qed.

Lemma size_drop_at (T : Type) (sys : seq T) i : (i < size sys)%N ->
  size (drop_at i sys) = (size sys).-1.
Proof.
move=> il; rewrite size_cat size_take il size_drop.
by rewrite -subn1 -[size sys in RHS](subnKC il) addSn subn1.
Qed.

Lemma arith1 (a h x0 d1 d2 : K) : a != 0 ->
  d2 - h / a * d1 = h * x0 + d2 - h / a * (a * x0 + d1).
Proof. by move=> a0; field. Qed.

Lemma arith2 (a h x0 d1 d2 e : K) : a != 0 ->
  d2 - h / a * d1 = e - h / a * (a * x0 + d1) -> h * x0 + d2 = e.
Proof.
move=> a0 /eqP; rewrite subr_eq => /eqP ->; by field.
Qed.

Lemma arith3 (a x0 d : K) : a != 0 -> x0 = (a * x0 + d - d) / a.
Proof. by move=> a0; field. Qed.

Lemma arith4 (a e d : K) : a != 0 -> a * ((e - d) / a) + d = e.
Proof. by move=> a0; field. Qed.

Lemma arith5 (a h d : K) : a != 0 -> h * (- d / a) + h / a * d = 0.
Proof. by move=> a0; field. Qed.

Section Step.
Variables (m : nat) (sys : seq eqn) (i : nat).
Hypothesis w : wf m.+1 sys.
Hypothesis il : (i < size sys)%N.
Let e := nth ([::], 0) sys i.
Let a := head 0 e.1.
Hypothesis a0 : a != 0.
Let p : eqn := (behead e.1, e.2).
Let sys' := [seq reduce a p r | r <- drop_at i sys].

Lemma e_in : e \in sys. Proof. exact: mem_nth. Qed.

Lemma e_split r : r \in sys -> r.1 = head 0 r.1 :: behead r.1 /\ size (behead r.1) = m.
Proof. by case: w => _ h /h; case: r.1 => // b s /= [->]. Qed.

Lemma wf_step : wf m sys'.
Proof.
case: (w) => sz h; split; first by rewrite size_map size_drop_at // sz.
move=> r /mapP [q qin ->] /=.
have qs : q \in sys by rewrite (drop_at_mem ([::], 0) _ il) qin orbT.
rewrite size_map size_zip size_map.
by rewrite (e_split qs).2 (e_split e_in).2 minnn.
Qed.

Lemma sat_step x0 x : size x = m ->
  (forall r, r \in sys -> sat (x0 :: x) r) <->
  (sat (x0 :: x) e /\ forall r, r \in sys' -> sat x r).
Proof.
move=> sx.
have eE := e_split e_in.
have key q : q \in sys -> sat (x0 :: x) e -> sat x (reduce a p q) <-> sat (x0 :: x) q.
  move=> qs; rewrite /sat /=.
  have qE := e_split qs.
  rewrite dot_vsub_scale ?qE.2 ?eE.2 //.
  rewrite eE.1 qE.1 !dot_cons /= -/a.
  move=> <-; split; first exact: arith2.
  by move=> <-; apply: arith1.
split.
  move=> h; have he := h e e_in; split=> // r /mapP [q qin ->].
  have qs : q \in sys by rewrite (drop_at_mem ([::], 0) _ il) qin orbT.
  by apply/(key q qs he); apply: h.
case=> he h q; rewrite (drop_at_mem ([::], 0) _ il) => /orP [/eqP -> //|qin].
have qs : q \in sys by rewrite (drop_at_mem ([::], 0) _ il) qin orbT.
by apply/(key q qs he); apply: h; apply/mapP; exists q.
Qed.

Lemma sat_e x0 x : size x = m ->
  sat (x0 :: x) e <-> x0 = (e.2 - dot (behead e.1) x) / a.
Proof.
move=> sx; have eE := e_split e_in.
rewrite /sat {1}eE.1 dot_cons -/a; split=> [<-|->]; [exact: arith3|exact: arith4].
Qed.

End Step.

Lemma elim_some n sys x : wf n sys -> elim n sys = Some x ->
  size x = n /\ (forall e, e \in sys -> sat x e) /\
  forall y, size y = n -> (forall e, e \in sys -> sat y e) -> y = x.
Proof.
elim: n sys x => [|m ih] sys x w.
  case=> <-; split=> //; split=> [e|[|//] //].
  by case: w => /size0nil ->.
rewrite /=; set i := find _ sys; case: ifP => // il.
have a0 : head 0 (nth ([::], 0) sys i).1 != 0.
  by apply: (@nth_find _ ([::], 0) (fun e : eqn => head 0 e.1 != 0)); rewrite has_find.
case E : (elim m _) => [y|//] [<-].
have w' := wf_step w il.
have [sy [hy uy]] := ih _ _ w' E.
split; first by rewrite /= sy.
split.
  apply/(sat_step w il a0 _ sy); split; last exact: hy.
  by apply/(sat_e w il a0 _ sy).
move=> [//|z0 z] /= [sz] /(sat_step w il a0 _ sz) [/(sat_e w il a0 _ sz) -> h].
by rewrite (uy z sz h).
Qed.

Lemma elim_none n sys : wf n sys -> elim n sys = None ->
  exists y, size y = n /\ has (fun a => a != 0) y /\ forall e, e \in sys -> dot e.1 y = 0.
Proof.
elim: n sys => [//|m ih] sys w /=; set i := find _ sys.
case: ifP => [il|/negbT].
  have a0 : head 0 (nth ([::], 0) sys i).1 != 0.
    by apply: (@nth_find _ ([::], 0) (fun e : eqn => head 0 e.1 != 0)); rewrite has_find.
  case E : (elim m _) => [//|] _.
  have w' := wf_step w il.
  have [y [sy [ny hy]]] := ih _ w' E.
  set e := nth ([::], 0) sys i in a0 E w' hy.
  exists (- dot (behead e.1) y / head 0 e.1 :: y); split; first by rewrite /= sy.
  split; first by rewrite /= ny orbT.
  have es : e \in sys by apply: mem_nth.
  have eE := e_split w es.
  move=> q; rewrite (drop_at_mem ([::], 0) _ il) => /orP [/eqP ->|qin].
    by rewrite -/e {1}eE.1 dot_cons mulrC -mulrA mulVf // mulr1 addNr.
  have qs : q \in sys by rewrite (drop_at_mem ([::], 0) _ il) qin orbT.
  have qE := e_split w qs.
  have /eqP : dot (behead q.1) y - head 0 q.1 / head 0 e.1 * dot (behead e.1) y = 0.
    rewrite -dot_vsub_scale ?qE.2 ?eE.2 //.
    apply: (hy (reduce (head 0 e.1) (behead e.1, e.2) q)).
    by apply/mapP; exists q.
  rewrite subr_eq add0r => /eqP hq.
  by rewrite qE.1 dot_cons /= hq arith5.
rewrite -has_find => nh _; exists (1 :: nseq m 0); split; first by rewrite /= size_nseq.
split; first by rewrite /= oner_neq0.
move=> q qs; have qE := e_split w qs; rewrite qE.1 dot_cons dot0r addr0 mulr1.
by apply/eqP; apply: contraNT nh => h; apply/hasP; exists q.
Qed.

Lemma unitmx_inj n (M : 'M[K]_n) : (forall v : 'cV_n, M *m v = 0 -> v = 0) -> M \in unitmx.
Proof.
move=> h; rewrite -unitmx_tr -row_free_unit -kermx_eq0; apply/eqP/row_matrixP => i.
rewrite row0; set r := row i _.
have : r *m M^T = 0.
  by rewrite /r -row_mul mulmx_ker row0.
move/(congr1 trmx); rewrite trmx_mul trmxK trmx0 => /h /(congr1 trmx).
by rewrite trmxK trmx0.
Qed.

Lemma wf_zip A b n : is_shape A n n -> size b = n -> wf n (zip A b).
Proof.
move=> /is_shapeP [sA hA] sb; split; first by rewrite size_zip sA sb minnn.
move=> e /(nthP ([::], 0)) [i]; rewrite size_zip sA sb minnn => il <-.
by rewrite nth_zip ?sA ?sb //= hA.
Qed.

Lemma sat_zip A b n x : is_shape A n n -> size b = n -> size x = n ->
  (forall e, e \in zip A b -> sat x e) <-> mv A x = b.
Proof.
move=> hA sb sx; have [sA _] := (is_shapeP A n n hA); split.
  move=> h; apply: (@eq_from_nth _ 0); rewrite size_mv ?sA ?sb // => i il.
  rewrite (nth_map [::]) ?sA //.
  have := h (nth [::] A i, nth 0 b i); apply.
  by rewrite -nth_zip ?sA ?sb // mem_nth // size_zip sA sb minnn.
move=> <- e /(nthP ([::], 0)) [i]; rewrite size_zip size_mv minnn => il <-.
by rewrite nth_zip ?size_mv // /sat /= (nth_map [::]).
Qed.

Theorem solveE A b n : is_shape A n n -> size b = n ->
  solve A b = if mxl n n A \in unitmx then Some (lcv (invmx (mxl n n A) *m cvl n b)) else None.
Proof.
move=> hA sb; have [sA _] := (is_shapeP A n n hA).
rewrite /solve sA; have w := wf_zip hA sb.
case E : elim => [x|].
  have [sx [hx ux]] := elim_some w E.
  have hx' : mv A x = b by apply/(sat_zip hA sb sx).
  have un : mxl n n A \in unitmx.
    apply: unitmx_inj => v hv.
    have : lcv (cvl n x + v) = x.
      apply: ux; first exact: size_lcv.
      apply/(sat_zip hA sb (size_lcv _)); apply: (@cvl_inj _ n) => //.
        by rewrite size_mv sA.
      by rewrite (cvl_mv hA) ?size_lcv // lcvK mulmxDr hv addr0 -(cvl_mv hA) // hx'.
    move/(congr1 (cvl n)); rewrite lcvK => /eqP; rewrite -subr_eq0 addrAC subrr add0r.
    by move/eqP.
  rewrite un; congr Some; apply: (@cvl_inj _ n) => //; first exact: size_lcv.
  by rewrite lcvK -hx' (cvl_mv hA) // mulKmx.
have [y [sy [ny hy]]] := elim_none w E.
case: ifP => // un; exfalso.
have : mxl n n A *m cvl n y = 0.
  apply/matrixP => i j; rewrite -(cvl_mv hA) // !mxE (nth_map [::]) ?sA //.
  have := hy (nth [::] A i, nth 0 b i); apply.
  by rewrite -nth_zip ?sA ?sb // mem_nth // size_zip sA sb minnn.
move/(congr1 (mulmx (invmx (mxl n n A)))); rewrite mulKmx // mulmx0 => y0.
case/(has_nthP 0): ny => i; rewrite sy => il.
by have /matrixP/(_ (Ordinal il) 0) := y0; rewrite !mxE /= => ->; rewrite eqxx.
Qed.

End Solve.
