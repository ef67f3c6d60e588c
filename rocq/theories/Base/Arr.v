(* numpy arrays as lists: computable sums, products, matrix operations. *)
From mathcomp Require Import all_ssreflect all_algebra.
Set Implicit Arguments.
Unset Strict Implicit.
Unset Printing Implicit Defensive.
Import GRing.Theory.
Local Open Scope ring_scope.

Section Defs.
Variable R : ringType.

(* v.sum() *)
Definition vsum (s : seq R) : R := foldr +%R 0 s.
(* v.prod() *)
Definition vprod (s : seq R) : R := foldr *%R 1 s.
(* u.dot(v) for vectors of the same length *)
Definition dot (u v : seq R) : R := vsum [seq p.1 * p.2 | p <- zip u v].
(* array built entry by entry *)
Definition mkmat (m n : nat) (f : nat -> nat -> R) : seq (seq R) :=
  mkseq (fun i => mkseq (f i) n) m.
(* A[i, j] *)
Definition ent (A : seq (seq R)) (i j : nat) : R := nth 0 (nth [::] A i) j.
(* A @ v *)
Definition mv (A : seq (seq R)) (v : seq R) : seq R := [seq dot r v | r <- A].
(* shape of a 2D array *)
Definition is_shape (A : seq (seq R)) (m n : nat) : bool :=
  (size A == m) && all (fun r => size r == n) A.
(* A @ B for A of shape (m, k) and B of shape (k, n) *)
Definition mm (n : nat) (A B : seq (seq R)) : seq (seq R) :=
  [seq mkseq (fun j => dot r [seq nth 0 b j | b <- B]) n | r <- A].
(* np.eye(n) *)
Definition eye (n : nat) : seq (seq R) := mkmat n n (fun i j => (i == j)%:R).
(* elementwise operations *)
Definition vadd (u v : seq R) := [seq p.1 + p.2 | p <- zip u v].
Definition vsub (u v : seq R) := [seq p.1 - p.2 | p <- zip u v].
Definition vscale (a : R) (v : seq R) := [seq a * y | y <- v].
Definition madd (A B : seq (seq R)) := [seq vadd p.1 p.2 | p <- zip A B].
Definition msub (A B : seq (seq R)) := [seq vsub p.1 p.2 | p <- zip A B].
Definition mscale (a : R) (A : seq (seq R)) := [seq vscale a r | r <- A].
(* np.diag(v) *)
Definition diagm (v : seq R) : seq (seq R) :=
  mkmat (size v) (size v) (fun i j => if i == j then nth 0 v i else 0).
(* A.T for A of shape (m, n) *)
Definition transp (n : nat) (A : seq (seq R)) : seq (seq R) :=
  mkseq (fun j => [seq nth 0 r j | r <- A]) n.
End Defs.

Section Lemmas.
Variable R : ringType.
Implicit Types (s u v : seq R) (A B : seq (seq R)).

Lemma vsumE s : vsum s = \sum_(i < size s) nth 0 s i.
Proof. by rewrite /vsum foldrE (big_nth 0) big_mkord. Qed.

Lemma vsum_big s : vsum s = \sum_(a <- s) a.
Proof. by rewrite /vsum foldrE. Qed.

Lemma vsum_mkseq f n : vsum (mkseq f n) = \sum_(i < n) f i :> R.
Proof. by rewrite vsum_big /mkseq big_map -{1}(subn0 n) big_mkord. Qed.

Lemma vprod_big s : vprod s = \prod_(a <- s) a.
Proof. by rewrite /vprod foldrE. Qed.

Lemma vprod_mkseq f n : vprod (mkseq f n) = \prod_(i < n) f i :> R.
Proof. by rewrite vprod_big /mkseq big_map -{1}(subn0 n) big_mkord. Qed.

Lemma dotE u v n : size u = n -> size v = n ->
  dot u v = \sum_(i < n) nth 0 u i * nth 0 v i.
Proof.
move=> su sv; rewrite /dot vsum_big big_map.
rewrite (big_nth (0, 0)) size_zip su sv minnn big_mkord.
by apply: eq_bigr => i _; rewrite nth_zip ?su ?sv.
Qed.

Lemma size_mkmat m n f : size (mkmat m n f : seq (seq R)) = m.
Proof. by rewrite size_mkseq. Qed.

Lemma ent_mkmat m n f i j : (i < m)%N -> (j < n)%N -> ent (mkmat m n f) i j = f i j :> R.
Proof. by move=> im jn; rewrite /ent /mkmat nth_mkseq // nth_mkseq. Qed.

Lemma is_shapeP A m n : reflect (size A = m /\ forall i, (i < m)%N -> size (nth [::] A i) = n)
  (is_shape A m n).
Proof.
apply: (iffP andP) => [[/eqP sA /(all_nthP [::]) h]|[sA h]].
  by split=> // i im; apply/eqP; apply: h; rewrite sA.
split; first by apply/eqP.
by apply/(all_nthP [::]) => i; rewrite sA => /h ->.
Qed.

Lemma mkmat_shape m n f : is_shape (mkmat m n f : seq (seq R)) m n.
Proof.
by apply/is_shapeP; split; rewrite ?size_mkseq // => i im; rewrite nth_mkseq // size_mkseq.
Qed.

Lemma mat_ext A B m n : is_shape A m n -> is_shape B m n ->
  (forall i j, (i < m)%N -> (j < n)%N -> ent A i j = ent B i j) -> A = B.
Proof.
move=> /is_shapeP [sA hA] /is_shapeP [sB hB] h.
apply: (@eq_from_nth _ [::]); rewrite ?sA ?sB // => i im.
apply: (@eq_from_nth _ 0); rewrite ?hA ?hB // => j jn.
exact: h.
Qed.

Lemma size_mv A v : size (mv A v) = size A. Proof. by rewrite size_map. Qed.

Lemma nth_mv A v m n i : is_shape A m n -> size v = n -> (i < m)%N ->
  nth 0 (mv A v) i = \sum_(j < n) ent A i j * nth 0 v j.
Proof.
move=> /is_shapeP [sA hA] sv im; rewrite /mv (nth_map [::]) ?sA //.
by rewrite (@dotE _ _ n) ?hA.
Qed.

Lemma mm_shape A B m k n : is_shape A m k -> is_shape (mm n A B) m n.
Proof.
move=> /is_shapeP [sA hA]; apply/is_shapeP; rewrite size_map sA; split=> // i im.
by rewrite (nth_map [::]) ?sA // size_mkseq.
Qed.

Lemma ent_mm A B m k n i j : is_shape A m k -> is_shape B k n -> (i < m)%N -> (j < n)%N ->
  ent (mm n A B) i j = \sum_(l < k) ent A i l * ent B l j.
Proof.
move=> /is_shapeP [sA hA] /is_shapeP [sB hB] im jn.
rewrite /ent /mm (nth_map [::]) ?sA // nth_mkseq //.
rewrite (@dotE _ _ k) ?size_map ?sB ?hA //.
by apply: eq_bigr => l _; rewrite (nth_map [::]) ?sB.
Qed.

Lemma ent_msub A B m n i j : is_shape A m n -> is_shape B m n -> (i < m)%N -> (j < n)%N ->
  ent (msub A B) i j = ent A i j - ent B i j.
Proof.
move=> /is_shapeP [sA hA] /is_shapeP [sB hB] im jn; rewrite /ent /msub.
rewrite (nth_map ([::], [::])) ?size_zip ?sA ?sB ?minnn // nth_zip ?sA ?sB //=.
rewrite /vsub (nth_map (0, 0)) ?size_zip ?hA ?hB ?minnn // nth_zip ?hA ?hB //.
Qed.

Lemma msub_shape A B m n : is_shape A m n -> is_shape B m n -> is_shape (msub A B) m n.
Proof.
move=> /is_shapeP [sA hA] /is_shapeP [sB hB]; apply/is_shapeP.
rewrite size_map size_zip sA sB minnn; split=> // i im.
rewrite (nth_map ([::], [::])) ?size_zip ?sA ?sB ?minnn // nth_zip ?sA ?sB //=.
by rewrite size_map size_zip hA ?hB // minnn.
Qed.

Lemma ent_madd A B m n i j : is_shape A m n -> is_shape B m n -> (i < m)%N -> (j < n)%N ->
  ent (madd A B) i j = ent A i j + ent B i j.
Proof.
move=> /is_shapeP [sA hA] /is_shapeP [sB hB] im jn; rewrite /ent /madd.
rewrite (nth_map ([::], [::])) ?size_zip ?sA ?sB ?minnn // nth_zip ?sA ?sB //=.
rewrite /vadd (nth_map (0, 0)) ?size_zip ?hA ?hB ?minnn // nth_zip ?hA ?hB //.
Qed.

Lemma madd_shape A B m n : is_shape A m n -> is_shape B m n -> is_shape (madd A B) m n.
Proof.
move=> /is_shapeP [sA hA] /is_shapeP [sB hB]; apply/is_shapeP.
rewrite size_map size_zip sA sB minnn; split=> // i im.
rewrite (nth_map ([::], [::])) ?size_zip ?sA ?sB ?minnn // nth_zip ?sA ?sB //=.
by rewrite size_map size_zip hA ?hB // minnn.
Qed.

Lemma ent_mscale a A m n i j : is_shape A m n -> (i < m)%N -> (j < n)%N ->
  ent (mscale a A) i j = a * ent A i j.
Proof.
move=> /is_shapeP [sA hA] im jn; rewrite /ent /mscale.
by rewrite (nth_map [::]) ?sA // /vscale (nth_map 0) ?hA.
Qed.

Lemma mscale_shape a A m n : is_shape A m n -> is_shape (mscale a A) m n.
Proof.
move=> /is_shapeP [sA hA]; apply/is_shapeP; rewrite size_map; split=> // i im.
by rewrite (nth_map [::]) ?sA // size_map hA.
Qed.

Lemma ent_transp A m n i j : is_shape A m n -> (i < n)%N -> (j < m)%N ->
  ent (transp n A) i j = ent A j i.
Proof.
move=> /is_shapeP [sA hA] im jn; rewrite /ent /transp nth_mkseq //.
by rewrite (nth_map [::]) ?sA.
Qed.

Lemma transp_shape A m n : is_shape A m n -> is_shape (transp n A) n m.
Proof.
move=> /is_shapeP [sA hA]; apply/is_shapeP; rewrite size_mkseq; split=> // i im.
by rewrite nth_mkseq // size_map.
Qed.

Lemma ent_eye n i j : (i < n)%N -> (j < n)%N -> ent (eye R n) i j = (i == j)%:R.
Proof. exact: ent_mkmat. Qed.

Lemma ent_diagm v i j : (i < size v)%N -> (j < size v)%N ->
  ent (diagm v) i j = if i == j then nth 0 v i else 0.
Proof. exact: ent_mkmat. Qed.

Lemma diagm_shape v : is_shape (diagm v) (size v) (size v).
Proof. exact: mkmat_shape. Qed.

Lemma eye_shape n : is_shape (eye R n) n n.
Proof. exact: mkmat_shape. Qed.

(* lists as mathcomp matrices *)
Definition mxl m n A : 'M[R]_(m, n) := \matrix_(i, j) ent A i j.
Definition cvl n v : 'cV[R]_n := \col_i nth 0 v i.
Definition rvl n v : 'rV[R]_n := \row_i nth 0 v i.
Definition lmx m n (A : 'M[R]_(m, n)) : seq (seq R) :=
  [seq [seq A i j | j <- enum 'I_n] | i <- enum 'I_m].
Definition lcv n (v : 'cV[R]_n) : seq R := [seq v i 0 | i <- enum 'I_n].

Lemma size_lcv n (v : 'cV_n) : size (lcv v) = n.
Proof. by rewrite size_map size_enum_ord. Qed.

Lemma nth_lcv n (v : 'cV_n) (i : 'I_n) : nth 0 (lcv v) i = v i 0.
Proof. by rewrite (nth_map i) ?size_enum_ord // nth_ord_enum. Qed.

Lemma lcvK n (v : 'cV_n) : cvl n (lcv v) = v.
Proof. by apply/matrixP => i j; rewrite mxE nth_lcv ord1. Qed.

Lemma cvlK n v : size v = n -> lcv (cvl n v) = v.
Proof.
move=> sv; apply: (@eq_from_nth _ 0); rewrite size_lcv ?sv // => i im.
by rewrite (nth_lcv _ (Ordinal im)) mxE.
Qed.

Lemma cvl_inj n u v : size u = n -> size v = n -> cvl n u = cvl n v -> u = v.
Proof. by move=> su sv e; rewrite -(cvlK su) e cvlK. Qed.

Lemma mxl_inj A B m n : is_shape A m n -> is_shape B m n -> mxl m n A = mxl m n B -> A = B.
Proof.
move=> hA hB /matrixP e; apply: (mat_ext hA hB) => i j im jn.
by have := e (Ordinal im) (Ordinal jn); rewrite !mxE.
Qed.

Lemma cvl_mv A v m n : is_shape A m n -> size v = n ->
  cvl m (mv A v) = mxl m n A *m cvl n v.
Proof.
move=> hA sv; apply/matrixP => i j; rewrite !mxE (nth_mv hA sv) //.
by apply: eq_bigr => k _; rewrite !mxE.
Qed.

Lemma mxl_mm A B m k n : is_shape A m k -> is_shape B k n ->
  mxl m n (mm n A B) = mxl m k A *m mxl k n B.
Proof.
move=> hA hB; apply/matrixP => i j; rewrite !mxE (ent_mm hA hB) //.
by apply: eq_bigr => l _; rewrite !mxE.
Qed.

Lemma mxl_msub A B m n : is_shape A m n -> is_shape B m n ->
  mxl m n (msub A B) = mxl m n A - mxl m n B.
Proof. by move=> hA hB; apply/matrixP => i j; rewrite !mxE (ent_msub hA hB). Qed.

Lemma mxl_madd A B m n : is_shape A m n -> is_shape B m n ->
  mxl m n (madd A B) = mxl m n A + mxl m n B.
Proof. by move=> hA hB; apply/matrixP => i j; rewrite !mxE (ent_madd hA hB). Qed.

Lemma mxl_mscale a A m n : is_shape A m n -> mxl m n (mscale a A) = a *: mxl m n A.
Proof. by move=> hA; apply/matrixP => i j; rewrite !mxE (ent_mscale a hA). Qed.

Lemma mxl_eye n : mxl n n (eye R n) = 1%:M.
Proof. by apply/matrixP => i j; rewrite !mxE ent_eye. Qed.

Lemma mxl_transp A m n : is_shape A m n -> mxl n m (transp n A) = (mxl m n A)^T.
Proof. by move=> hA; apply/matrixP => i j; rewrite !mxE (ent_transp hA). Qed.

Lemma mxl_diagm v : mxl (size v) (size v) (diagm v) = diag_mx (rvl (size v) v).
Proof.
apply/matrixP => i j; rewrite !mxE ent_diagm // -val_eqE.
by case: eqP.
Qed.

End Lemmas.
