(* Linear regression, and numericalOrder on positive data. *)
From Verif.Base Require Import Str.
From mathcomp Require Import all_ssreflect all_algebra ring zify.
From Verif.Base Require Import Outcome Arr Ext.
From Verif.Model Require Import NumUtil.
From Verif.Spec Require Import NumSpec.
Set Implicit Arguments.
Unset Strict Implicit.
Unset Printing Implicit Defensive.
Import GRing.Theory Num.Theory Order.TTheory.
Local Open Scope ring_scope.

Section Regr.
Variable F : realFieldType.

Section Line.
Variables (n : nat) (x y : 'I_n -> F).
Hypothesis n0 : (0 < n)%N.
Definition mean_ (f : 'I_n -> F) : F := (\sum_i f i) / n%:R.
Definition sxx : F := \sum_i (x i - mean_ x) * (x i - mean_ x).
Definition sxy : F := \sum_i (x i - mean_ x) * (y i - mean_ y).
Definition slope : F := sxy / sxx.
Definition icpt : F := mean_ y - slope * mean_ x.
Definition dev (a b : F) : F := \sum_i (y i - (a + b * x i)) ^+ 2.

Let nz : n%:R != 0 :> F. Proof. by rewrite pnatr_eq0 -lt0n. Qed.

Lemma sum_mean (f : 'I_n -> F) : \sum_i (f i - mean_ f) = 0.
Proof.
rewrite sumrB sumr_const card_ord /mean_ -[_ / _ *+ n]mulr_natr mulfVK // subrr.
by [].
Qed.

Lemma sxx_ge0 : 0 <= sxx.
Proof. by apply: sumr_ge0 => i _; rewrite -expr2 sqr_ge0. Qed.
Lemma sxx_eq0 : sxx = 0 -> forall i, x i = mean_ x.
Proof.
move/eqP; rewrite psumr_eq0 => [/allP h i|i _]; last by rewrite -expr2 sqr_ge0.
have /= := h i (mem_index_enum _); rewrite -expr2 sqrf_eq0 subr_eq0.
by move/eqP.
Qed.
Lemma sxx_const c : (forall i, x i = c) -> sxx = 0.
Proof.
move=> h; have m : mean_ x = c.
  by rewrite /mean_ (eq_bigr (fun _ => c)) // sumr_const card_ord -[c *+ n]mulr_natr mulfK.
by rewrite /sxx big1 // => i _; rewrite h m subrr mul0r.
Qed.

Hypothesis s0 : sxx != 0.

Let e i := y i - (icpt + slope * x i).
Lemma eE i : e i = (y i - mean_ y) - slope * (x i - mean_ x).
Proof. rewrite /e /icpt; ring. Qed.
Lemma sum_e : \sum_i e i = 0.
Proof.
rewrite (eq_bigr _ (fun i _ => eE i)) sumrB -mulr_sumr !sum_mean.
by rewrite mulr0 subrr.
Qed.
Lemma sum_ex : \sum_i e i * (x i - mean_ x) = 0.
Proof.
rewrite (eq_bigr (fun i => (x i - mean_ x) * (y i - mean_ y) -
   slope * ((x i - mean_ x) * (x i - mean_ x)))); last by move=> i _; rewrite eE; ring.
by rewrite sumrB -mulr_sumr -/sxx -/sxy /slope divfK // subrr.
Qed.

(* Pythagoras: the deviation of any line *)
Lemma dev_split a b : dev a b = dev icpt slope +
  (n%:R * (icpt - a + (slope - b) * mean_ x) ^+ 2 + (slope - b) ^+ 2 * sxx).
Proof.
pose c := icpt - a + (slope - b) * mean_ x; pose d := slope - b.
have E i : (y i - (a + b * x i)) ^+ 2 =
    (y i - (icpt + slope * x i)) ^+ 2 + (2%:R * c * e i + 2%:R * d * (e i * (x i - mean_ x)) +
     (c ^+ 2 + 2%:R * c * d * (x i - mean_ x) + d ^+ 2 * ((x i - mean_ x) * (x i - mean_ x)))).
  rewrite /c /d /e; move: (mean_ x) icpt slope (x i) (y i) => m i0 s xi yi.
  ring.
rewrite /dev (eq_bigr _ (fun i _ => E i)) big_split /=; congr (_ + _).
rewrite !big_split /= -!mulr_sumr sum_e sum_ex sum_mean -/sxx sumr_const card_ord.
rewrite -[c *+ n]mulr_natr -/c -/d; ring.
Qed.

Lemma dev_min a b : dev icpt slope <= dev a b.
Proof.
rewrite (dev_split a b) ler_addl addr_ge0 // mulr_ge0 ?ler0n ?sqr_ge0 ?sxx_ge0 //.
Qed.
Lemma dev_uniq a b : dev a b = dev icpt slope -> a = icpt /\ b = slope.
Proof.
rewrite (dev_split a b) => /eqP; rewrite -subr_eq0 addrAC subrr add0r.
rewrite paddr_eq0; try by rewrite mulr_ge0 ?ler0n ?sqr_ge0 ?sxx_ge0.
move=> /andP []; rewrite mulf_eq0 (negPf nz) /= sqrf_eq0 => h1.
rewrite mulf_eq0 (negPf s0) orbF sqrf_eq0 => h2.
move: h2; rewrite subr_eq0 => /eqP h2; move: h1; rewrite h2 subrr mul0r addr0 subr_eq0.
by move/eqP.
Qed.
Lemma dev_ge0 a b : 0 <= dev a b.
Proof. by apply: sumr_ge0 => i _; apply: sqr_ge0. Qed.
Lemma line_exact a b : (forall i, y i = a + b * x i) -> icpt = a /\ slope = b /\ dev icpt slope = 0.
Proof.
move=> h; have z : dev a b = 0 by rewrite /dev big1 // => i _; rewrite h subrr expr0n.
have [] := @dev_uniq a b; last by move=> <- <-.
by apply/eqP; rewrite eq_le dev_min andbT z dev_ge0.
Qed.
End Line.

(* invariance under translations *)
Lemma mean_shift n (x : 'I_n -> F) c : (0 < n)%N -> mean_ (fun i => x i + c) = mean_ x + c.
Proof.
move=> n0; have nz : n%:R != 0 :> F by rewrite pnatr_eq0 -lt0n.
by rewrite /mean_ big_split /= sumr_const card_ord -[c *+ n]mulr_natr mulrDl mulfK.
Qed.
Lemma sxy_shift n (x y : 'I_n -> F) c d : (0 < n)%N ->
  sxy (fun i => x i + c) (fun i => y i + d) = sxy x y.
Proof.
move=> n0; rewrite /sxy; apply: eq_bigr => i _.
by rewrite !mean_shift //; congr (_ * _); ring.
Qed.
Lemma sxx_shift n (x : 'I_n -> F) c : (0 < n)%N -> sxx (fun i => x i + c) = sxx x.
Proof. by move=> n0; apply: sxy_shift. Qed.

Section Model.
Variables (flog fsqrt : F -> F).
Hypothesis sq : sqrt_laws fsqrt.

Lemma fsqrt0 : fsqrt 0 = 0.
Proof. by have [_ /eqP] := sq (lexx 0); rewrite sqrf_eq0 => /eqP. Qed.
Lemma fsqrt_neq0 x : 0 < x -> fsqrt x != 0.
Proof.
move=> x0; have [_ h] := sq (ltW x0); apply/eqP => e.
by move: x0; rewrite -h e expr0n ltxx.
Qed.

Lemma emean_fin (s : seq F) : (0 < size s)%N ->
  emean (map (@Fin F) s) = Fin (mean_ (fun i : 'I_(size s) => nth 0 s i)).
Proof.
move=> s0; rewrite /emean esum_fin size_map ediv_fin ?pnatr_eq0 -?lt0n //.
by rewrite vsumE.
Qed.

Lemma esum_map (f : ext F -> ext F) (g : F -> F) (s : seq F) : (forall a, f (Fin a) = Fin (g a)) ->
  esum (map f (map (@Fin F) s)) = Fin (\sum_(i < size s) g (nth 0 s i)).
Proof.
move=> h; rewrite -map_comp (eq_map (f2 := @Fin F \o g)); last by move=> a /=; rewrite h.
by rewrite map_comp esum_fin vsum_big big_map (big_nth 0) big_mkord.
Qed.
Lemma esum_map2 (f : ext F -> ext F -> ext F) (g : F -> F -> F) (s t : seq F) n : size s = n -> size t = n ->
  (forall a b, f (Fin a) (Fin b) = Fin (g a b)) ->
  esum [seq f p.1 p.2 | p <- zip (map (@Fin F) s) (map (@Fin F) t)] =
  Fin (\sum_(i < n) g (nth 0 s i) (nth 0 t i)).
Proof.
move=> sn tn h; have st : size s = size t by rewrite tn.
have -> : [seq f p.1 p.2 | p <- zip (map (@Fin F) s) (map (@Fin F) t)] =
   map (@Fin F) [seq g p.1 p.2 | p <- zip s t].
  elim: s t st {sn tn} => [|a s ih] [|b t] //= [st]; by rewrite h ih.
rewrite esum_fin vsum_big big_map (big_nth (0, 0)) big_mkord size_zip sn tn minnn.
by congr Fin; apply: eq_bigr => i _; rewrite nth_zip.
Qed.

Lemma map_esub (s : seq F) m :
  [seq esub a (Fin m) | a <- map (@Fin F) s] = map (@Fin F) [seq a - m | a <- s].
Proof. by elim: s => //= a s ->. Qed.
Lemma map_line (s : seq F) a b :
  [seq eadd (Fin a) (emul (Fin b) c) | c <- map (@Fin F) s] = map (@Fin F) [seq a + b * c | c <- s].
Proof. by elim: s => //= c s ->. Qed.

Variables (nSteps err : seq F).
Hypothesis sz : size err = size nSteps.
Hypothesis pn : all (fun n => 0 < n) nSteps.
Hypothesis pe : all (fun n => 0 < n) err.
Hypothesis s0 : (0 < size nSteps)%N.

Let xs := [seq flog n^-1 | n <- nSteps].
Let ys := [seq flog e | e <- err].
Let x (i : 'I_(size xs)) := nth 0 xs i.
Let y (i : 'I_(size xs)) := nth 0 ys i.

Lemma xsE : [seq elog10 flog (ediv (Fin 1) (Fin n)) | n <- nSteps] = map (@Fin F) xs.
Proof.
rewrite /xs; elim: nSteps pn => //= n s ih /andP [n0 /ih ->].
by rewrite (gt_eqF n0) /= div1r invr_gt0 n0.
Qed.
Lemma ysE : [seq elog10 flog (Fin e) | e <- err] = map (@Fin F) ys.
Proof. by rewrite /ys; elim: err pe => //= n s ih /andP [n0 /ih ->]; rewrite n0. Qed.

Lemma numOrderE : numericalOrder flog fsqrt nSteps err =
  if sxx x == 0 then Ok (NaN, NaN)
  else Ok (Fin (slope x y), Fin (fsqrt (dev x y (icpt x y) (slope x y)) / fsqrt (size nSteps)%:R)).
Proof.
have sx : size xs = size nSteps by rewrite size_map.
have sy : size ys = size xs by rewrite !size_map.
have s0' : (0 < size xs)%N by rewrite sx.
have mx : emean (map (@Fin F) xs) = Fin (mean_ x) by rewrite emean_fin.
have my : emean (map (@Fin F) ys) = Fin (mean_ y).
  by rewrite emean_fin ?sy // /mean_ /y; congr Fin; congr (_ / _); rewrite ?sy.
rewrite /numericalOrder xsE ysE mx my /broadcast !size_map sy eqxx.
have e1 : esum [seq emul (esub a (Fin (mean_ x))) (esub a (Fin (mean_ x))) | a <- map (@Fin F) xs] = Fin (sxx x).
  by rewrite (@esum_map _ (fun a => (a - mean_ x) * (a - mean_ x))).
have e2 : esum [seq emul p.1 p.2 | p <- zip [seq esub a (Fin (mean_ x)) | a <- map (@Fin F) xs]
              [seq esub b (Fin (mean_ y)) | b <- map (@Fin F) ys]] = Fin (sxy x y).
  rewrite !map_esub.
  rewrite (@esum_map2 _ (fun a b => a * b) _ _ (size xs)) ?size_map //.
  by congr Fin; apply: eq_bigr => i _; rewrite (nth_map 0) // (nth_map 0 _ (fun a => a - mean_ y)) ?sy.
rewrite /obind e1 e2 !size_map eqxx; case: (sxx x =P 0) => [z|/eqP z].
  have xc := sxx_eq0 z.
  have -> : sxy x y = 0 by rewrite /sxy big1 // => i _; rewrite xc subrr mul0r.
  have -> : ediv (Fin 0) (Fin (sxx x)) = NaN by rewrite z /= eqxx /inf_of ltxx.
  rewrite /=; clear -s0' sy.
  move: xs ys s0' sy => [//|a s] [//|b t] _ _ /=.
  by [].
rewrite (ediv_fin _ z) [esub _ _]/= map_line.
rewrite (@esum_map2 (fun b h => emul (esub b h) (esub b h)) (fun b h => (b - h) * (b - h)) _ _ (size xs)) ?size_map //.
have -> : \sum_(i < size xs) (nth 0 ys i - nth 0 [seq icpt x y + slope x y * c | c <- xs] i) *
    (nth 0 ys i - nth 0 [seq icpt x y + slope x y * c | c <- xs] i) = dev x y (icpt x y) (slope x y).
  rewrite /dev; apply: eq_bigr => i _; rewrite (nth_map 0 _ (fun c => icpt x y + slope x y * c)) //.
have p0 : (0 <= dev x y (icpt x y) (slope x y)) by apply: dev_ge0.
have q0 : 0 < (size nSteps)%:R :> F by rewrite ltr0n.
by rewrite (congr1 (fun n => n%:R : F) sx) /esqrt p0 (ltW q0) ediv_fin // fsqrt_neq0.
Qed.
End Model.
End Regr.
