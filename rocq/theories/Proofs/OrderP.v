(* Checking order conditions: enumeration of rooted trees, exact evaluation in Q(sqrt d)
   and ball arithmetic on binary integers. *)
From Coq Require Import ZArith QArith Qcanon List.
From Verif.Base Require Import Str.
From mathcomp Require Import all_ssreflect all_algebra ring.
From Verif.Base Require Import QcField QcEmb Arr.
From Verif.Model Require Import QGen.
From Verif.Spec Require Import QCoeffSpec.
Set Implicit Arguments.
Unset Strict Implicit.
Unset Printing Implicit Defensive.
Import GRing.Theory Num.Theory Order.TTheory.
Local Open Scope ring_scope.

(* induction on trees *)
Fixpoint tree_ind2 (P : tree -> Prop)
   (h : forall s, (forall t, List.In t s -> P t) -> P (Node s)) (t : tree) : P t :=
  match t with
  | Node s => h s ((fix aux (s : seq tree) : forall t, List.In t s -> P t :=
      match s with
      | [::] => fun t (f : False) => match f with end
      | t0 :: s' => fun t hin =>
          match hin with
          | or_introl e => eq_ind t0 P (tree_ind2 h t0) t e
          | or_intror hin' => aux s' t hin'
          end
      end) s)
  end.

(* ---- enumeration of all plane trees up to a given size with their stage weights,
   in an abstract algebra of stage vectors: one, product, application of A ---- *)
Definition fsize (s : seq tree) : nat := foldr addn 0%N (map tsize s).
Definition fdens (s : seq tree) : nat := foldr muln 1%N (map tdens s).

Lemma In_iota k m : (k < m)%N -> List.In k (iota 0 m).
Proof.
have gen a n : forall j, (a <= j < a + n)%N -> List.In j (iota a n).
  elim: n a => [|n ih] a j /=; first by rewrite addn0 => /andP [h1 h2]; have := leq_ltn_trans h1 h2; rewrite ltnn.
  case/andP; rewrite leq_eqVlt => /orP [/eqP -> _|h1 h2]; [by left|right].
  by apply: ih; rewrite h1 addSnnS.
by move=> h; apply: gen.
Qed.

Section Enum.
Variables (V : Type) (one : V) (mulv : V -> V -> V) (app : V -> V).
Fixpoint fval (t : tree) : V :=
  let: Node s := t in foldr mulv one (map (fun t' => app (fval t')) s).

(* density and value of a forest, with the image of the value by A *)
Definition entry := (nat * V * V)%type.
Definition level (T : seq (seq entry)) (m : nat) : seq (nat * V) :=
  if m is O then [:: (1%N, one)] else
  List.flat_map (fun k => List.flat_map (fun g =>
    List.map (fun h : entry => ((k.+1 * g.1.1 * h.1.1)%N, mulv g.2 h.1.2)) (nth [::] T (m - k.+1)%N))
    (nth [::] T k)) (iota 0 m).
Fixpoint tabl (p : nat) : seq (seq entry) :=
  if p is p'.+1 then
    let T := tabl p' in rcons T (List.map (fun e => (e.1, e.2, app e.2)) (level T p'))
  else [::].
Definition checkall (p : nat) (P : nat -> V -> bool) : bool :=
  if p is p'.+1 then
    let T := tabl p' in
    List.forallb (fun m => List.forallb (fun e : entry => P (m.+1 * e.1.1)%N e.1.2) (nth [::] T m)) (iota 0 p')
    && List.forallb (fun e => P (p * e.1)%N e.2) (level T p')
  else true.

Lemma size_tabl p : size (tabl p) = p.
Proof. by elim: p => //= p ih; rewrite size_rcons ih. Qed.

Definition complete (T : seq (seq entry)) (m : nat) : Prop := forall s, fsize s = m ->
  List.In (fdens s, fval (Node s), app (fval (Node s))) (nth [::] T m).

Lemma level_complete T p s : (forall m, (m < p)%N -> complete T m) -> fsize s = p ->
  List.In (fdens s, fval (Node s)) (level T p).
Proof.
move=> hT e; rewrite /level; case: p hT e => [|p] hT e.
  by case: s e => [|[g] s] //= _; left.
case: s e => [//|[g] h] e; have e' : ((fsize g).+1 + fsize h)%N = p.+1 by rewrite -e.
have gp : (fsize g < p.+1)%N by rewrite -e' leq_addr.
have hp : (fsize h < p.+1)%N by rewrite -e' addSn ltnS leq_addl.
apply/List.in_flat_map; exists (fsize g); split; first exact: In_iota.
apply/List.in_flat_map; eexists; split; first exact: (hT _ gp g).
rewrite -e' addKn; apply/List.in_map_iff; eexists; split; last exact: (hT _ hp h).
by [].
Qed.

Lemma tabl_complete p m : (m < p)%N -> complete (tabl p) m.
Proof.
elim: p m => [//|p ih] m; rewrite ltnS leq_eqVlt => mp s e /=; rewrite nth_rcons size_tabl.
case: (ltngtP m p) mp => [lt _|//|em _]; first exact: ih.
rewrite em in e.
apply/List.in_map_iff; exists (fdens s, fval (Node s)); split=> //.
exact: level_complete.
Qed.

Lemma checkallP p P : checkall p P -> forall t, (tsize t <= p)%N -> P (tdens t) (fval t).
Proof.
case: p => [_ [g] //|p] /andP [/List.forallb_forall h1 /List.forallb_forall h2] [g] sz.
have : (fsize g <= p)%N by []; rewrite leq_eqVlt => /orP [/eqP e|lt].
  have := h2 _ (level_complete (@tabl_complete p) e); rewrite /= -{1}e; exact.
have := h1 _ (In_iota lt) => /List.forallb_forall /(_ _ (tabl_complete lt (erefl _))).
exact.
Qed.
End Enum.

(* ---- exact evaluation through a ring morphism ---- *)
Section Morph.
Variables (R S : ringType) (f : {rmorphism R -> S}).
Implicit Types (A : seq (seq R)) (b u v : seq R).

Lemma map_dot u v : dot (map f u) (map f v) = f (dot u v).
Proof.
rewrite /dot /vsum; elim: u v => [|a u ih] [|c v] /=; rewrite ?rmorph0 //.
by rewrite ih rmorphD rmorphM.
Qed.
Lemma map_mv A v : mv (map (map f) A) (map f v) = map f (mv A v).
Proof. by rewrite /mv -!map_comp; apply: eq_map => r /=; rewrite map_dot. Qed.

Lemma map_stagew n A t : stagew n (map (map f) A) t = map f (stagew n A t).
Proof.
elim/tree_ind2: t => s ih /=; elim: s ih => [|t s ihs] ih /=.
  by rewrite map_nseq rmorph1.
rewrite ihs; last by move=> t' h; apply: ih; right.
rewrite (ih t) ?map_mv; last by left.
move: (mv A _) (foldr _ _ _) => x y; elim: x y => [|a x ih2] [|c y] //=.
by rewrite ih2 rmorphM.
Qed.

Lemma map_elemw A b t : elemw (map (map f) A) (map f b) t = f (elemw A b t).
Proof. by rewrite /elemw size_map map_stagew map_dot. Qed.

Lemma map_vsum v : vsum (map f v) = f (vsum v).
Proof. by rewrite /vsum; elim: v => [|a v ih] /=; rewrite ?rmorph0 // ih rmorphD. Qed.
End Morph.

(* exact order conditions in a ring *)
Definition order_chk (R : ringType) (A : seq (seq R)) (b : seq R) (p : nat) : bool :=
  checkall (nseq (size b) 1) (fun v acc => [seq p.1 * p.2 | p <- zip v acc]) (mv A) p
    (fun dens v => dot b v * dens%:R == 1).

Lemma stagew_fval (R : ringType) n (A : seq (seq R)) t : stagew n A t =
  fval (nseq n 1) (fun v acc => [seq p.1 * p.2 | p <- zip v acc]) (mv A) t.
Proof.
elim/tree_ind2: t => s ih /=; elim: s ih => //= t s ihs ih.
rewrite (ih t); last by left.
by rewrite ihs // => t' h; apply: ih; right.
Qed.

Lemma order_chkP (R : ringType) (A : seq (seq R)) b p : order_chk A b p ->
  forall t, (tsize t <= p)%N -> elemw A b t * (tdens t)%:R == 1.
Proof. by move=> h t st; have := checkallP h st; rewrite /elemw stagew_fval. Qed.

Lemma tdens_gt0 t : (0 < tdens t)%N.
Proof.
elim/tree_ind2: t => s ih /=; rewrite muln_gt0 /=.
elim: s ih => //= t s ihs ih; rewrite muln_gt0 ih ?ihs //; last by left.
by move=> t' h; apply: ih; right.
Qed.

(* ---- ball arithmetic: (m, e) stands for all x with |x - m/2^P| <= e/2^P ---- *)
Definition ball := (Z * Z)%type.
Section Ball.
Variable P2 : Z. (* the scale 2^P *)
Variable dv : Z -> Z. (* division by 2^P *)
Definition badd (x y : ball) : ball := (Z.add x.1 y.1, Z.add x.2 y.2).
Definition bmul (x y : ball) : ball :=
  (dv (Z.mul x.1 y.1),
   Z.add (dv (Z.add (Z.add (Z.mul (Z.abs x.1) y.2) (Z.mul (Z.abs y.1) x.2)) (Z.mul x.2 y.2))) 2).
Definition blit (q : Qc) : ball :=
  (Z.div (Z.mul (Qnum q) P2) (Zpos (Qden q)), Z.one).
Definition bone : ball := (P2, Z0).
Definition bzero : ball := (Z0, Z0).

Definition bdot (u v : seq ball) : ball := foldr badd bzero [seq bmul p.1 p.2 | p <- zip u v].
Definition bmv (A : seq (seq ball)) v := [seq bdot r v | r <- A].
Definition bmulv (u v : seq ball) : seq ball := [seq bmul p.1 p.2 | p <- zip u v].
Definition bstagew (n : nat) (A : seq (seq ball)) : tree -> seq ball :=
  fval (nseq n bone) bmulv (bmv A).
Definition belemw A b t := bdot b (bstagew (size b) A t).

(* the ball lies in [m - e, m + e] around 1/dens, dens * m and dens * e compared to 2^P *)
Definition bnear (x : ball) (dens : nat) (eps : Z * positive) : bool :=
  Z.leb (Z.mul (Z.add (Z.abs (Z.sub (Z.mul (Z.of_nat dens) x.1) P2)) (Z.mul (Z.of_nat dens) x.2)) (Zpos eps.2))
        (Z.mul (Z.mul eps.1 P2) (Z.of_nat dens)).

Variable F : numFieldType.
Hypothesis P2_pos : Z.lt 0 P2.
Hypothesis dvE : forall a, dv a = Z.div a P2.
Notation zr := (zr F).
Definition inb (x : ball) (a : F) : Prop := `|a * zr P2 - zr x.1| <= zr x.2.

Lemma P2_gt0 : 0 < zr P2. Proof. exact: zr_lt P2_pos. Qed.
Lemma zr1 : zr Z.one = 1. Proof. by []. Qed.
Lemma zr_abs a : zr (Z.abs a) = `|zr a|.
Proof.
by case: a => [|p|p] /=; rewrite ?normr0 ?normrN // ger0_norm // ltW ?posr_gt0.
Qed.

Lemma inb_one : inb bone 1.
Proof. by rewrite /inb mul1r subrr normr0. Qed.
Lemma inb_zero : inb bzero 0.
Proof. by rewrite /inb mul0r subrr normr0. Qed.

Lemma inb_add x y a b : inb x a -> inb y b -> inb (badd x y) (a + b).
Proof.
rewrite /inb /= !zrD => h1 h2; rewrite mulrDl opprD addrACA.
by rewrite (le_trans (ler_norm_add _ _)) // ler_add.
Qed.

Lemma div_err (a b : Z) : Z.lt 0 b -> `|zr (Z.div a b) * zr b - zr a| <= zr b.
Proof.
move=> b0; have e := Z.div_mod a b (Z.neq_sym _ _ (Z.lt_neq _ _ b0)).
have [m0 m1] := Z.mod_pos_bound a b b0.
rewrite {2}e zrD zrM mulrC opprD addrA subrr add0r normrN ger0_norm; last exact: zr_ge0.
by apply: zr_le; apply: Z.lt_le_incl.
Qed.

Lemma div_le_add1 (a b : Z) : Z.lt 0 b -> zr a <= (zr (Z.div a b) + 1) * zr b.
Proof.
move=> b0; have e := Z.div_mod a b (Z.neq_sym _ _ (Z.lt_neq _ _ b0)).
have [m0 m1] := Z.mod_pos_bound a b b0.
rewrite {1}e zrD zrM mulrDl mul1r [zr b * _]mulrC ler_add2l.
by apply: zr_le; apply: Z.lt_le_incl.
Qed.

Lemma mul_err (X Y x1 x2 y1 y2 : F) : `|X - x1| <= x2 -> `|Y - y1| <= y2 ->
  `|X * Y - x1 * y1| <= `|x1| * y2 + `|y1| * x2 + x2 * y2.
Proof.
move=> hx hy.
have com : X * Y - x1 * y1 = x1 * (Y - y1) + y1 * (X - x1) + (X - x1) * (Y - y1) by ring.
rewrite com (le_trans (ler_norm_add _ _)) // ler_add //; last first.
  by rewrite normrM ler_pmul.
by rewrite (le_trans (ler_norm_add _ _)) // ler_add // normrM ler_wpmul2l.
Qed.

Lemma inb_mul x y a b : inb x a -> inb y b -> inb (bmul x y) (a * b).
Proof.
rewrite /inb => h1 h2; have h := mul_err h1 h2.
have P0 := P2_pos.
rewrite -(ler_pmul2r P2_gt0) -{2}[zr P2](@ger0_norm _ (zr P2)) ?(ltW P2_gt0) // -normrM.
set m := zr (bmul x y).1; set e := zr (bmul x y).2.
have -> : (a * b * zr P2 - m) * zr P2 = a * zr P2 * (b * zr P2) - zr x.1 * zr y.1 -
     (m * zr P2 - zr x.1 * zr y.1).
  by move: (zr P2) (zr x.1) (zr y.1) m => p u v w; ring.
rewrite (le_trans (ler_norm_sub _ _)) //.
have h3 : `|m * zr P2 - zr x.1 * zr y.1| <= zr P2.
  by rewrite -zrM /m /= dvE; apply: div_err.
rewrite (le_trans (ler_add h h3)) //.
set E := (Z.add (Z.add (Z.mul (Z.abs x.1) y.2) (Z.mul (Z.abs y.1) x.2)) (Z.mul x.2 y.2)).
have -> : `|zr x.1| * zr y.2 + `|zr y.1| * zr x.2 + zr x.2 * zr y.2 = zr E.
  by rewrite /E !zrD !zrM !zr_abs.
have := div_le_add1 E P0; rewrite /e /bmul /= dvE -/E zrD => hE.
rewrite (le_trans (ler_add hE (lexx _))) //.
have -> : zr Z.two = 1 + 1 by rewrite /= /posr.
have com (u p : F) : (u + 1) * p + p <= (u + (1 + 1)) * p.
  by rewrite addrA [X in _ <= X]mulrDl mul1r.
exact: com.
Qed.

Lemma inb_lit (q : Qc) : inb (blit q) (qcr F q).
Proof.
rewrite /inb /= /qcr /qr; set n := zr _; set p := posr _ _.
have p0 : 0 < p by apply: posr_gt0.
rewrite -(ler_pmul2r p0) -{2}(ger0_norm (ltW p0)) -normrM mulrBl.
have -> : n / p * zr P2 * p = n * zr P2 by rewrite mulrAC divfK ?gt_eqF.
rewrite -zrM mul1r -normrN opprB.
have := @div_err (Z.mul (Qnum q) P2) (Zpos (Qden q)) (Pos2Z.is_pos _).
by [].
Qed.

Definition inbs (x : seq ball) (a : seq F) : Prop := List.Forall2 inb x a.
Definition inbm (x : seq (seq ball)) (a : seq (seq F)) : Prop := List.Forall2 inbs x a.

Lemma inbs_size x a : inbs x a -> size x = size a.
Proof. by elim=> //= ? ? ? ? _ _ ->. Qed.

Lemma inb_dot u v a b : inbs u a -> inbs v b -> inb (bdot u v) (dot a b).
Proof.
move=> h; elim: h v b => [|x y u' a' h1 h2 ih] v b.
  by case: v b => [|? ?] [|? ?] _; apply: inb_zero.
case=> [|p q v' b' h3 h4]; first exact: inb_zero.
by apply: inb_add; [apply: inb_mul|apply: ih].
Qed.

Lemma inb_mv A B v b : inbm A B -> inbs v b -> inbs (bmv A v) (mv B b).
Proof.
by move=> h hv; elim: h => [|r s A' B' h1 h2 ih]; constructor => //; apply: inb_dot.
Qed.

Lemma inb_stagew n A B t : inbm A B -> inbs (bstagew n A t) (stagew n B t).
Proof.
rewrite /bstagew => hA; elim/tree_ind2: t => s ih /=; elim: s ih => [|t s ihs] ih /=.
  by elim: (n) => [|m ihn] /=; constructor => //; apply: inb_one.
rewrite -/(bstagew n A t).
have h1 : inbs (bmv A (bstagew n A t)) (mv B (stagew n B t)).
  by apply: inb_mv => //; apply: ih; left.
have h2 := ihs (fun t' h => ih t' (or_intror h)).
move: h1 h2; move: (bmv _ _) (mv _ _) (foldr _ _ _) (foldr _ _ _) => u a v b h.
elim: h v b => [|x y u' a' h1 h2 ih'] v b; first by case: v b => [|? ?] [|? ?]; constructor.
by case=> [|p q v' b' h3 h4] /=; constructor; [apply: inb_mul|apply: ih'].
Qed.

Lemma inb_elemw A B b c t : inbm A B -> inbs b c -> inb (belemw A b t) (elemw B c t).
Proof.
move=> hA hb; apply: inb_dot => //; rewrite (inbs_size hb); exact: inb_stagew.
Qed.

Lemma bnearP x a d eps : (0 < d)%N -> inb x a -> bnear x d eps ->
  `|a - d%:R^-1| <= qcr F (qc eps.1 eps.2).
Proof.
move=> d0 h /Z.leb_le /(@zr_le F); rewrite !zrM zrD !zr_abs zrM zrD zr_opp !zrM zr_nat => hn.
have dp : 0 < d%:R :> F by rewrite ltr0n.
have pp : 0 < zr (Zpos eps.2) by apply: posr_gt0.
rewrite qcrE ler_pdivl_mulr; last exact: pp.
have k0 : 0 < d%:R * zr P2 by rewrite mulr_gt0 ?P2_gt0.
rewrite -(ler_pmul2l k0).
apply: le_trans (_ : (`|d%:R * zr x.1 - zr P2| + d%:R * zr x.2) * zr (Zpos eps.2) <= _); last first.
  have com (u v w : F) : u * v * w = w * v * u by ring.
  by rewrite com.
rewrite mulrA ler_pmul2r // -{1}(ger0_norm (ltW k0)) -normrM.
have -> : d%:R * zr P2 * (a - d%:R^-1) = d%:R * (a * zr P2 - zr x.1) + (d%:R * zr x.1 - zr P2).
  by have := lt0r_neq0 dp; move: (zr P2) (zr x.1) d%:R => p u v v0; field.
rewrite (le_trans (ler_norm_add _ _)) // addrC ler_add2l normrM ger0_norm ?(ltW dp) //.
by rewrite ler_pmul2l.
Qed.
End Ball.
