(* Taylor remainder of exp (a t) (cos (b t) + i sin (b t)), on real numbers. *)
From Coq Require Import Reals Lra.
Local Open Scope R_scope.

Section Taylor.
Variables a b : R.
(* powers of a + i b *)
Fixpoint cpow (k : nat) : R * R :=
  match k with
  | O => (1, 0)
  | S k => (a * fst (cpow k) - b * snd (cpow k), a * snd (cpow k) + b * fst (cpow k))
  end.
Definition tterm (k : nat) (t : R) : R := t ^ k / INR (fact k).
(* partial sums of the exponential series of (a + i b) t *)
Fixpoint tsum (c : nat -> R) (q : nat) (t : R) : R :=
  match q with
  | O => 0
  | S q => tsum c q t + tterm q t * c q
  end.
Definition c1 k := fst (cpow k).
Definition c2 k := snd (cpow k).
Definition g1 t := exp (a * t) * cos (b * t).
Definition g2 t := exp (a * t) * sin (b * t).
Definition d1 q t := g1 t - tsum c1 q t.
Definition d2 q t := g2 t - tsum c2 q t.

Lemma lin_lim (c t : R) : derivable_pt_lim (fun t => c * t) t c.
Proof.
  pose proof (derivable_pt_lim_scal id c t 1 (derivable_pt_lim_id t)) as h.
  rewrite Rmult_1_r in h. exact h.
Qed.
Lemma e_lim t : derivable_pt_lim (fun t => exp (a * t)) t (a * exp (a * t)).
Proof.
  rewrite Rmult_comm.
  apply (derivable_pt_lim_comp (fun t => a * t) exp); [apply lin_lim | apply derivable_pt_lim_exp].
Qed.
Lemma g1_lim t : derivable_pt_lim g1 t (a * g1 t - b * g2 t).
Proof.
  unfold g1, g2.
  replace (a * (exp (a * t) * cos (b * t)) - b * (exp (a * t) * sin (b * t)))
    with (a * exp (a * t) * cos (b * t) + exp (a * t) * (- sin (b * t) * b)) by ring.
  apply (derivable_pt_lim_mult (fun t => exp (a * t)) (fun t => cos (b * t))).
  - apply e_lim.
  - apply (derivable_pt_lim_comp (fun t => b * t) cos); [apply lin_lim | apply derivable_pt_lim_cos].
Qed.
Lemma g2_lim t : derivable_pt_lim g2 t (a * g2 t + b * g1 t).
Proof.
  unfold g1, g2.
  replace (a * (exp (a * t) * sin (b * t)) + b * (exp (a * t) * cos (b * t)))
    with (a * exp (a * t) * sin (b * t) + exp (a * t) * (cos (b * t) * b)) by ring.
  apply (derivable_pt_lim_mult (fun t => exp (a * t)) (fun t => sin (b * t))).
  - apply e_lim.
  - apply (derivable_pt_lim_comp (fun t => b * t) sin); [apply lin_lim | apply derivable_pt_lim_sin].
Qed.

Lemma tterm_lim k t : derivable_pt_lim (tterm (S k)) t (tterm k t).
Proof.
  unfold tterm.
  replace (t ^ k / INR (fact k)) with (/ INR (fact (S k)) * (INR (S k) * t ^ k)).
  - pose proof (derivable_pt_lim_scal (fun t => t ^ (S k)) (/ INR (fact (S k))) t _ (derivable_pt_lim_pow t (S k))) as h.
    cbn [pred] in h.
    intros e he. destruct (h e he) as [d hd]. exists d. intros u hu hud.
    specialize (hd u hu hud). unfold mult_real_fct in hd.
    replace ((t + u) ^ S k / INR (fact (S k)) - t ^ S k / INR (fact (S k)))
      with (/ INR (fact (S k)) * (t + u) ^ S k - / INR (fact (S k)) * t ^ S k).
    exact hd.
    unfold Rdiv. ring.
  - rewrite fact_simpl, mult_INR. field. split; [apply INR_fact_neq_0 | apply not_0_INR; discriminate].
Qed.
Lemma tterm0_lim t : derivable_pt_lim (tterm 0) t 0.
Proof.
  unfold tterm. simpl. apply derivable_pt_lim_const.
Qed.

(* the derivative of a partial sum *)
Lemma tsum_lim (c : nat -> R) q t :
  derivable_pt_lim (tsum c (S q)) t (tsum (fun k => c (S k)) q t).
Proof.
  induction q as [|q ih].
  - simpl. replace 0 with (0 + 0 * c O) by ring.
    apply derivable_pt_lim_plus; [apply derivable_pt_lim_const|].
    rewrite Rmult_comm.
    pose proof (derivable_pt_lim_scal (tterm 0) (c O) t 0 (tterm0_lim t)) as h.
    intros e he. destruct (h e he) as [d hd]. exists d. intros u hu hud.
    specialize (hd u hu hud). unfold mult_real_fct in hd. rewrite !(Rmult_comm _ (c O)). exact hd.
  - change (tsum c (S (S q))) with (fun t => tsum c (S q) t + tterm (S q) t * c (S q)).
    simpl (tsum (fun k => c (S k)) (S q) t).
    apply derivable_pt_lim_plus; [exact ih|].
    rewrite Rmult_comm.
    pose proof (derivable_pt_lim_scal (tterm (S q)) (c (S q)) t _ (tterm_lim q t)) as h.
    intros e he. destruct (h e he) as [d hd]. exists d. intros u hu hud.
    specialize (hd u hu hud). unfold mult_real_fct in hd. rewrite !(Rmult_comm _ (c (S q))). exact hd.
Qed.
Lemma tsum_lin (u v : R) (e f : nat -> R) q t :
  tsum (fun k => u * e k + v * f k) q t = u * tsum e q t + v * tsum f q t.
Proof. induction q as [|q ih]; simpl; [ring | rewrite ih; ring]. Qed.
Lemma tsum_ext (e f : nat -> R) q t : (forall k, e k = f k) -> tsum e q t = tsum f q t.
Proof. intro h; induction q as [|q ih]; simpl; [reflexivity | rewrite ih, h; reflexivity]. Qed.

Lemma d1_lim q t : derivable_pt_lim (d1 (S q)) t (a * d1 q t - b * d2 q t).
Proof.
  unfold d1 at 2, d2.
  replace (a * (g1 t - tsum c1 q t) - b * (g2 t - tsum c2 q t))
    with ((a * g1 t - b * g2 t) - (a * tsum c1 q t + (- b) * tsum c2 q t)) by ring.
  apply derivable_pt_lim_minus; [apply g1_lim|].
  rewrite <- tsum_lin.
  rewrite (tsum_ext _ (fun k => c1 (S k))).
  - apply tsum_lim.
  - intro k. unfold c1, c2. simpl. ring.
Qed.
Lemma d2_lim q t : derivable_pt_lim (d2 (S q)) t (a * d2 q t + b * d1 q t).
Proof.
  unfold d1, d2 at 2.
  replace (a * (g2 t - tsum c2 q t) + b * (g1 t - tsum c1 q t))
    with ((a * g2 t + b * g1 t) - (a * tsum c2 q t + b * tsum c1 q t)) by ring.
  apply derivable_pt_lim_minus; [apply g2_lim|].
  rewrite <- tsum_lin.
  rewrite (tsum_ext _ (fun k => c2 (S k))).
  - apply tsum_lim.
  - intro k. unfold c1, c2. simpl. ring.
Qed.

Lemma tsum0 c q : tsum c (S q) 0 = c O.
Proof.
  induction q as [|q ih].
  - simpl. unfold tterm. simpl. field.
  - change (tsum c (S (S q)) 0) with (tsum c (S q) 0 + tterm (S q) 0 * c (S q)).
    rewrite ih. unfold tterm. rewrite pow_ne_zero by discriminate. unfold Rdiv. ring.
Qed.
Lemma d1_0 q : d1 (S q) 0 = 0.
Proof. unfold d1, g1. rewrite tsum0, !Rmult_0_r, exp_0, cos_0. unfold c1. simpl. ring. Qed.
Lemma d2_0 q : d2 (S q) 0 = 0.
Proof. unfold d2, g2. rewrite tsum0, !Rmult_0_r, exp_0, sin_0. unfold c2. simpl. ring. Qed.

Variable r : R.
Hypothesis ha : Rabs a <= r.
Hypothesis hb : Rabs b <= r.
Lemma r_ge0 : 0 <= r.
Proof. pose proof (Rabs_pos a). lra. Qed.

Lemma g_bound t u : 0 <= t <= 1 -> Rabs u <= 1 -> Rabs (exp (a * t) * u) <= exp r.
Proof.
  intros ht hu. rewrite Rabs_mult, (Rabs_pos_eq (exp (a * t))) by (left; apply exp_pos).
  assert (h : exp (a * t) <= exp r).
  { pose proof (Rle_abs a). pose proof r_ge0.
    assert (h : a * t <= r).
    { destruct (Rle_lt_dec 0 a). assert (a * t <= a * 1) by (apply Rmult_le_compat_l; lra). lra.
      assert (0 <= (- a) * t) by (apply Rmult_le_pos; lra). lra. }
    destruct h as [h|h]; [left; apply exp_increasing; exact h | right; rewrite h; reflexivity]. }
  pose proof (exp_pos (a * t)). pose proof (Rabs_pos u).
  assert (exp (a * t) * Rabs u <= exp (a * t) * 1) by (apply Rmult_le_compat_l; lra). lra.
Qed.

Lemma step_bound (f f' : R -> R) (q : nat) (t : R) : 0 <= t <= 1 ->
  (forall s, derivable_pt_lim f s (f' s)) -> f 0 = 0 ->
  (forall s, 0 <= s <= 1 -> Rabs (f' s) <= 2 * r * (exp r * (2 * r * s) ^ q)) ->
  Rabs (f t) <= exp r * (2 * r * t) ^ (S q).
Proof.
  intros ht hd h0 hf. pose proof r_ge0 as r0. pose proof (exp_pos r) as e0.
  destruct (Rle_lt_or_eq_dec 0 t (proj1 ht)) as [tp|t0].
  - destruct (MVT_cor2 f f' 0 t tp (fun s _ => hd s)) as [s [hs hst]].
    rewrite h0, !Rminus_0_r in hs. rewrite hs, Rabs_mult, (Rabs_pos_eq t) by lra.
    assert (hb1 : Rabs (f' s) <= 2 * r * (exp r * (2 * r * s) ^ q)) by (apply hf; lra).
    assert (hp : (2 * r * s) ^ q <= (2 * r * t) ^ q).
    { apply pow_incr. split; [repeat apply Rmult_le_pos; lra|]. apply Rmult_le_compat_l; lra. }
    assert (h1 : 2 * r * (exp r * (2 * r * s) ^ q) <= 2 * r * (exp r * (2 * r * t) ^ q)).
    { apply Rmult_le_compat_l; [lra|]. apply Rmult_le_compat_l; lra. }
    simpl. replace (exp r * (2 * r * t * (2 * r * t) ^ q)) with (2 * r * (exp r * (2 * r * t) ^ q) * t) by ring.
    apply Rmult_le_compat_r; lra.
  - rewrite <- t0, h0, Rabs_R0. apply Rmult_le_pos; [lra|]. rewrite Rmult_0_r. apply pow_le. lra.
Qed.

Theorem remainder q t : 0 <= t <= 1 ->
  Rabs (d1 q t) <= exp r * (2 * r * t) ^ q /\ Rabs (d2 q t) <= exp r * (2 * r * t) ^ q.
Proof.
  revert t. induction q as [|q ih]; intros t ht.
  - unfold d1, d2, g1, g2. simpl. rewrite !Rminus_0_r, !Rmult_1_r. split; apply g_bound; trivial.
    + apply Rabs_le. apply COS_bound.
    + apply Rabs_le. apply SIN_bound.
  - assert (ab : forall (x y u v B : R), Rabs u <= B -> Rabs v <= B -> Rabs x <= r -> Rabs y <= r ->
       Rabs (x * u + y * v) <= 2 * r * B).
    { intros x y u v B hu hv hx hy. pose proof (Rabs_pos u). pose proof (Rabs_pos v).
      pose proof (Rabs_pos x). pose proof (Rabs_pos y).
      eapply Rle_trans; [apply Rabs_triang|]. rewrite !Rabs_mult.
      assert (Rabs x * Rabs u <= r * B) by (apply Rmult_le_compat; lra).
      assert (Rabs y * Rabs v <= r * B) by (apply Rmult_le_compat; lra). lra. }
    split.
    + apply (step_bound (d1 (S q)) (fun s => a * d1 q s - b * d2 q s)); trivial.
      * intro s; apply d1_lim.
      * apply d1_0.
      * intros s hs. destruct (ih s hs) as [h1 h2].
        replace (a * d1 q s - b * d2 q s) with (a * d1 q s + (- b) * d2 q s) by ring.
        apply ab; trivial. rewrite Rabs_Ropp; trivial.
    + apply (step_bound (d2 (S q)) (fun s => a * d2 q s + b * d1 q s)); trivial.
      * intro s; apply d2_lim.
      * apply d2_0.
      * intros s hs. destruct (ih s hs) as [h1 h2]. apply ab; trivial.
Qed.
End Taylor.
