(* Rounding to nearest even with 53 bits, unbounded exponents (Flocq). *)
From Coq Require Import Reals Lra.
From Flocq Require Import Core Relative.
Local Open Scope R_scope.

Definition f64 (x : R) : R := round radix2 (FLX_exp 53) ZnearestE x.
(* 2^-53 *)
Definition u64 : R := / 2 * bpow radix2 (-53 + 1).
Local Instance p53 : Prec_gt_0 53. Proof. reflexivity. Qed.

Lemma u64E : u64 = / 9007199254740992.
Proof. unfold u64; simpl; lra. Qed.
Lemma f64_err x : Rabs (f64 x - x) <= u64 * Rabs x.
Proof. apply relative_error_N_FLX; reflexivity. Qed.
Lemma f64_1 : f64 1 = 1.
Proof.
apply round_generic; [apply valid_rnd_N|].
change 1 with (bpow radix2 0); apply generic_format_bpow; unfold FLX_exp; simpl.
now compute.
Qed.
Lemma f64_idem x : f64 (f64 x) = f64 x.
Proof.
apply round_generic; [apply valid_rnd_N|]; apply generic_format_round; [apply FLX_exp_valid, p53|apply valid_rnd_N].
Qed.
