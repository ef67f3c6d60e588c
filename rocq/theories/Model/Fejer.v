(* Model of computeFejerRule (qmat/lagrange.py, lines 33-84), on real numbers: exact arithmetic,
   complex numbers as pairs, numpy.fft.ifft as its defining sum. *)
From Coq Require Import Reals.
From Verif.Base Require Import Str.
From mathcomp Require Import all_ssreflect all_algebra.
From Verif.Base Require Import RField Outcome.
Set Implicit Arguments.
Unset Strict Implicit.
Unset Printing Implicit Defensive.
Import GRing.Theory Num.Theory Order.TTheory.
Local Open Scope ring_scope.
(* operations on R are those of the field structure *)
Bind Scope ring_scope with R.
Local Arguments cos x%R.
Local Arguments sin x%R.

Definition cx : Type := (R * R)%type.
Definition cadd (a b : cx) : cx := (a.1 + b.1, a.2 + b.2).
Definition cmul (a b : cx) : cx := (a.1 * b.1 - a.2 * b.2, a.1 * b.2 + a.2 * b.1).
Definition cconj (a : cx) : cx := (a.1, - a.2).
(* product with, and quotient by, a real number *)
Definition cscale (r : R) (a : cx) : cx := (r * a.1, r * a.2).
Definition cdivr (a : cx) (r : R) : cx := (a.1 / r, a.2 / r).
(* exp(1j * x) *)
Definition cexpi (x : R) : cx := (cos x, sin x).
Definition csum (s : seq cx) : cx := foldr cadd (0, 0) s.

(* np.fft.ifft(v)[j] = 1/n sum_k v[k] exp(2 pi i j k / n) *)
Definition ifft (v : seq cx) : seq cx :=
  let n := size v in
  mkseq (fun j => cdivr (csum (mkseq (fun k =>
    cmul (nth (0, 0) v k) (cexpi (2%:R * PI * (j * k)%:R / n%:R))) n)) n%:R) n.

(* lines 55-59: theta = ([n, ..., 1] * 2 - 1) * (pi / (2 n)), nodes = cos(theta) *)
Definition fejer_nodes (n : nat) : seq R :=
  [seq cos ((k%:R * 2%:R - 1) * (PI / (2 * n)%:R)) | k <- rev (iota 1 n)].

(* lines 63-70: N = arange(1, n, 2), m = n - len(N), K = arange(m), v0 *)
Definition fejer_v0 (n : nat) : seq cx :=
  let lN := (n %/ 2)%N in
  let m := (n - lN)%N in
  [seq cdivr (cscale 2%:R (cexpi (PI * k%:R / n%:R))) (1 - 4%:R * k%:R ^+ 2) | k <- iota 0 m]
  ++ nseq lN.+1 (0, 0).

(* lines 71-74: v1 = conj(v0[:0:-1]) + v0[:-1] *)
Definition fejer_v1 (v0 : seq cx) : seq cx :=
  [seq cadd p.1 p.2 | p <- zip [seq cconj a | a <- rev (behead v0)] (take (size v0).-1 v0)].

(* np.pi / (2 * n) raises ZeroDivisionError for n = 0, np.empty(n) ValueError for n < 0 *)
Definition computeFejerRule (n : int) : outcome (seq R * seq R) :=
  match n with
  | Negz _ => Raise ValueError
  | Posz 0 => Raise ZeroDivisionError
  | Posz n =>
    let w := ifft (fejer_v1 (fejer_v0 n)) in
    (* max(w.imag) > 1e-15 *)
    if has (fun a : cx => (10%:R ^- 15 : R) < a.2) w then Raise ValueError
    else Ok (fejer_nodes n, [seq a.1 | a <- w])
  end.
