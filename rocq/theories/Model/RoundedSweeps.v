(* Model of qmat/qdelta/timestepping.py, lines 39-133, in rounded arithmetic: every operation
   returns the rounding [rnd] of the exact result.  Simplifications as in Model/Rounded.v: no
   overflow and no underflow; the nodes are floats (the integer arrays of Model/Sweeps.v are
   left out). *)
From Verif.Base Require Import Str.
From mathcomp Require Import all_ssreflect all_algebra.
From Verif.Base Require Import Outcome Arr.
From Verif.Model Require Import Sweeps.
Set Implicit Arguments.
Unset Strict Implicit.
Unset Printing Implicit Defensive.
Import GRing.Theory Num.Theory Order.TTheory.
Local Open Scope ring_scope.

Section Rounded.
Variable F : realFieldType.
(* rounding to the nearest float64 *)
Variable rnd : F -> F.

(* __init__, lines 39-52 *)
Definition r_ts_init (nodes : seq F) (tLeft : F) : outcome (ts F) :=
  if nodes is x :: _ then
    Ok (Ts nodes (rnd (x - tLeft) :: [seq rnd d | d <- ediff1d nodes]) tLeft)
  else Raise IndexError.

Variable self : ts F.
Let M := size (ts_nodes self).
Let deltas := ts_deltas self.

(* QDelta[i:, :M-i] += np.diag(d): every entry of the block is added, also the zeros *)
Definition r_add_diag (n i : nat) (d : seq F) (Q : seq (seq F)) : seq (seq F) :=
  mkmat n n (fun r c =>
    if (i <= r)%N && (c < n - i)%N then rnd (ent Q r c + (if (r - i)%N == c then nth 0 d c else 0))
    else ent Q r c).

(* BE, lines 73-77 *)
Definition r_qd_BE : seq (seq F) :=
  foldl (fun Q i => r_add_diag M i (slice 0 (M - i) deltas) Q) (zeros F M) (iota 0 M).
(* FE, lines 85-89 *)
Definition r_qd_FE : seq (seq F) :=
  foldl (fun Q i => r_add_diag M i (slice 1 (M - i + 1) deltas) Q) (zeros F M) (iota 1 (M - 1)).
(* TRAP, lines 101-108 *)
Definition r_qd_TRAP : seq (seq F) :=
  let Q := foldl (fun Q i => r_add_diag M i (slice 0 (M - i) deltas) Q) (zeros F M) (iota 0 M) in
  let Q := foldl (fun Q i => r_add_diag M i (slice 1 (M - i + 1) deltas) Q) Q (iota 1 (M - 1)) in
  [seq [seq rnd (x / 2%:R) | x <- r] | r <- Q].
(* BEPAR, lines 120-121 *)
Definition r_qd_BEPAR : seq (seq F) :=
  [seq [seq rnd (x - ts_tLeft self) | x <- r] | r <- diagm (ts_nodes self)].
(* TRAPAR, lines 128-129 *)
Definition r_qd_TRAPAR : seq (seq F) :=
  [seq [seq rnd (x - ts_tLeft self) | x <- r] | r <- diagm [seq rnd (x / 2%:R) | x <- ts_nodes self]].

(* dTau, lines 91-93 (FE), 110-112 (TRAP), 131-133 (TRAPAR) *)
Definition r_dTau_FE : seq F := [seq rnd (rnd (x * 0) + nth 0 deltas 0) | x <- ts_nodes self].
Definition r_dTau_TRAP : seq F :=
  [seq rnd (rnd (x * 0) + rnd (nth 0 deltas 0 / 2%:R)) | x <- ts_nodes self].
Definition r_dTau_TRAPAR : seq F := [seq rnd (rnd (x / 2%:R) - ts_tLeft self) | x <- ts_nodes self].
End Rounded.
