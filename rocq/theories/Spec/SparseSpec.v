(* Vocabulary for the sparse interpolation matrix. *)
From Verif.Base Require Import Str.
From mathcomp Require Import all_ssreflect all_algebra.
From Verif.Base Require Import Outcome Arr Ext.
Set Implicit Arguments.
Unset Strict Implicit.
Unset Printing Implicit Defensive.
Import GRing.Theory Num.Theory Order.TTheory.
Local Open Scope ring_scope.

Section Spec.
Variable F : realFieldType.

(* any permutation of the positions that sorts the values *)
Definition argsort_ok (argsort : seq F -> seq nat) : Prop := forall d,
  perm_eq (argsort d) (iota 0 (size d)) /\
  sorted (fun i j => nth 0 d i <= nth 0 d j) (argsort d).

(* representative in [0, P) modulo P *)
Definition fmod_ok (fmod : F -> F -> F) : Prop := forall t P, 0 < P ->
  0 <= fmod t P < P /\ exists k : int, t = fmod t P + k%:~R * P.

(* k increasing positions of the grid, the others being at least as far from t *)
Definition nearest (grid : seq F) (t : F) (k : nat) (idx : seq nat) : Prop :=
  [/\ sorted ltn idx, size idx = k, all (fun j => j < size grid)%N idx &
      forall i j, i \in idx -> (j < size grid)%N -> j \notin idx ->
        `|nth 0 grid i - t| <= `|nth 0 grid j - t|].

(* k different positions j with one periodic image x_j + mP each, in increasing order of the
   images; no other image of any grid point is closer to t *)
Definition nearest_images (grid : seq F) (P t : F) (k : nat) (im : seq (nat * int)) : Prop :=
  let img (e : nat * int) := nth 0 grid e.1 + e.2%:~R * P in
  [/\ uniq [seq e.1 | e <- im], size im = k, all (fun e => e.1 < size grid)%N im,
      sorted <%O [seq img e | e <- im] &
      forall e f, e \in im -> (f.1 < size grid)%N -> f \notin im -> `|img e - t| <= `|img f - t|].

(* grid in one period that starts at most half a period away from 0 *)
Definition period_ok (grid : seq F) (P : F) : Prop :=
  sorted <%O grid /\ exists a, `|a| <= P / 2%:R /\ all (fun x => a <= x < a + P) grid.

(* componentwise |u - v| <= 1e-8 + 1e-5 |v| *)
Definition close (u v : seq F) : Prop :=
  size u = size v /\ forall k, (k < size u)%N ->
    `|nth 0 u k - nth 0 v k| <= 10%:R ^- 8 + 10%:R ^- 5 * `|nth 0 v k|.

(* the row r uses only the columns idx, with coefficients that interpolate at 0 through y *)
Definition interpolates (r : seq F) (idx : seq nat) (y : seq F) : Prop :=
  (forall j, j \notin idx -> nth 0 r j = 0) /\
  forall p : {poly F}, (size p <= size y)%N ->
    \sum_(k < size y) nth 0 r (nth 0%N idx k) * p.[nth 0 y k] = p.[0].
End Spec.
