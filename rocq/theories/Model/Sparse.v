(* Model of getSparseInterpolationMatrix (qmat/lagrange.py, lines 540-598).
   Exact arithmetic; inPoints and outPoints are 1D arrays of finite numbers; the sparse
   result (scipy lil/csc matrix) is represented by the dense matrix it stands for. *)
From Verif.Base Require Import Str.
From mathcomp Require Import all_ssreflect all_algebra.
From Verif.Base Require Import Outcome Arr Ext.
From Verif.Model Require Import Lagrange.
Set Implicit Arguments.
Unset Strict Implicit.
Unset Printing Implicit Defensive.
Import GRing.Theory Num.Theory Order.TTheory.
Local Open Scope ring_scope.

Section Sparse.
Variable F : realFieldType.
Variables (flog fexp : F -> F).
Variable underflow : seq F -> bool.
(* np.argsort (not a stable sort: any order of equal values), and % between floats *)
Variable argsort : seq F -> seq nat.
Variable fmod : F -> F -> F.

(* s[:k] *)
Definition py_take (T : Type) (k : int) (s : seq T) : seq T :=
  match k with Posz n => take n s | Negz m => take (size s - m.+1)%N s end.

(* np.unique(s, return_index=True): sorted distinct values and their first positions *)
Definition unique_index (s : seq F) : seq F * seq nat :=
  (np_unique s, [seq index v s | v <- np_unique s]).

(* np.allclose(a, b) for arrays of the same length, default tolerances *)
Definition allclose (a b : seq F) : bool :=
  all (fun p : F * F => `|p.1 - p.2| <= 10%:R ^- 8 + 10%:R ^- 5 * `|p.2|) (zip a b).

(* lines 571-583: column indices and shifted points used for one output point *)
Definition closest (inPoints : seq F) (order : int) (gridPeriod : F) (t : F) : seq nat * seq F :=
  if 0 < gridPeriod then
    let s := fmod t gridPeriod in
    let pathL := [seq x - gridPeriod - s | x <- inPoints] in
    let pathR := [seq x + gridPeriod - s | x <- inPoints] in
    let pathC := [seq x - s | x <- inPoints] in
    let path := (pathR ++ pathL) ++ pathC in
    let idx0 := sort leq (py_take order (argsort [seq `|a| | a <- path])) in
    let idx := [seq (i %% size inPoints)%N | i <- idx0] in
    let: (pts, sorting) := unique_index [seq nth 0 path i | i <- idx0] in
    ([seq nth 0%N idx i | i <- sorting], pts)
  else
    let idx := sort leq (py_take order (argsort [seq `|x - t| | x <- inPoints])) in
    (idx, [seq nth 0 inPoints i - t | i <- idx]).

(* lines 588-589: LagrangeApproximation(points=...).getInterpolationMatrix([0])[0] *)
Definition line_at0 (pts : seq F) : outcome (seq (ext F)) :=
  dop self <- lagrange_init flog fexp underflow pts "AUTO" false "MAX" "USE_LEFT" None;
  Ok (head [::] (getInterpolationMatrix self [:: 0] true)).

(* A[i, idx] = line on a zero row of length n *)
Definition scatter (n : nat) (idx : seq nat) (line : seq (ext F)) : seq (ext F) :=
  foldl (fun row (p : nat * ext F) => set_nth (Fin 0) row p.1 p.2) (nseq n (Fin 0)) (zip idx line).

(* lines 570-594: the loop; [last] holds lastClosestPoints and lastInterpolationLine *)
Fixpoint sparse_rows (inPoints : seq F) (order : int) (gridPeriod : F)
    (last : option (seq F * seq (ext F))) (outPoints : seq F) : outcome (seq (seq (ext F))) :=
  match outPoints with
  | [::] => Ok [::]
  | t :: ts =>
    let: (idx, pts) := closest inPoints order gridPeriod t in
    dop new <-
      (match last with
       | Some (lastPts, line) =>
         if (size pts == size lastPts) && allclose pts lastPts then Ok (lastPts, line)
         else omapo (pair pts) (line_at0 pts)
       | None => omapo (pair pts) (line_at0 pts)
       end);
    dop rows <- sparse_rows inPoints order gridPeriod (Some new) ts;
    Ok (scatter (size inPoints) idx new.2 :: rows)
  end.

Definition getSparseInterpolationMatrix (inPoints outPoints : seq F) (order : int) (gridPeriod : F) :
    outcome (seq (seq (ext F))) :=
  if ~~ (order <= (size inPoints)%:Z) then Raise AssertionError
  else sparse_rows inPoints order gridPeriod None outPoints.
End Sparse.
