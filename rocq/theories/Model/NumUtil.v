(* Model of qmat/utils/num.py: numericalOrder (lines 9-43) and getExtrapolationMatrix
   (lines 88-113); lduFactorization (lines 46-85) is in Model.Sweeps.
   Exact arithmetic; arguments are lists of finite numbers. *)
From Verif.Base Require Import Str.
From mathcomp Require Import all_ssreflect all_algebra.
From Verif.Base Require Import Outcome Arr Ext LinSolve.
Set Implicit Arguments.
Unset Strict Implicit.
Unset Printing Implicit Defensive.
Import GRing.Theory Num.Theory Order.TTheory.
Local Open Scope ring_scope.

Section NumUtil.
Variable F : realFieldType.
(* np.log10 on positive numbers, **0.5 on non-negative ones *)
Variables (flog10 fsqrt : F -> F).
Notation ext := (ext F).

(* np.log10 and **0.5 with their IEEE limits (np.float64, negative numbers give nan) *)
Definition elog10 (a : ext) : ext :=
  match a with
  | Fin x => if 0 < x then Fin (flog10 x) else if x == 0 then NInf else NaN
  | PInf => PInf
  | _ => NaN
  end.
Definition esqrt (a : ext) : ext :=
  match a with
  | Fin x => if 0 <= x then Fin (fsqrt x) else NaN
  | PInf => PInf
  | _ => NaN
  end.

(* x.mean(): the mean of an empty array is nan (0/0, with a warning) *)
Definition emean (s : seq ext) : ext := ediv (esum s) (Fin (size s)%:R).

(* binary operations between 1D arrays: equal lengths, or one of length 1 which is
   repeated; otherwise ValueError *)
Definition broadcast (f : ext -> ext -> ext) (u v : seq ext) : outcome (seq ext) :=
  if size u == size v then Ok [seq f p.1 p.2 | p <- zip u v]
  else if size u == 1%N then Ok [seq f (head NaN u) b | b <- v]
  else if size v == 1%N then Ok [seq f a (head NaN v) | a <- u]
  else Raise ValueError.

(* numericalOrder, lines 27-43 *)
Definition numericalOrder (nSteps err : seq F) : outcome (ext * ext) :=
  (* line 28 *)
  let x := [seq elog10 (ediv (Fin 1) (Fin n)) | n <- nSteps] in
  let y := [seq elog10 (Fin e) | e <- err] in
  (* lines 31-34 *)
  let xMean := emean x in
  let yMean := emean y in
  let sX := esum [seq emul (esub a xMean) (esub a xMean) | a <- x] in
  dop xy <- broadcast (@emul F) [seq esub a xMean | a <- x] [seq esub b yMean | b <- y];
  let sXY := esum xy in
  (* lines 36-37 *)
  let beta := ediv sXY sX in
  let alpha := esub yMean (emul beta xMean) in
  (* lines 39-41 *)
  let yHat := [seq eadd alpha (emul beta a) | a <- x] in
  dop d <- broadcast (fun b h => emul (esub b h) (esub b h)) y yHat;
  let rmse := esqrt (esum d) in
  let rmse := ediv rmse (esqrt (Fin (size x)%:R)) in
  Ok (beta, rmse).

(* np.vander(x, N=N, increasing=True): rows [1, x, ..., x^(N-1)] *)
Definition vander (x : seq F) (N : nat) : seq (seq F) := [seq mkseq (fun j => a ^+ j) N | a <- x].

(* np.linalg.solve(A, B) with A of shape (n, n) and B of shape (n, m): column by column;
   None stands for LinAlgError, raised for a singular A whatever B (also without column) *)
Definition solveM (n m : nat) (A B : seq (seq F)) : option (seq (seq F)) :=
  match solve A (nseq n 0) with
  | None => None
  | Some _ => Some (transp n (pmap (solve A) (transp m B)))
  end.

(* getExtrapolationMatrix, lines 109-113; np.vander with a negative N raises ValueError *)
Definition getExtrapolationMatrix (nodes times : seq F) (pOrder : option int) : outcome (seq (seq F)) :=
  let pOrder := if pOrder is Some p then p else (size nodes)%:Z - 1 in
  match pOrder + 1 with
  | Negz _ => Raise ValueError
  | Posz N =>
    let X := vander nodes N in
    let T := vander times N in
    let Xt := transp N X in
    match solveM N (size nodes) (mm N Xt X) Xt with
    | None => Raise LinAlgError
    | Some C => Ok (mm (size nodes) T C)
    end
  end.
End NumUtil.
