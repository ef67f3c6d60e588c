(* Model of QGenerator.solveDahlquist (qmat/qcoeff/__init__.py, lines 137-178) in rounded
   arithmetic.  The operations on complex numbers, the product weights.dot(uStages) and
   np.linalg.solve are parameters, as computed by numpy. *)
From Verif.Base Require Import Str.
From mathcomp Require Import all_ssreflect all_algebra.
From Verif.Base Require Import Outcome Arr.
Set Implicit Arguments.
Unset Strict Implicit.
Unset Printing Implicit Defensive.
Import GRing.Theory Num.Theory Order.TTheory.
Local Open Scope ring_scope.

Section RoundedSolve.
Variable K : numFieldType.
Variables cadd csub cmul cdiv : K -> K -> K.
Variable cdot : seq K -> seq K -> K.
Variable csolve : seq (seq K) -> seq K -> option (seq K).

(* line 172: A = np.eye(nodes.size) - lam*dt*Q *)
Definition r_stage (n : nat) (z : K) (Q : seq (seq K)) : seq (seq K) :=
  mkmat n n (fun i j => csub (i == j)%:R (cmul z (ent Q i j))).

(* lines 173-176; np.ones(n)*uNum[i] is exact, and lam*dt is computed again with the same result *)
Fixpoint r_dahl_loop (n : nat) (A : seq (seq K)) (w : seq K) (z u : K) (steps : nat) :
    outcome (seq K) :=
  match steps with
  | 0 => Ok [::]
  | k.+1 =>
    match csolve A (nseq n u) with
    | None => Raise LinAlgError
    | Some st =>
      if size w != size st then Raise ValueError
      else let u' := cadd u (cmul z (cdot w st)) in
           omapo (cons u') (r_dahl_loop n A w z u' k)
    end
  end.

(* lines 160-178; nSteps is converted without error, Q is square of the size of nodes *)
Definition r_solveDahlquist (nodes weights : seq K) (weightsEmbedded : outcome (seq K))
    (Q : seq (seq K)) (lam u0 tEnd : K) (nSteps : int) (useEmbedded : bool) :
    outcome (seq K) :=
  dop w <- (if useEmbedded then weightsEmbedded else Ok weights);
  match nSteps with
  | Negz 0 => Raise IndexError
  | Negz _ => Raise ValueError
  | Posz 0 => Raise ZeroDivisionError
  | Posz N =>
    let z := cmul lam (cdiv tEnd N%:R) in
    omapo (cons u0) (r_dahl_loop (size nodes) (r_stage (size nodes) z Q) w z u0 N)
  end.
End RoundedSolve.
