(* Model of solveDahlquistSDC (qmat/utils/sdc.py, lines 9-96) without monitors in rounded
   arithmetic.  The operations on complex numbers, the inner products of @ and weights.dot and
   np.linalg.solve are parameters, as computed by numpy. *)
From Verif.Base Require Import Str.
From mathcomp Require Import all_ssreflect all_algebra.
From Verif.Base Require Import Outcome Arr.
From Verif.Model Require Import Sdc RoundedSolve.
Set Implicit Arguments.
Unset Strict Implicit.
Unset Printing Implicit Defensive.
Import GRing.Theory Num.Theory Order.TTheory.
Local Open Scope ring_scope.

Section RoundedSdc.
Variable K : numFieldType.
Variables cadd csub cmul cdiv : K -> K -> K.
Variable cdot : seq K -> seq K -> K.
Variable csolve : seq (seq K) -> seq K -> option (seq K).

(* line 78: b = uNum[i] + lam*dt*(Q-QDelta[k]) @ uNodes, evaluated as ((lam*dt)*(Q-QDelta[k])) @ uNodes *)
Definition r_rhs (n : nat) (z v : K) (Q QD : seq (seq K)) (x : seq K) : seq K :=
  mkseq (fun i => cadd v (cdot (mkseq (fun j => cmul z (csub (ent Q i j) (ent QD i j))) n) x)) n.

(* lines 53 and 77-79: P[k] is the matrix r_stage for QDelta[k] *)
Fixpoint r_sweeps (n : nat) (z v : K) (Q : seq (seq K)) (qds : seq (seq (seq K))) (x : seq K) :
    outcome (seq K) :=
  if qds is QD :: qds then
    if csolve (r_stage csub cmul n z QD) (r_rhs n z v Q QD x) is Some y
    then r_sweeps n z v Q qds y else Raise LinAlgError
  else Ok x.

(* lines 88-91 *)
Definition r_update (weights : option (seq K)) (z v : K) (x : seq K) : outcome K :=
  match weights with
  | None => if x is [::] then Raise IndexError else Ok (last 0 x)
  | Some w => if size w != size x then Raise ValueError else Ok (cadd v (cmul z (cdot w x)))
  end.

(* lines 66-91; np.ones(nNodes)*uNum[i] is exact *)
Fixpoint r_sdc_steps (n : nat) (z : K) (Q : seq (seq K)) (qds : seq (seq (seq K)))
    (weights : option (seq K)) (todo : nat) (v : K) : outcome (seq K) :=
  if todo is todo.+1 then
    dop x <- r_sweeps n z v Q qds (nseq n v);
    dop v1 <- r_update weights z v x;
    omapo (cons v1) (r_sdc_steps n z Q qds weights todo v1)
  else Ok [::].

(* lines 9-96 with monitors=None; nSteps is converted without error *)
Definition r_solveDahlquistSDC (lam u0 tEnd : K) (nSteps nSweeps : int) (Q : seq (seq K))
    (QDelta : qdarg K) (weights : option (seq K)) : outcome (seq K) :=
  if nSteps == 0 then Raise ZeroDivisionError
  else if nSteps is Negz (S _) then Raise ValueError      (* np.linspace *)
  else
    dop qds <- qd_sweeps (size Q) nSweeps QDelta;
    if nSteps is Posz N then
      let z := cmul lam (cdiv tEnd N%:R) in
      omapo (cons u0) (r_sdc_steps (size Q) z Q qds weights N u0)
    else Raise IndexError.                                  (* np.zeros(0)[0] = u0 *)
End RoundedSdc.
