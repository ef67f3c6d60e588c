(* Model of qmat/utils/sdc.py: solveDahlquistSDC, errorDahlquistSDC and getOrderSDC.  Exact
   arithmetic over a field (the complex numbers in the code).  Q has shape (nNodes, nNodes),
   tEnd is a Python number. *)
From Verif.Base Require Import Str.
From mathcomp Require Import all_ssreflect all_algebra.
From Verif.Base Require Import Outcome Arr LinSolve.
From Verif.Model Require Import QGen Registry.
Set Implicit Arguments.
Unset Strict Implicit.
Unset Printing Implicit Defensive.
Import GRing.Theory Num.Theory Order.TTheory.
Local Open Scope ring_scope.

Section SDC.
Variable K : fieldType.
Variable cexp : K -> K. (* np.exp on complex numbers *)

(* the argument QDelta: array with two, three or another number of dimensions.  An array
   without entries along the first dimension is taken to have the other dimensions asked for. *)
Inductive qdarg := QD2 of seq (seq K) | QD3 of seq (seq (seq K)) | QDn.

(* lines 45-50: one matrix for each sweep; np.repeat refuses a negative number *)
Definition qd_sweeps (nNodes : nat) (nSweeps : int) (QDelta : qdarg) :
    outcome (seq (seq (seq K))) :=
  match QDelta with
  | QD3 l => if ((size l)%:Z == nSweeps) && all (fun A => is_shape A nNodes nNodes) l
             then Ok l else Raise AssertionError
  | QD2 A => if is_shape A nNodes nNodes then
               if nSweeps is Posz k then Ok (nseq k A) else Raise ValueError
             else Raise AssertionError
  | QDn => Raise AssertionError
  end.

(* lines 73 and 84: u + lam*dt*Q @ uNodes - uNodes, with z = lam*dt *)
Definition sdc_resid (z u : K) (Q : seq (seq K)) (uNodes : seq K) : seq K :=
  vsub [seq u + x | x <- mv (mscale z Q) uNodes] uNodes.
(* lines 75 and 86 *)
Definition sdc_error (lam u0 t dt : K) (nodes uNodes : seq K) : seq K :=
  vsub uNodes [seq u0 * cexp (lam * (t + dt * tau)) | tau <- nodes].

(* arr[k, i] = v on an array with three dimensions *)
Definition set3 (arr : seq (seq (seq K))) (k i : nat) (v : seq K) : seq (seq (seq K)) :=
  set_nth [::] arr k (set_nth [::] (nth [::] arr k) i v).

Definition mons := dict (seq (seq (seq K))).

(* lines 59-64: None and an empty list are false, like an empty dictionary *)
Fixpoint sdc_monitors (zeros : seq (seq (seq K))) (tmp : mons) (keys : seq string) : outcome mons :=
  if keys is key :: keys then
    if key \in [:: "residuals"; "errors"]%string
    then sdc_monitors zeros (dset key zeros tmp) keys else Raise AssertionError
  else Ok tmp.

Section Run.
Variables (lam u0 dt : K) (times : seq K) (Q : seq (seq K)) (QDelta : seq (seq (seq K))).
Variable weights : option (seq K).
Let nNodes := size Q.
Let nodes := map (@vsum K) Q.

(* lines 71-75 and 82-86 *)
Definition sdc_monitor (k i : nat) (u : K) (uNodes : seq K) (m : mons) : mons :=
  let m := if dget "residuals" m is Some arr
           then dset "residuals" (set3 arr k i (sdc_resid (lam * dt) u Q uNodes)) m else m in
  if dget "errors" m is Some arr
  then dset "errors" (set3 arr k i (sdc_error lam u0 (nth 0 times i) dt nodes uNodes)) m else m.

(* lines 53, 78 and 79: one sweep *)
Definition sdc_sweep (u : K) (QD : seq (seq K)) (uNodes : seq K) : option (seq K) :=
  solve (msub (eye K nNodes) (mscale (lam * dt) QD))
        [seq u + x | x <- mv (mscale (lam * dt) (msub Q QD)) uNodes].

(* lines 77-86: sweeps k, k+1, ... *)
Fixpoint sdc_sweeps (k i : nat) (u : K) (qds : seq (seq (seq K))) (uNodes : seq K) (m : mons) :
    outcome (seq K * mons) :=
  if qds is QD :: qds then
    if sdc_sweep u QD uNodes is Some v
    then sdc_sweeps k.+1 i u qds v (sdc_monitor k.+1 i u v m) else Raise LinAlgError
  else Ok (uNodes, m).

(* lines 88-91 *)
Definition sdc_update (u : K) (uNodes : seq K) : outcome K :=
  if weights is Some w then
    if size w == size uNodes then Ok (u + lam * dt * dot w uNodes) else Raise ValueError
  else if uNodes is x :: s then Ok (last x s) else Raise IndexError.

(* lines 66-91: time-steps i, i+1, ..., todo of them; u is uNum[i].  The values uNum[i+1], ...
   and the monitors are returned *)
Fixpoint sdc_steps (todo i : nat) (u : K) (m : mons) : outcome (seq K * mons) :=
  if todo is todo.+1 then
    let uNodes := nseq nNodes (1 * u) in
    dop r <- sdc_sweeps 0 i u QDelta uNodes (sdc_monitor 0 i u uNodes m);
    dop u1 <- sdc_update u r.1;
    dop rest <- sdc_steps todo i.+1 u1 r.2;
    Ok (u1 :: rest.1, rest.2)
  else Ok ([::], m).
End Run.

(* solveDahlquistSDC, lines 9-96; the second component of the result is None when only uNum is
   returned *)
Definition solveDahlquistSDC (lam u0 tEnd : K) (nSteps nSweeps : int) (Q : seq (seq K))
    (QDelta : qdarg) (weights : option (seq K)) (monitors : seq string) :
    outcome (seq K * option mons) :=
  let nNodes := size Q in
  if nSteps == 0 then Raise ZeroDivisionError
  else if nSteps is Negz (S _) then Raise ValueError      (* np.linspace *)
  else
    let N := absz nSteps in
    let dt := tEnd / N%:R in
    let times := mkseq (fun i => i%:R * (tEnd / N%:R)) N.+1 in
    dop qds <- qd_sweeps nNodes nSweeps QDelta;
    if nSteps is Posz _ then
      let zeros := nseq (absz nSweeps).+1 (nseq N (nseq nNodes 0)) in
      dop m <- sdc_monitors zeros [::] monitors;
      dop r <- sdc_steps lam u0 dt times Q qds weights N 0 u0 m;
      Ok (u0 :: r.1, if m is [::] then None else Some r.2)
    else Raise IndexError.                                  (* np.zeros(0)[0] = u0 *)
End SDC.
Arguments QDn {K}.

(* errorDahlquistSDC, lines 99-139; uNum is a vector *)
Definition errorDahlquistSDC (K : numFieldType) (cexp : K -> K) (lam u0 tEnd : K) (nSteps : int)
    (nSweeps : int) (Q : seq (seq K)) (QDelta : qdarg K) (weights : option (seq K))
    (uNum : option (seq K)) : outcome K :=
  dop u <- (match uNum with
            | Some u => Ok u
            | None => omapo fst
                (solveDahlquistSDC cexp lam u0 tEnd nSteps nSweeps Q QDelta weights [::])
            end);
  error_inf cexp lam u0 tEnd nSteps u.

(* getOrderSDC *)
Open Scope string_scope.
(* if c: order += v *)
Definition bon (c : bool) (v : nat) : nat := if c then v else 0%N.

(* bonus of the step update by quadrature, lines 187-249 *)
Definition bonus_quad (nSweeps : int) (qDelta : string) (nNodes : nat) (nodeType quadType : string) : nat :=
  foldr addn 0%N [::
    (* 189 *) bon ((qDelta == "TRAP") && (nSweeps == 1) && (nNodes == 3%N) && (nodeType == "EQUID") && (quadType == "RADAU-LEFT")) 1;
    (* 191 *) bon ((qDelta == "TRAP") && (nSweeps == 2) && (nNodes == 4%N) && (nodeType == "CHEBY-2") && (quadType == "LOBATTO")) 1;
    (* 193 *) bon ((qDelta == "TRAP") && (nSweeps == 2) && (nNodes == 4%N) && (nodeType == "CHEBY-3") && (quadType == "RADAU-LEFT")) 1;
    (* 195 *) bon ((qDelta == "TRAP") && (nSweeps == 2) && (nNodes == 4%N) && (nodeType == "CHEBY-4") && (quadType \in [:: "RADAU-RIGHT"; "LOBATTO"])) 1;
    (* 198 *) bon ((qDelta == "TRAPAR") && (nSweeps == 2) && (nNodes == 3%N) && (nodeType == "CHEBY-3") && (quadType == "RADAU-LEFT")) 1;
    (* 200 *) bon ((qDelta == "TRAPAR") && (nSweeps == 2) && (nNodes == 3%N) && (nodeType == "CHEBY-4") && (quadType == "RADAU-RIGHT")) 1;
    (* 202 *) bon ((qDelta == "TRAPAR") && (nSweeps == 3) && (nNodes == 3%N) && (nodeType == "CHEBY-3") && (quadType == "RADAU-LEFT")) 1;
    (* 205 *) bon ((qDelta == "BE") && (nSweeps == 3) && (nNodes == 3%N) && (nodeType == "CHEBY-3") && (quadType == "RADAU-LEFT")) 1;
    (* 207 *) bon ((qDelta == "BE") && (nSweeps == 3) && (nNodes == 3%N) && (nodeType == "CHEBY-4") && (quadType == "RADAU-RIGHT")) 1;
    (* 210 *) bon ((qDelta == "FE") && (nSweeps == 3) && (nNodes == 3%N) && (nodeType == "CHEBY-1") && (quadType == "RADAU-RIGHT")) 1;
    (* 212 *) bon ((qDelta == "FE") && (nSweeps == 3) && (nNodes == 3%N) && (nodeType == "CHEBY-3") && (quadType \in [:: "RADAU-LEFT"; "LOBATTO"])) 1;
    (* 214 *) bon ((qDelta == "FE") && (nSweeps == 3) && (nNodes == 3%N) && (nodeType == "CHEBY-4") && (quadType == "RADAU-RIGHT")) 1;
    (* 217 *) bon ((qDelta == "BEPAR") && (nSweeps == 3) && (nNodes == 3%N) && (nodeType == "EQUID") && (quadType == "RADAU-LEFT")) 1;
    (* 219 *) bon ((qDelta == "BEPAR") && (nSweeps == 3) && (nNodes == 3%N) && (nodeType \in [:: "CHEBY-1"; "CHEBY-2"]) && (quadType \in [:: "RADAU-LEFT"; "RADAU-RIGHT"])) 1;
    (* 221 *) bon ((qDelta == "BEPAR") && (nSweeps == 3) && (nNodes == 3%N) && (nodeType \in [:: "CHEBY-3"; "CHEBY-4"])) 1;
    (* 224 *) bon ((qDelta == "TRAPAR") && (nSweeps == 3) && (nNodes == 4%N) && (nodeType == "EQUID")) 1;
    (* 226 *) bon ((qDelta == "TRAPAR") && (nSweeps == 3) && (nNodes == 4%N) && (nodeType \in [:: "CHEBY-1"; "CHEBY-2"; "CHEBY-3"; "CHEBY-4"])) 1;
    (* 230 *) bon ((qDelta == "SOE") && (nSweeps == 1) && (nNodes == 2%N) && (nodeType == "LEGENDRE") && (quadType == "RADAU-RIGHT")) 1;
    (* 232 *) bon ((qDelta == "SOE") && (nSweeps == 1) && (nNodes == 3%N) && (nodeType == "EQUID") && (quadType == "RADAU-LEFT")) 1;
    (* 234 *) bon ((qDelta == "SOE") && (nSweeps == 1) && (nNodes == 4%N) && (nodeType == "CHEBY-2") && (quadType == "LOBATTO")) 1;
    (* 237 *) bon ((qDelta == "SOE") && (nSweeps == 2) && (nNodes == 4%N) && (nodeType == "CHEBY-4") && (quadType == "RADAU-LEFT")) 1;
    (* 240 *) bon ((qDelta == "SOE") && (nSweeps == 3) && (nNodes == 3%N) && (nodeType == "CHEBY-1") && (quadType == "RADAU-RIGHT")) 1;
    (* 242 *) bon ((qDelta == "SOE") && (nSweeps == 3) && (nNodes == 3%N) && (nodeType == "CHEBY-3") && (quadType \in [:: "RADAU-LEFT"; "LOBATTO"])) 1;
    (* 244 *) bon ((qDelta == "SOE") && (nSweeps == 3) && (nNodes == 3%N) && (nodeType == "CHEBY-4") && (quadType \in [:: "GAUSS"; "RADAU-RIGHT"])) 1;
    (* 246 *) bon ((qDelta == "SOE") && (nSweeps == 3) && (nNodes == 4%N) && (nodeType == "CHEBY-2") && (quadType == "RADAU-LEFT")) 1;
    (* 248 *) bon ((qDelta == "SOE") && (nSweeps == 3) && (nNodes == 4%N) && (nodeType == "CHEBY-4") && (quadType == "GAUSS")) 1].
(* bonus of the update by the last node, lines 251-315 *)
Definition bonus_last (nSweeps : int) (qDelta : string) (nNodes : nat) (nodeType quadType : string) : nat :=
  foldr addn 0%N [::
    (* 253 *) bon ((qDelta == "BE") && (nSweeps == 4) && (nNodes == 3%N) && (nodeType == "CHEBY-4") && (quadType == "RADAU-RIGHT")) 1;
    (* 256 *) bon ((qDelta == "FE") && (nSweeps == 3) && (nNodes == 3%N) && (nodeType == "EQUID") && (quadType == "RADAU-RIGHT")) 1;
    (* 258 *) bon ((qDelta == "FE") && (nSweeps == 4) && (nNodes == 3%N) && (nodeType == "CHEBY-4") && (quadType == "RADAU-RIGHT")) 1;
    (* 261 *) bon ((qDelta == "TRAP") && (nSweeps == 2) && (nNodes == 3%N) && (nodeType \in [:: "EQUID"; "CHEBY-1"; "CHEBY-2"]) && (quadType == "LOBATTO")) 1;
    (* 263 *) bon ((qDelta == "TRAP") && (nSweeps == 2) && (nNodes == 3%N) && (nodeType == "LEGENDRE")) 1;
    (* 265 *) bon ((qDelta == "TRAP") && (nSweeps == 2) && (nNodes == 4%N) && (nodeType == "EQUID") && (quadType == "LOBATTO")) 2;
    (* 267 *) bon ((qDelta == "TRAP") && (nSweeps == 2) && (nNodes == 4%N) && (nodeType == "EQUID") && (quadType == "RADAU-RIGHT")) 1;
    (* 269 *) bon ((qDelta == "TRAP") && (nSweeps == 2) && (nNodes == 4%N) && (nodeType \in [:: "LEGENDRE"; "CHEBY-1"; "CHEBY-2"; "CHEBY-3"; "CHEBY-4"])) 1;
    (* 271 *) bon ((qDelta == "TRAP") && (nSweeps == 3) && (nNodes == 3%N) && (nodeType == "LEGENDRE") && (quadType == "RADAU-RIGHT")) 1;
    (* 273 *) bon ((qDelta == "TRAP") && (nSweeps == 4) && (nNodes == 4%N) && (nodeType == "LEGENDRE") && (quadType == "LOBATTO")) 1;
    (* 275 *) bon ((qDelta == "TRAP") && (nSweeps == 4) && (nNodes == 4%N) && (nodeType == "LEGENDRE") && (quadType == "RADAU-RIGHT")) 2;
    (* 278 *) bon ((qDelta == "BEPAR") && (nSweeps == 3) && (nNodes == 2%N) && (nodeType == "CHEBY-2") && (quadType == "RADAU-RIGHT")) 1;
    (* 280 *) bon ((qDelta == "BEPAR") && (nSweeps == 4) && (nNodes == 3%N) && (nodeType \in [:: "EQUID"; "CHEBY-1"; "CHEBY-2"; "CHEBY-3"; "CHEBY-4"]) && (quadType == "RADAU-RIGHT")) 1;
    (* 282 *) bon ((qDelta == "BEPAR") && (nSweeps == 4) && (nNodes == 3%N) && (nodeType \in [:: "CHEBY-3"; "CHEBY-4"]) && (quadType == "LOBATTO")) 1;
    (* 285 *) bon ((qDelta == "TRAPAR") && (nSweeps == 3) && (nNodes == 3%N) && (nodeType == "CHEBY-4") && (quadType == "RADAU-RIGHT")) 1;
    (* 287 *) bon ((qDelta == "TRAPAR") && (nSweeps == 4) && (nNodes == 4%N) && (nodeType \in [:: "EQUID"; "CHEBY-1"; "CHEBY-2"; "CHEBY-3"; "CHEBY-4"])) 1;
    (* 291 *) bon ((qDelta == "SOE") && (nSweeps == 1) && (nNodes == 2%N) && (nodeType \in [:: "EQUID"; "CHEBY-3"]) && (quadType == "RADAU-RIGHT")) 1;
    (* 293 *) bon ((qDelta == "SOE") && (nSweeps == 1) && (nNodes == 3%N) && (nodeType \in [:: "EQUID"; "LEGENDRE"; "CHEBY-1"; "CHEBY-2"]) && (quadType == "LOBATTO")) 1;
    (* 295 *) bon ((qDelta == "SOE") && (nSweeps == 1) && (nNodes == 4%N) && (nodeType \in [:: "EQUID"; "CHEBY-3"]) && (quadType == "RADAU-RIGHT")) 1;
    (* 298 *) bon ((qDelta == "SOE") && (nSweeps == 2) && (nNodes == 3%N) && (nodeType == "LEGENDRE") && (quadType == "RADAU-RIGHT")) 1;
    (* 300 *) bon ((qDelta == "SOE") && (nSweeps == 2) && (nNodes == 4%N) && (nodeType == "CHEBY-4") && (quadType == "RADAU-RIGHT")) 1;
    (* 303 *) bon ((qDelta == "SOE") && (nSweeps == 3) && (nNodes == 3%N) && (nodeType == "LEGENDRE") && (quadType == "RADAU-RIGHT")) 1;
    (* 305 *) bon ((qDelta == "SOE") && (nSweeps == 3) && (nNodes == 4%N) && (nodeType == "CHEBY-2") && (quadType == "RADAU-RIGHT")) 1;
    (* 308 *) bon ((qDelta == "SOE") && (nSweeps == 4) && (nNodes == 3%N) && (nodeType \in [:: "LEGENDRE"; "CHEBY-3"]) && (quadType == "RADAU-RIGHT")) 1;
    (* 310 *) bon ((qDelta == "SOE") && (nSweeps == 4) && (nNodes == 3%N) && (nodeType == "CHEBY-4")) 1;
    (* 312 *) bon ((qDelta == "SOE") && (nSweeps == 4) && (nNodes == 4%N) && (nodeType \in [:: "EQUID"; "CHEBY-2"]) && (quadType == "RADAU-RIGHT")) 1;
    (* 314 *) bon ((qDelta == "SOE") && (nSweeps == 4) && (nNodes == 4%N) && (nodeType == "LEGENDRE") && (quadType == "LOBATTO")) 1].

(* lines 169-183; maxOrder is coll.order *)
Definition baseOrder (maxOrder nSweeps : int) (qDelta stepUpdate : string) : int :=
  let order := if (0 < nSweeps)%R
    then (if qDelta \in [:: "TRAPAR"; "TRAP"] then 2 else 1)%R + (nSweeps - 1) else 0 in
  let order := order + (if stepUpdate == "QUADRATURE" then 1 else 0) in
  Num.min maxOrder order.

(* getOrderSDC, lines 142-317; nNodes, nodeType, quadType and maxOrder are those of coll *)
Definition getOrderSDC (nNodes : nat) (nodeType quadType : string) (maxOrder nSweeps : int)
    (qDelta stepUpdate : string) : int :=
  baseOrder maxOrder nSweeps qDelta stepUpdate
  + (if stepUpdate == "QUADRATURE"
     then (bonus_quad nSweeps qDelta nNodes nodeType quadType)%:Z
     else if stepUpdate == "LASTNODE"
     then (bonus_last nSweeps qDelta nNodes nodeType quadType)%:Z else 0).
