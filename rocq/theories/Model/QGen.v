(* Model of qmat/qcoeff/__init__.py (class QGenerator) and of the base class RK of
   qmat/qcoeff/butcher.py.  Exact arithmetic. *)
From Verif.Base Require Import Str.
From mathcomp Require Import all_ssreflect all_algebra.
From Verif.Base Require Import Outcome Arr Ext LinSolve.
From Verif.Model Require Import Lagrange.
Set Implicit Arguments.
Unset Strict Implicit.
Unset Printing Implicit Defensive.
Import GRing.Theory Num.Theory Order.TTheory.
Local Open Scope ring_scope.

Section Transfer.
Variable R : ringType.
(* QGenerator.T, lines 63-69: identity with -1 on the first sub-diagonal *)
Definition tmat (M : nat) : seq (seq R) :=
  mkmat M M (fun i j => if i == j then 1 else if i == j.+1 then -1 else 0).
(* QGenerator.S, lines 71-78 *)
Definition smat (Q : seq (seq R)) : seq (seq R) := mm (size Q) (tmat (size Q)) Q.
(* QGenerator.Tinv, lines 80-84: np.tri(M) *)
Definition trimat (M : nat) : seq (seq R) :=
  mkmat M M (fun i j => if (j <= i)%N then 1 else 0).
End Transfer.

(* The properties of a generator object, as they are read by genCoeffs: attributes that
   are computed on demand and can raise are outcomes. *)
Section Gen.
Variable V : Type.
Record qgen := QGen {
  g_nodes : seq V;
  g_weights : seq V;
  g_Q : seq (seq V);
  g_S : outcome (seq (seq V));
  g_embedded : outcome (seq V);
  g_hCoeffs : outcome (seq V) }.

(* weights entry of the result: a vector, or the 2xM stack of np.vstack *)
Inductive warr := W1 of seq V | W2 of seq V & seq V.
Record coeffs := Coeffs {
  c_nodes : seq V; c_weights : warr; c_mat : seq (seq V); c_h : option (seq V) }.

(* np.vstack([a, b]) on vectors: ValueError if the lengths differ *)
Definition vstack2 (a b : seq V) : outcome warr :=
  if size a == size b then Ok (W2 a b) else Raise ValueError.

(* QGenerator.genCoeffs, lines 92-125 *)
Definition genCoeffs (g : qgen) (form : string) (hCoeffs embedded : bool) : outcome coeffs :=
  dop mat <- (if form == "Z2N"%string then Ok (g_Q g)
              else if form == "N2N"%string then g_S g
              else Raise ValueError);
  dop w <- (if embedded then (dop w2 <- g_embedded g; vstack2 (g_weights g) w2)
            else Ok (W1 (g_weights g)));
  dop h <- (if hCoeffs then omapo Some (g_hCoeffs g) else Ok None);
  Ok {| c_nodes := g_nodes g; c_weights := w; c_mat := mat; c_h := h |}.
End Gen.
Arguments W1 {V} _.
Arguments W2 {V} _ _.

Section Dahlquist.
Variable K : fieldType.

(* body of the loop of solveDahlquist, lines 173-176; A = I - lam dt Q *)
Fixpoint dahl_loop (n : nat) (A : seq (seq K)) (w : seq K) (z u : K) (steps : nat) :
    outcome (seq K) :=
  match steps with
  | 0 => Ok [::]
  | k.+1 =>
    match solve A (nseq n u) with
    | None => Raise LinAlgError
    | Some st =>
      if size w != size st then Raise ValueError
      else let u' := u + z * dot w st in
           omapo (cons u') (dahl_loop n A w z u' k)
    end
  end.

(* QGenerator.solveDahlquist, lines 137-178.  tEnd is a Python number (division by
   nSteps = 0 raises); Q is square of the size of nodes. *)
Definition solveDahlquist (nodes weights : seq K) (weightsEmbedded : outcome (seq K))
    (Q : seq (seq K)) (lam u0 tEnd : K) (nSteps : int) (useEmbedded : bool) :
    outcome (seq K) :=
  dop w <- (if useEmbedded then weightsEmbedded else Ok weights);
  match nSteps with
  | Negz 0 => Raise IndexError          (* np.zeros(0)[0] = u0 *)
  | Negz _ => Raise ValueError          (* negative dimension *)
  | Posz 0 => Raise ZeroDivisionError
  | Posz N =>
    let dt := tEnd / N%:R in
    let A := msub (eye K (size nodes)) (mscale (lam * dt) Q) in
    omapo (cons u0) (dahl_loop (size nodes) A w (lam * dt) u0 N)
  end.
End Dahlquist.

Section ErrorDahlquist.
Variable K : numFieldType.
Variable cexp : K -> K. (* np.exp on complex numbers *)
(* np.linalg.norm(v, ord=inf) of a vector; the maximum of an empty array raises *)
Definition norm_inf (v : seq K) : outcome K :=
  if v is [::] then Raise ValueError else Ok (foldr Num.max 0 [seq `|a| | a <- v]).
(* u - v of two vectors, with broadcasting of vectors of length one *)
Definition vsub_bc (u v : seq K) : outcome (seq K) :=
  if size u == size v then Ok (vsub u v)
  else if size u == 1%N then Ok [seq head 0 u - y | y <- v]
  else if size v == 1%N then Ok [seq x - head 0 v | x <- u]
  else Raise ValueError.
(* np.linspace(0, tEnd, nSteps+1); a negative number of samples raises *)
Definition linspace0 (tEnd : K) (nSteps : int) : outcome (seq K) :=
  match nSteps with
  | Posz N => Ok (mkseq (fun i => i%:R * (tEnd / N%:R)) N.+1)
  | Negz 0 => Ok [::]
  | Negz _ => Raise ValueError
  end.
(* the last three lines of errorDahlquist (207-209) and of errorDahlquistSDC (sdc.py, 137-139) *)
Definition error_inf (lam u0 tEnd : K) (nSteps : int) (u : seq K) : outcome K :=
  dop times <- linspace0 tEnd nSteps;
  dop d <- vsub_bc u [seq u0 * cexp (lam * t) | t <- times];
  norm_inf d.
(* QGenerator.errorDahlquist, lines 180-209; uNum is a vector *)
Definition errorDahlquist (nodes weights : seq K) (weightsEmbedded : outcome (seq K))
    (Q : seq (seq K)) (lam u0 tEnd : K) (nSteps : int) (uNum : option (seq K)) (useEmbedded : bool) :
    outcome K :=
  dop u <- (match uNum with
            | Some u => Ok u
            | None => solveDahlquist nodes weights weightsEmbedded Q lam u0 tEnd nSteps useEmbedded
            end);
  error_inf lam u0 tEnd nSteps u.
End ErrorDahlquist.

(* class RK, qmat/qcoeff/butcher.py *)
Section RK.
Variable R : ringType.

(* class attributes A, b, c, b2 (lines 38-45) and the properties order / orderEmbedded *)
Record table := Table {
  tA : seq (seq R); tb : seq R; tc : seq R; tb2 : option (seq R);
  torder : nat; torderE : nat }.

(* instance attributes after RK.__init__ (b2 is never replaced) *)
Record rk := Rk { rA : seq (seq R); rb : seq R; rc : seq R; rb2 : option (seq R) }.
Definition rk_of (t : table) : rk := Rk (tA t) (tb t) (tc t) (tb2 t).

(* lines 51-57 *)
Definition pad_left (r : rk) : rk :=
  let c := 0 :: rc r in
  let b := 0 :: rb r in
  let n := size c in
  Rk (mkmat n n (fun i j => if (0 < i)%N && (0 < j)%N then ent (rA r) i.-1 j.-1 else 0))
     b c (rb2 r).

(* lines 59-66 *)
Definition pad_right (r : rk) : rk :=
  let c := rcons (rc r) 1 in
  let b := rcons (rb r) 0 in
  let n := size c in
  Rk (mkmat n n (fun i j => if i == n.-1 then nth 0 b j
                            else if j == n.-1 then 0 else ent (rA r) i j))
     b c (rb2 r).

(* RK.__init__, lines 47-68; None and the empty string mean no padding *)
Definition rk_init (t : table) (padding : option string) : outcome rk :=
  let r := rk_of t in
  match padding with
  | None => Ok r
  | Some p =>
    if p == ""%string then Ok r
    else if ~~ (p \in [:: "LEFT"; "RIGHT"; "BOTH"]%string) then Raise AssertionError
    else
      let r := if p \in [:: "LEFT"; "BOTH"]%string then pad_left r else r in
      let r := if p \in [:: "RIGHT"; "BOTH"]%string then pad_right r else r in
      Ok r
  end.

(* weightsEmbedded, lines 76-81 *)
Definition rk_embedded (r : rk) : outcome (seq R) :=
  match rb2 r with None => Raise NotImplementedError | Some b2 => Ok b2 end.

(* checkAndStore, lines 99-118: the shape assertions made when a table is registered *)
Definition table_check (t : table) : bool :=
  (size (tb t) == size (tc t)) && is_shape (tA t) (size (tc t)) (size (tc t)).
End RK.

Section RKGen.
Variable F : realFieldType.
Variables (flog fexp : F -> F) (underflow : seq F -> bool).

(* QGenerator.hCoeffs, lines 86-90 *)
Definition base_hCoeffs (nodes : seq F) : outcome (seq (ext F)) :=
  dop approx <- lagrange_init flog fexp underflow nodes "AUTO" false "MAX" "USE_LEFT" None;
  Ok (head [::] (getInterpolationMatrix approx [:: 1] true)).

(* RK.hCoeffs, butcher.py lines 86-93 *)
Definition rk_hCoeffs (r : rk F) : outcome (seq (ext F)) :=
  match base_hCoeffs (rc r) with
  | Raise AssertionError => Ok (mkseq (fun i => Fin (i.+1 == size (rc r))%:R) (size (rc r)))
  | o => o
  end.

(* an RK object seen as a generator *)
Definition rk_gen (r : rk F) : qgen (ext F) := {|
  g_nodes := [seq Fin x | x <- rc r];
  g_weights := [seq Fin x | x <- rb r];
  g_Q := [seq [seq Fin x | x <- row] | row <- rA r];
  g_S := Ok [seq [seq Fin x | x <- row] | row <- smat (rA r)];
  g_embedded := omapo (map (@Fin F)) (rk_embedded r);
  g_hCoeffs := rk_hCoeffs r |}.

(* QGenerator.rightIsNode, lines 58-61 *)
Definition rightIsNode (nodes : seq F) : bool := last 0 nodes == 1.
End RKGen.

Section RKDahlquist.
Variable K : fieldType.
(* solveDahlquist on an RK object *)
Definition rk_dahlquist (r : rk K) (lam u0 tEnd : K) (nSteps : int) (useEmbedded : bool) :=
  solveDahlquist (rc r) (rb r) (rk_embedded r) (rA r) lam u0 tEnd nSteps useEmbedded.
End RKDahlquist.
