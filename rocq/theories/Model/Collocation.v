(* Model of qmat/qcoeff/collocation.py.  Exact arithmetic over an ordered field. *)
From Verif.Base Require Import Str.
From mathcomp Require Import all_ssreflect all_algebra.
From Verif.Base Require Import Outcome Arr Ext.
From Verif.Model Require Import Lagrange QGen Nodes.
Set Implicit Arguments.
Unset Strict Implicit.
Unset Printing Implicit Defensive.
Import GRing.Theory Num.Theory Order.TTheory.
Local Open Scope ring_scope.

Section Coll.
Variable F : realFieldType.
(* oracles of NodesGenerator and of LagrangeApproximation *)
Variables (fpi : F) (eigh : seq F -> seq F -> seq F) (fsqrt : F -> F).
Variables (flog fexp : F -> F) (underflow : seq F -> bool).
Variables (leggauss roots_legendre fejer : nat -> outcome (seq F * seq F)).

(* np.allclose(a, b) on scalars: |a - b| <= atol + rtol |b|, atol = 1e-8, rtol = 1e-5 *)
Definition allclose (a b : F) : bool := `|a - b| <= 10%:R ^- 8 + 10%:R ^- 5 * `|b|.

(* instance attributes *)
Record coll := Coll {
  co_nodeType : string; co_quadType : string; co_tLeft : F; co_tRight : F;
  co_nodes : seq F; co_approx : lagr F; co_Q : seq (seq (ext F)); co_weights : seq (ext F) }.

(* lines 51-61: scaling of the nodes and snapping of the end nodes *)
Definition scale_nodes (tLeft tRight : F) (s : seq F) : seq F :=
  [seq (x + 1) / 2%:R * (tRight - tLeft) + tLeft | x <- s].
Definition snap_nodes (tLeft tRight : F) (s : seq F) : seq F :=
  let s := if allclose tLeft (nth 0 s 0) then set_nth 0 s 0 tLeft else s in
  if allclose tRight (last 0 s) then set_last s tRight else s.

(* lines 63-70: LagrangeApproximation with its default arguments, then Q and weights with
   the default quadrature; approx.getIntegrationMatrix(...).ravel() of a single row *)
Definition coll_of_nodes (nodeType quadType : string) (tLeft tRight : F) (nodes : seq F) :
    outcome coll :=
  dop approx <- lagrange_init flog fexp underflow nodes "AUTO" false "MAX" "USE_LEFT" None;
  dop Q <- getIntegrationMatrix leggauss roots_legendre fejer approx
             [seq (tLeft, tau) | tau <- nodes] "FEJER" true;
  dop w <- getIntegrationMatrix leggauss roots_legendre fejer approx
             [:: (tLeft, tRight)] "FEJER" true;
  Ok (Coll nodeType quadType tLeft tRight nodes approx Q (flatten w)).

(* __init__, lines 47-74 (CONV_TEST_NSTEPS, used by the tests only, is left out) *)
Definition coll_init (nNodes : int) (nodeType quadType : string) (tLeft tRight : F) : outcome coll :=
  dop gen <- nodesgen_init nodeType quadType;
  dop nodes <- getNodes fpi eigh fsqrt gen nNodes;
  coll_of_nodes nodeType quadType tLeft tRight
    (snap_nodes tLeft tRight (scale_nodes tLeft tRight nodes)).

(* S, lines 85-90 *)
Definition coll_S (c : coll) : outcome (seq (seq (ext F))) :=
  let nodes := co_nodes c in
  let pInts := mkseq (fun i => (if i == 0%N then co_tLeft c else nth 0 nodes i.-1, nth 0 nodes i))
                     (size nodes) in
  getIntegrationMatrix leggauss roots_legendre fejer (co_approx c) pInts "FEJER" true.

(* hCoeffs, lines 92-94 *)
Definition coll_hCoeffs (c : coll) : seq (ext F) :=
  flatten (getInterpolationMatrix (co_approx c) [:: 1] true).

(* order, lines 96-111; startswith("RADAU") as in Nodes *)
Definition coll_order (c : coll) : option nat :=
  let M := size (co_nodes c) in
  let nodeType := co_nodeType c in
  let quadType := co_quadType c in
  if nodeType != "LEGENDRE"%string then
    if (quadType \in [:: "GAUSS"; "LOBATTO"]%string)
       && (nodeType \in [:: "EQUID"; "CHEBY-1"; "CHEBY-2"]%string)
    then Some (M + M %% 2)%N else Some M
  else if quadType == "GAUSS"%string then Some (2 * M)%N
  else if is_radau quadType then Some (2 * M - 1)%N
  else if quadType == "LOBATTO"%string then Some (2 * M - 2)%N
  else None.

(* a Collocation object seen as a generator; weightsEmbedded is that of the base class,
   qcoeff/__init__.py lines 53-56 *)
Definition coll_gen (c : coll) : qgen (ext F) := {|
  g_nodes := map (@Fin F) (co_nodes c);
  g_weights := co_weights c;
  g_Q := co_Q c;
  g_S := coll_S c;
  g_embedded := Raise NotImplementedError;
  g_hCoeffs := Ok (coll_hCoeffs c) |}.
End Coll.
