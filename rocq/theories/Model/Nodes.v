(* Model of qmat/nodes.py, class NodesGenerator.  Exact arithmetic over an ordered field. *)
From Verif.Base Require Import Str.
From mathcomp Require Import all_ssreflect all_algebra.
From Verif.Base Require Import Outcome Arr LinSolve.
Set Implicit Arguments.
Unset Strict Implicit.
Unset Printing Implicit Defensive.
Import GRing.Theory Num.Theory Order.TTheory.
Local Open Scope ring_scope.

(* lines 19-23 *)
Definition NODE_TYPES : seq string :=
  [:: "EQUID"; "LEGENDRE"; "CHEBY-1"; "CHEBY-2"; "CHEBY-3"; "CHEBY-4"]%string.
Definition QUAD_TYPES : seq string :=
  [:: "GAUSS"; "RADAU-LEFT"; "RADAU-RIGHT"; "LOBATTO"]%string.

(* NodesGenerator.__init__, lines 54-63 *)
Record nodesgen := NodesGen { nodeType : string; quadType : string }.
Definition nodesgen_init (nodeType quadType : string) : outcome nodesgen :=
  if nodeType \notin NODE_TYPES then Raise ValueError
  else if quadType \notin QUAD_TYPES then Raise ValueError
  else Ok (NodesGen nodeType quadType).

Section Nodes.
Variable F : realFieldType.
(* np.pi; scipy.linalg.eigh_tridiagonal(d, e)[0] (d diagonal, e off-diagonal); np.sqrt *)
Variables (fpi : F) (eigh : seq F -> seq F -> seq F) (fsqrt : F -> F).
Implicit Types (self : nodesgen) (alpha beta : seq F).

(* np.linspace(a, b, num=n), n >= 0 *)
Definition linspace (a b : F) (n : nat) : seq F :=
  if n == 1%N then [:: a] else mkseq (fun i => a + i%:R * ((b - a) / n.-1%:R)) n.

(* arr[-1] = v *)
Definition set_last (s : seq F) (v : F) : seq F := set_nth 0 s (size s).-1 v.
(* arr[:-1] *)
Definition but_last (s : seq F) : seq F := take (size s).-1 s.

(* getOrthogPolyCoefficients, lines 130-155; num_coeff >= 1 (beta[0] = ... would raise
   IndexError otherwise).  For EQUID alpha and beta are never bound: UnboundLocalError,
   unreachable from getNodes. *)
Definition getOrthogPolyCoefficients self (n : nat) : outcome (seq F * seq F) :=
  let nt := nodeType self in
  if nt == "LEGENDRE"%string then
    let alpha := mkseq (fun k => 0 * k%:R) n in
    let beta := mkseq (fun k => k%:R ^+ 2 / (4%:R * k%:R ^+ 2 - 1)) n in
    Ok (alpha, set_nth 0 beta 0 2%:R)
  else if nt == "CHEBY-1"%string then
    let beta := set_nth 0 (nseq n (1 / 4%:R)) 0 fpi in
    Ok (nseq n 0, if (1 < n)%N then set_nth 0 beta 1 (1 / 2%:R) else beta)
  else if nt == "CHEBY-2"%string then
    Ok (nseq n 0, set_nth 0 (nseq n (1 / 4%:R)) 0 (fpi / 2%:R))
  else if nt == "CHEBY-3"%string then
    Ok (set_nth 0 (nseq n 0) 0 (1 / 2%:R), set_nth 0 (nseq n (1 / 4%:R)) 0 fpi)
  else if nt == "CHEBY-4"%string then
    Ok (set_nth 0 (nseq n 0) 0 (- (1 / 2%:R)), set_nth 0 (nseq n (1 / 4%:R)) 0 fpi)
  else Raise AttributeError.

(* evalOrthogPoly, lines 179-188: the array pi has three entries *)
Fixpoint evalLoop (t : F) (ab : seq (F * F)) (pi : F * F * F) : F * F * F :=
  match ab with
  | [::] => pi
  | (alpha_j, beta_j) :: ab' =>
    let: (pi0, pi1, pi2) := pi in
    let pi2 := pi2 * (t - alpha_j) in
    let pi0 := pi0 * beta_j in
    let pi2 := pi2 - pi0 in
    let pi0 := pi1 in
    let pi1 := pi2 in
    evalLoop t ab' (pi0, pi1, pi2)
  end.
Definition evalOrthogPoly (t : F) alpha beta : F * F :=
  let: (pi0, pi1, _) := evalLoop t (zip alpha beta) (0, 1, 1) in (pi0, pi1).

(* quadType.startswith('RADAU'), endswith('LEFT') on the four quadrature types *)
Definition is_radau (q : string) : bool := q \in [:: "RADAU-LEFT"; "RADAU-RIGHT"]%string.

(* getTridiagCoefficients, lines 208-221 (b2 = 0 would give inf, a singular system
   LinAlgError: excluded by C17) *)
Definition getTridiagCoefficients self (n : nat) : outcome (seq F * seq F) :=
  dop ab <- getOrthogPolyCoefficients self n;
  let: (alpha, beta) := ab in
  if is_radau (quadType self) then
    let b : F := if quadType self == "RADAU-LEFT"%string then -1 else 1 in
    let: (b1, b2) := evalOrthogPoly b (but_last alpha) (but_last beta) in
    Ok (set_last alpha (b - last 0 beta * b1 / b2), beta)
  else if quadType self == "LOBATTO"%string then
    let: (a2, a1) := evalOrthogPoly (-1) (but_last alpha) (but_last beta) in
    let: (b2, b1) := evalOrthogPoly 1 (but_last alpha) (but_last beta) in
    match solve [:: [:: a1; a2]; [:: b1; b2]] [:: -1 * a1; 1 * b1] with
    | Some [:: x; y] => Ok (set_last alpha x, set_last beta y)
    | _ => Raise LinAlgError
    end
  else Ok (alpha, beta).

(* getNodes, lines 81-111 *)
Definition getNodes self (nNodes : int) : outcome (seq F) :=
  if (quadType self \in [:: "LOBATTO"; "RADAU-LEFT"]%string) && (nNodes < 2) then Raise ValueError
  else if nNodes < 1 then Raise ValueError
  else
  let n := `|nNodes|%N in
  if nodeType self == "EQUID"%string then
    if quadType self == "GAUSS"%string then
      Ok (but_last (behead (linspace (-1) 1 (n + 2))))
    else if quadType self == "LOBATTO"%string then Ok (linspace (-1) 1 n)
    else if quadType self == "RADAU-RIGHT"%string then Ok (behead (linspace (-1) 1 (n + 1)))
    else Ok (but_last (linspace (-1) 1 (n + 1)))
  else
  dop ab <- getTridiagCoefficients self n;
  let nodes := eigh ab.1 (map fsqrt (behead ab.2)) in
  let nodes := sort <=%O nodes in
  let nodes := if quadType self \in [:: "LOBATTO"; "RADAU-RIGHT"]%string
               then set_last nodes 1 else nodes in
  let nodes := if quadType self \in [:: "LOBATTO"; "RADAU-LEFT"]%string
               then set_nth 0 nodes 0 (-1) else nodes in
  Ok nodes.
End Nodes.
