(* Model of the matrices computed by qmat/qdelta/timestepping.py, algebraic.py and diag.py, and
   of qmat/utils/num.py lduFactorization.  Exact arithmetic over an ordered field; quotients
   whose denominator may vanish are computed in the extended field. *)
From Verif.Base Require Import Str.
From mathcomp Require Import all_ssreflect all_algebra.
From Verif.Base Require Import Outcome Arr Ext.
From Verif.Model Require Import Lagrange QGen Nodes Collocation.
Set Implicit Arguments.
Unset Strict Implicit.
Unset Printing Implicit Defensive.
Import GRing.Theory Num.Theory Order.TTheory.
Local Open Scope ring_scope.

(* array of shape (m, n), over any type *)
Definition tab (T : Type) (m n : nat) (f : nat -> nat -> T) : seq (seq T) :=
  mkseq (fun i => mkseq (f i) n) m.

Section TimeStepping.
Variable F : realFieldType.
(* conversion of a float assigned to an entry of an integer array *)
Variable trunc : F -> F.

(* instance attributes of TimeStepping *)
Record ts := Ts { ts_nodes : seq F; ts_deltas : seq F; ts_tLeft : F }.

(* np.ediff1d *)
Definition ediff1d (s : seq F) : seq F := mkseq (fun i => nth 0 s i.+1 - nth 0 s i) (size s).-1.

(* __init__, timestepping.py lines 39-52.  deltas is a copy of nodes, hence an integer array
   if the nodes are integers; deltas[0] = ... of an empty array raises *)
Definition ts_init (intNodes : bool) (nodes : seq F) (tLeft : F) : outcome ts :=
  if nodes is x :: _ then
    let d0 := x - tLeft in
    Ok (Ts nodes ((if intNodes then trunc d0 else d0) :: ediff1d nodes) tLeft)
  else Raise IndexError.

Variable self : ts.
Let M := size (ts_nodes self).
Let deltas := ts_deltas self.

(* zeros, qdelta/__init__.py lines 101-105 *)
Definition zeros (n : nat) : seq (seq F) := mkmat n n (fun _ _ => 0).
(* QDelta[i:, :M-i] += np.diag(d): the block of rows i.. and columns 0..M-i-1 *)
Definition add_diag (n i : nat) (d : seq F) (Q : seq (seq F)) : seq (seq F) :=
  mkmat n n (fun r c => ent Q r c +
    (if (i <= r)%N && (c < n - i)%N then (if (r - i)%N == c then nth 0 d c else 0) else 0)).
(* d[a:b] *)
Definition slice (a b : nat) (d : seq F) : seq F := drop a (take b d).

(* BE, lines 73-77 *)
Definition qd_BE : seq (seq F) :=
  foldl (fun Q i => add_diag M i (slice 0 (M - i) deltas) Q) (zeros M) (iota 0 M).
(* FE, lines 85-89 *)
Definition qd_FE : seq (seq F) :=
  foldl (fun Q i => add_diag M i (slice 1 (M - i + 1) deltas) Q) (zeros M) (iota 1 (M - 1)).
(* TRAP, lines 101-108 *)
Definition qd_TRAP : seq (seq F) :=
  let Q := foldl (fun Q i => add_diag M i (slice 0 (M - i) deltas) Q) (zeros M) (iota 0 M) in
  let Q := foldl (fun Q i => add_diag M i (slice 1 (M - i + 1) deltas) Q) Q (iota 1 (M - 1)) in
  [seq [seq x / 2%:R | x <- r] | r <- Q].
(* BEPAR, lines 120-121 *)
Definition qd_BEPAR : seq (seq F) :=
  [seq [seq x - ts_tLeft self | x <- r] | r <- diagm (ts_nodes self)].
(* TRAPAR, lines 128-129 *)
Definition qd_TRAPAR : seq (seq F) :=
  [seq [seq x - ts_tLeft self | x <- r] | r <- diagm [seq x / 2%:R | x <- ts_nodes self]].

(* dTau: qdelta/__init__.py lines 171-174 (default), timestepping.py lines 91-93 (FE),
   110-112 (TRAP), 131-133 (TRAPAR), 159-161 (SOE) *)
Definition dTau_zero (n : nat) : seq F := nseq n 0.
Definition dTau_FE : seq F := [seq x * 0 + nth 0 deltas 0 | x <- ts_nodes self].
Definition dTau_TRAP : seq F := [seq x * 0 + nth 0 deltas 0 / 2%:R | x <- ts_nodes self].
Definition dTau_TRAPAR : seq F := [seq x / 2%:R - ts_tLeft self | x <- ts_nodes self].
Definition dTau_SOE : seq F := dTau_FE.

(* SOE, lines 142-156.  alpha[i] is the second row of the derivative matrix of three
   consecutive times; unpacking a row that does not have three entries raises ValueError *)
Variables (flog fexp : F -> F) (underflow : seq F -> bool).
Definition soe_alpha (times : seq F) (i : nat) : outcome (ext F * ext F * ext F) :=
  dop approx <- lagrange_init flog fexp underflow (take 3 (drop i times)) "AUTO" false "MAX" "USE_LEFT" None;
  dop D <- getDerivativeMatrix approx (OInt 1) true;
  if D is DOne D then
    match nth [::] D 1 with
    | [:: am1; a0; ap1] => Ok (am1, a0, ap1)
    | _ => Raise ValueError
    end
  else Raise ValueError.
(* QDelta[i, j], where QDelta has zeros outside the rows computed so far *)
Definition eget (Q : seq (seq (ext F))) (i j : nat) : ext F := nth (Fin 0) (nth [::] Q i) j.
(* the rows 0..m-1 *)
Fixpoint soe_rows (n : nat) (alpha : seq (ext F * ext F * ext F)) (m : nat) : seq (seq (ext F)) :=
  match m with
  | 0 => [::]
  | m'.+1 =>
    let Q := soe_rows n alpha m' in
    let row :=
      if m' == 0%N then nseq n (Fin 0) else
      let: (am1, a0, ap1) := nth (NaN, NaN, NaN) alpha m'.-1 in
      mkseq (fun j =>
        if j == m'.-1 then ediv (Fin 1) ap1
        else if (j < m'.-1)%N then
          let q := emul (ediv (eopp a0) ap1) (eget Q m'.-1 j) in
          if (1 < m')%N then esub q (emul (ediv am1 ap1) (eget Q (m' - 2) j)) else q
        else Fin 0) n in
    rcons Q row
  end.
Definition qd_SOE : outcome (seq (seq (ext F))) :=
  let times := 0 :: ts_nodes self in
  dop alpha <- omap_seq (soe_alpha times) (iota 0 (M - 1));
  Ok (soe_rows M alpha M).
End TimeStepping.

Section Algebraic.
Variable F : realFieldType.

(* algebraic.py: PIC, lines 31-32; Exact, 40-41; QPar, 66-67; GS, 75-76 *)
Definition qd_PIC (Q : seq (seq F)) : seq (seq F) := zeros F (size Q).
Definition qd_Exact (Q : seq (seq F)) : seq (seq F) := Q.
Definition qd_QPar (Q : seq (seq F)) : seq (seq F) := diagm (mkseq (fun i => ent Q i i) (size Q)).
Definition qd_GS (Q : seq (seq F)) : seq (seq F) :=
  mkmat (size Q) (size Q) (fun i j => if (j <= i)%N then ent Q i j else 0).

(* scipy.linalg.lu (LAPACK getrf): elimination with partial pivoting, the pivot being the first
   entry of largest modulus; nothing is eliminated in a zero column.  A row carries its index in
   the input, its multipliers so far and its remaining entries; the result lists the rows in
   pivot order. *)
Definition lurow : Type := nat * (seq F * seq F).
Definition lead (r : lurow) : F := head 0 r.2.2.
Fixpoint pivot_pos (s : seq lurow) : nat :=
  match s with
  | [::] => 0%N
  | r :: s' => let p := pivot_pos s' in
               if (size s' == 0%N) || (`|lead (nth r s' p)| <= `|lead r|) then 0%N else p.+1
  end.
Definition eliminate (piv r : lurow) : lurow :=
  let f := if lead piv == 0 then 0 else lead r / lead piv in
  (r.1, (rcons r.2.1 f, behead [seq q.1 - f * q.2 | q <- zip r.2.2 piv.2.2])).
Fixpoint lu_loop (n : nat) (s : seq lurow) : seq lurow :=
  match n, s with
  | n'.+1, r0 :: _ =>
    let p := pivot_pos s in
    let piv := nth r0 s p in
    let others := behead (set_nth r0 s p r0) in  (* exchange rows 0 and p *)
    piv :: lu_loop n' (map (eliminate piv) others)
  | _, _ => [::]
  end.
(* row order, L and U of an n x n matrix *)
Definition lu (n : nat) (A : seq (seq F)) : seq nat * seq (seq F) * seq (seq F) :=
  let out := lu_loop n [seq (q.1, ([::], q.2)) | q <- zip (iota 0 n) A] in
  let row i := (nth (0%N, ([::], [::])) out i).2 in
  ([seq r.1 | r <- out],
   mkmat n n (fun i j => if (j < i)%N then nth 0 (row i).1 j else (i == j)%:R),
   mkmat n n (fun i j => if (i <= j)%N then nth 0 (row i).2 (j - i) else 0)).
(* LU, lines 48-50; LU2, lines 57-58 *)
Definition qd_LU (Q : seq (seq F)) : seq (seq F) :=
  let: (_, _, U) := lu (size Q) (transp (size Q) Q) in transp (size Q) U.
Definition qd_LU2 (Q : seq (seq F)) : seq (seq F) := [seq [seq x * 2%:R | x <- r] | r <- qd_LU Q].

(* utils/num.py lines 46-85, lduFactorization.  Step i of the outer loop: the assignments of
   the inner loop only read columns and rows below i, so they are done at once. *)
Notation E := (ext F).
Definition ldu_sum (L : seq (seq E)) (d : seq E) (U : seq (seq E)) (i r c : nat) : E :=
  esum (mkseq (fun k => emul (emul (eget L r k) (nth (Fin 0) d k)) (eget U k c)) i).
Definition ldu_step (A : seq (seq F)) (st : seq (seq E) * seq E * seq (seq E)) (i : nat) :=
  let: (L, d, U) := st in
  let n := size A in
  let di := esub (Fin (ent A i i)) (ldu_sum L d U i i i) in
  (tab n n (fun r c => if (c == i) && (i < r)%N
     then ediv (esub (Fin (ent A r i)) (ldu_sum L d U i r i)) di else eget L r c),
   set_nth (Fin 0) d i di,
   tab n n (fun r c => if (r == i) && (i < c)%N
     then ediv (esub (Fin (ent A i c)) (ldu_sum L d U i i c)) di else eget U r c)).
Definition eeye (n : nat) : seq (seq E) := tab n n (fun i j => Fin (i == j)%:R).
Definition ldu (A : seq (seq F)) : seq (seq E) * seq E * seq (seq E) :=
  let n := size A in
  foldl (ldu_step A) (eeye n, nseq n (Fin 0), eeye n) (iota 0 n).
(* m = A.shape[1] *)
Definition lduFactorization (A : seq (seq F)) (m : nat) :
    outcome (seq (seq E) * seq (seq E) * seq (seq E)) :=
  let n := size A in
  if n != m then Raise AssertionError
  else let: (L, d, U) := ldu A in
       Ok (L, tab n n (fun i j => if i == j then nth (Fin 0) d i else Fin 0), U).
(* LDU, algebraic.py lines 83-84 *)
Definition qd_LDU (Q : seq (seq F)) (m : nat) : outcome (seq (seq E)) :=
  omapo (fun r => r.1.2) (lduFactorization Q m).
End Algebraic.

Section Diagonal.
Variable F : realFieldType.

(* check, diag.py lines 30-34 *)
Definition check_k (k : option int) : outcome int :=
  let k := if k is Some k then k else 1 in
  if k < 1 then Raise ValueError else Ok k.

(* np.diag(nodes)/x *)
Definition diag_div (nodes : seq F) (x : F) : seq (seq F) :=
  [seq [seq y / x | y <- r] | r <- diagm nodes].

(* MIN_SR_NS, lines 143-144 *)
Definition qd_MIN_SR_NS (nodes : seq F) (k : option int) : outcome (seq (seq F)) :=
  Ok (diag_div nodes (size nodes)%:R).
(* Jumper, lines 302-304 *)
Definition qd_Jumper (nodes : seq F) (k : option int) : outcome (seq (seq F)) :=
  dop k <- check_k k; Ok (diag_div nodes (2%:R * k%:~R)).
(* FlexJumper, lines 313-316 *)
Definition qd_FlexJumper (nodes : seq F) (k : option int) : outcome (seq (seq F)) :=
  dop k <- check_k k; Ok (diag_div nodes (if k == 1 then 1 else 2%:R * (k - 1)%:~R)).
(* DNODES, lines 325-326; the divider is the class attribute, 1 to 5 *)
Definition qd_DNODES (divider : nat) (nodes : seq F) (k : option int) : outcome (seq (seq F)) :=
  Ok (diag_div nodes divider%:R).

(* MIN, lines 42-50: np.linalg.inv of a diagonal matrix; LinAlgError if an entry is zero.
   x is the result of scipy.optimize.minimize *)
Definition qd_MIN (x : seq F) : outcome (seq (seq F)) :=
  if 0 \in x then Raise LinAlgError else Ok (diagm [seq y^-1 | y <- x]).
End Diagonal.

Section MinSR.
Variable F : realFieldType.
Variables (fpi : F) (eigh : seq F -> seq F -> seq F) (fsqrt : F -> F).
Variables (flog fexp : F -> F) (underflow : seq F -> bool).
Variables (leggauss roots_legendre fejer : nat -> outcome (seq F * seq F)).
(* scipy.optimize.fsolve(f, x0), scipy.optimize.minimize as used by fit, and real powers *)
Variable fsolve : (seq F -> seq F) -> seq F -> seq F.
Variable fitlaw : seq F -> seq F -> F * F.
Variable fpow : F -> F -> F.
Notation cinit := (coll_init fpi eigh fsqrt flog fexp underflow leggauss roots_legendre fejer).

(* the entries of a collocation matrix, all finite *)
Definition fin_mat (A : seq (seq (ext F))) : seq (seq F) := [seq [seq unfin x | x <- r] | r <- A].
Definition left_node (quadType : string) : bool := quadType \in [:: "LOBATTO"; "RADAU-LEFT"]%string.

(* nilpotency, lines 233-238: determinants of (1-z) I + z diag(1/coeffs) QM, minus 1 *)
Definition nilpotency (QM : seq (seq F)) (nodesM : seq F) (coeffs : seq F) : seq F :=
  let n := size nodesM in
  [seq \det (mxl n n (madd (mscale (1 - z) (eye F n)) (mscale z (mm n (diagm [seq 1 / c | c <- coeffs]) QM)))) - 1
  | z <- nodesM].

(* computeCoeffs, lines 189-254 *)
Definition computeCoeffs (nodeType quadType : string) (coll : coll F) (M : nat) (ab : option (F * F)) :
    outcome (seq F * seq F) :=
  dop collM <- (if M == size (co_nodes coll) then Ok coll else cinit M%:Z nodeType quadType 0 1);
  let QM := fin_mat (co_Q collM) in
  let nodesM := co_nodes collM in
  let QM := if left_node quadType then [seq behead r | r <- behead QM] else QM in
  let nodesM := if left_node quadType then behead nodesM else nodesM in
  let nCoeffs := size nodesM in
  let coeffs :=
    if nCoeffs == 1%N then mkseq (fun i => ent QM i i) (size QM)
    else fsolve (nilpotency QM nodesM)
           (match ab with
            | None => [seq x / M%:R | x <- nodesM]
            | Some (a, b) => [seq a * fpow x b / M%:R | x <- nodesM]
            end) in
  Ok (if left_node quadType then (0 :: coeffs, 0 :: nodesM) else (coeffs, nodesM)).

(* computeQDelta of MIN_SR_S, lines 267-275: the loop from m0 to the number of nodes *)
Fixpoint minsrs_loop (nodeType quadType : string) (coll : coll F) (m : nat) (fuel : nat)
    (ab : option (F * F)) (last : option (seq F)) : outcome (option (seq F)) :=
  match fuel with
  | 0 => Ok last
  | f.+1 =>
    dop cn <- computeCoeffs nodeType quadType coll m ab;
    let ab := if (1 < m)%N then Some (fitlaw [seq x * m%:R | x <- cn.1] cn.2) else ab in
    minsrs_loop nodeType quadType coll m.+1 f ab (Some cn.1)
  end.
(* UnboundLocalError, if the loop is empty, cannot occur for a Collocation object; it is
   represented by TypeError *)
Definition qd_MIN_SR_S (nodeType quadType : string) (coll : coll F) (k : option int) :
    outcome (seq (seq F)) :=
  let m0 := if left_node quadType then 2%N else 1%N in
  dop c <- minsrs_loop nodeType quadType coll m0 ((size (co_nodes coll)).+1 - m0) None None;
  if c is Some c then Ok (diagm c) else Raise TypeError.

(* MIN_SR_FLEX, lines 284-293 (without the memo of the MIN-SR-S matrix, see Cache.v) *)
Definition qd_MIN_SR_FLEX (nodeType quadType : string) (coll : coll F) (k : option int) :
    outcome (seq (seq F)) :=
  dop k' <- check_k k;
  if k' <= (size (co_nodes coll))%:Z then Ok (diagm [seq x / k'%:~R | x <- co_nodes coll])
  else qd_MIN_SR_S nodeType quadType coll None.
End MinSR.
