(* Model of FromTable (qmat/qdelta/diag.py lines 53-106) and of the tables of diagonal coefficients
   in qmat/qdelta/mincoeffs.py.  The decimal literals are read as exact fractions. *)
From Coq Require Import ZArith QArith.
From Verif.Base Require Import Str.
From mathcomp Require Import all_ssreflect all_algebra.
From Verif.Base Require Import QcEmb Outcome Arr.
From Verif.Model Require Import Registry Sweeps.
Set Implicit Arguments.
Unset Strict Implicit.
Unset Printing Implicit Defensive.
Import GRing.Theory Num.Theory.

(* tables indexed by node type, quadrature type and number of nodes *)
Definition mintable := dict (dict (seq (int * seq Q))).
Fixpoint iget (V : Type) (n : int) (d : seq (int * V)) : option V :=
  if d is (m, v) :: d then if n == m then Some v else iget n d else None.

Open Scope string_scope.
Section Tables.
Local Open Scope Q_scope.
Local Open Scope Z_scope.
Local Open Scope Q_scope.
(* mincoeffs.py lines 7-134 *)
Definition tab_MIN3 : mintable :=
[:: ("LEGENDRE", [::
     ("LOBATTO", [::
        (Posz 9, [:: 0 # 1; 14748983547536937 # 100000000000000000; 1243753767395874 # 10000000000000000; 8797965969063823 # 100000000000000000; 3249792877433364 # 100000000000000000; 6171633442251176 # 100000000000000000; 8995295998705832 # 100000000000000000; 1080641868728824 # 10000000000000000; 11621787232558443 # 100000000000000000]);
        (Posz 7, [:: 0 # 1; 18827968699454273 # 100000000000000000; 1307213945012976 # 10000000000000000; 4545003319140543 # 100000000000000000; 8690617895312261 # 100000000000000000; 12326429119922168 # 100000000000000000; 13815746843252427 # 100000000000000000]);
        (Posz 5, [:: 0 # 1; 2994085231050721 # 10000000000000000; 7923154575177252 # 100000000000000000; 14338847088077 # 100000000000000; 17675509273708057 # 100000000000000000]);
        (Posz 4, [:: 0 # 1; 2865524188780046 # 10000000000000000; 11264992497015984 # 100000000000000000; 2583063168320655 # 10000000000000000]);
        (Posz 3, [:: 0 # 1; 2113181799416633 # 10000000000000000; 3943250920445912 # 10000000000000000]);
        (Posz 2, [:: 0 # 1; 5 # 10])]);
     ("RADAU-RIGHT", [::
        (Posz 9, [:: 14208076083211416 # 100000000000000000; 1288153963623986 # 10000000000000000; 10608601069476883 # 100000000000000000; 7509520272252024 # 100000000000000000; 27986167728305308 # 1000000000000000000; 5351160749903067 # 100000000000000000; 7911315989747868 # 100000000000000000; 9514844658836666 # 100000000000000000; 10204992319487571 # 100000000000000000]);
        (Posz 7, [:: 15223871397682717 # 100000000000000000; 12625448001038536 # 100000000000000000; 8210714764924298 # 100000000000000000; 3994434742760019 # 100000000000000000; 1052662547386142 # 10000000000000000; 14075805578834127 # 100000000000000000; 15636085758812895 # 100000000000000000]);
        (Posz 5, [:: 2818591930905709 # 10000000000000000; 2011358490453793 # 10000000000000000; 6274536689514164 # 100000000000000000; 11790265267514095 # 100000000000000000; 1571629578515223 # 10000000000000000]);
        (Posz 4, [:: 3198786751412953 # 10000000000000000; 8887606314792469 # 100000000000000000; 1812366328324738 # 10000000000000000; 23273925017954 # 100000000000000]);
        (Posz 3, [:: 3203856825077055 # 10000000000000000; 1399680686269595 # 10000000000000000; 3716708461097372 # 10000000000000000]);
        (Posz 2, [:: 2584092406077449 # 10000000000000000; 6449261740461826 # 10000000000000000])])]);
  ("EQUID", [::
     ("RADAU-RIGHT", [::
        (Posz 9, [:: 4067333763109274 # 100000000000000000; 6893408176924318 # 100000000000000000; 944460427779633 # 10000000000000000; 11847528720123894 # 100000000000000000; 14153236351607695 # 100000000000000000; 1638856774260845 # 10000000000000000; 18569759470199648 # 100000000000000000; 20707543960267513 # 100000000000000000; 2280946565716198 # 10000000000000000]);
        (Posz 7, [:: 582690792096515 # 10000000000000000; 9937620459067688 # 100000000000000000; 13668728443669567 # 100000000000000000; 1719458323664216 # 10000000000000000; 20585615258818232 # 100000000000000000; 2387890485242656 # 10000000000000000; 27096908017041393 # 100000000000000000]);
        (Posz 5, [:: 937126798932547 # 10000000000000000; 1619131388001843 # 10000000000000000; 22442341539247537 # 100000000000000000; 28385142992912565 # 100000000000000000; 3412523013467262 # 10000000000000000]);
        (Posz 4, [:: 13194852204686872 # 100000000000000000; 2296718892453916 # 10000000000000000; 3197255970017318 # 10000000000000000; 405619746972393 # 1000000000000000]);
        (Posz 3, [:: 2046955744931575 # 10000000000000000; 3595744268324041 # 10000000000000000; 5032243650307717 # 10000000000000000]);
        (Posz 2, [:: 3749891032632652 # 10000000000000000; 6666472946796036 # 10000000000000000])])])].

(* mincoeffs.py lines 137-144 *)
Definition tab_MIN_VDHS : mintable :=
[:: ("LEGENDRE", [::
     ("RADAU-RIGHT", [::
        (Posz 3, [:: 4365 # 13624; 1032 # 7373; 1887 # 5077]);
        (Posz 4, [:: 3055 # 9532; 531 # 5956; 1471 # 8094; 1848 # 7919])])])].
End Tables.
(* the attributes of the module mincoeffs *)
Definition mintables : dict mintable := [:: ("MIN3", tab_MIN3); ("MIN_VDHS", tab_MIN_VDHS)].

Section FromTable.
Variable F : realFieldType.
(* FromTable.computeQDelta, diag.py lines 78-96, for the class with the given name: a missing key
   raises NotImplementedError, a wrong length or a missing table ValueError.  All tables are made of
   lists of numbers, so coeffs.ndim is 1 and the conversion to floats succeeds. *)
Definition fromtable (tables : dict mintable) (name nodeType quadType : string) (nNodes : int)
    (k : option int) : outcome (seq (seq F)) :=
  match dget name tables with
  | None => Raise ValueError
  | Some t =>
    match dget nodeType t with
    | None => Raise NotImplementedError
    | Some t =>
      match dget quadType t with
      | None => Raise NotImplementedError
      | Some t =>
        match iget nNodes t with
        | None => Raise NotImplementedError
        | Some coeffs =>
          if Posz (size coeffs) != nNodes then Raise ValueError
          else Ok (diagm [seq qr F x | x <- coeffs])
        end
      end
    end
  end.
(* MIN3, lines 109-112; MIN_VDHS, lines 115-118 *)
Definition qd_MIN3 := fromtable mintables "MIN3".
Definition qd_MIN_VDHS := fromtable mintables "MIN_VDHS".
End FromTable.
(* registerTable, lines 99-106: the check before register *)
Definition registerTable (tables : dict mintable) (name : string) : outcome unit :=
  if dget name tables is Some _ then Ok tt else Raise AttributeError.
