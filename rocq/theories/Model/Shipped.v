(* The classes of qmat/qcoeff and qmat/qdelta with their decorators, in the order in which importing the
   packages defines them (importAll, qmat/utils/__init__.py lines 58-63, imports the modules of a package in
   alphabetical order).  Arrays are represented by their shape; the bodies of the constructors called by
   register succeed: RK() does nothing without padding, and Collocation( ** DEFAULT_PARAMS) is
   C66_collocation. *)
From Verif.Base Require Import Str.
From mathcomp Require Import all_ssreflect.
From Verif.Base Require Import Outcome.
From Verif.Model Require Import Registry Register.
Set Implicit Arguments.
Unset Strict Implicit.
Unset Printing Implicit Defensive.
Local Open Scope string_scope.

Definition classes : seq klass := [::
  (* 0: object *)
  Klass "object" [:: 0] [:: ("__init__", AFun 0 [:: Param "self" PosOrKw DEmpty; Param "args" VarPos DEmpty; Param "kwargs" VarKw DEmpty] 0)];
  (* 1: qcoeff/__init__.py line 22 *)
  Klass "QGenerator" [:: 1; 0] [:: ("getInstance", AObj 11);
      ("nodes", AProp 12);
      ("Q", AProp 13);
      ("weights", AProp 14);
      ("weightsEmbedded", AProp 15);
      ("nNodes", AProp 16);
      ("rightIsNode", AProp 17);
      ("T", AProp 18);
      ("S", AProp 19);
      ("Tinv", AProp 20);
      ("hCoeffs", AProp 21);
      ("genCoeffs", AFun 22 [:: Param "self" PosOrKw DEmpty; Param "form" PosOrKw DValue; Param "hCoeffs" PosOrKw DValue; Param "embedded" PosOrKw DValue] 0);
      ("order", AProp 23);
      ("orderEmbedded", AProp 24);
      ("solveDahlquist", AFun 25 [:: Param "self" PosOrKw DEmpty; Param "lam" PosOrKw DEmpty; Param "u0" PosOrKw DEmpty; Param "tEnd" PosOrKw DEmpty; Param "nSteps" PosOrKw DEmpty; Param "useEmbeddedWeights" PosOrKw DValue] 0);
      ("errorDahlquist", AFun 26 [:: Param "self" PosOrKw DEmpty; Param "lam" PosOrKw DEmpty; Param "u0" PosOrKw DEmpty; Param "tEnd" PosOrKw DEmpty; Param "nSteps" PosOrKw DEmpty; Param "uNum" PosOrKw DNone; Param "useEmbeddedWeights" PosOrKw DValue] 0)];
  (* 2: qcoeff/butcher.py line 22 *)
  Klass "RK" [:: 2; 1; 0] [:: ("A", ANil);
      ("b", ANil);
      ("c", ANil);
      ("b2", ANil);
      ("__init__", AFun 27 [:: Param "self" PosOrKw DEmpty; Param "padding" PosOrKw DNone] 0);
      ("nodes", AProp 28);
      ("weights", AProp 29);
      ("weightsEmbedded", AProp 30);
      ("Q", AProp 31);
      ("hCoeffs", AProp 32)];
  (* 3: qcoeff/butcher.py line 131 *)
  Klass "FE" [:: 3; 2; 1; 0] [:: ("aliases", ANames [:: "EE"]);
      ("A", AArr [:: 1; 1]);
      ("b", AArr [:: 1]);
      ("c", AArr [:: 1]);
      ("order", AProp 33)];
  (* 4: qcoeff/butcher.py line 143 *)
  Klass "RK21" [:: 4; 2; 1; 0] [:: ("aliases", ANames [:: "ERK21"]);
      ("A", AArr [:: 2; 2]);
      ("b", AArr [:: 2]);
      ("c", AArr [:: 2]);
      ("order", AProp 34)];
  (* 5: qcoeff/butcher.py line 157 *)
  Klass "RK2" [:: 5; 2; 1; 0] [:: ("aliases", ANames [:: "ERK2"; "ExplicitMidPoint"; "EMP"]);
      ("A", AArr [:: 2; 2]);
      ("b", AArr [:: 2]);
      ("c", AArr [:: 2]);
      ("order", AProp 35)];
  (* 6: qcoeff/butcher.py line 170 *)
  Klass "HEUN2" [:: 6; 2; 1; 0] [:: ("aliases", ANames [:: "HEUN"; "HeunEuler"]);
      ("A", AArr [:: 2; 2]);
      ("b", AArr [:: 2]);
      ("c", AArr [:: 2]);
      ("b2", AArr [:: 2]);
      ("order", AProp 36)];
  (* 7: qcoeff/butcher.py line 185 *)
  Klass "RK32" [:: 7; 2; 1; 0] [:: ("aliases", ANames [:: "ERK32"; "RK32-SSP"]);
      ("A", AArr [:: 3; 3]);
      ("b", AArr [:: 3]);
      ("c", AArr [:: 3]);
      ("order", AProp 37)];
  (* 8: qcoeff/butcher.py line 199 *)
  Klass "RK33" [:: 8; 2; 1; 0] [:: ("aliases", ANames [:: "ERK33"; "RK33-SSP"]);
      ("A", AArr [:: 3; 3]);
      ("b", AArr [:: 3]);
      ("c", AArr [:: 3]);
      ("order", AProp 38)];
  (* 9: qcoeff/butcher.py line 213 *)
  Klass "RK53" [:: 9; 2; 1; 0] [:: ("aliases", ANames [:: "ERK53"]);
      ("A", AArr [:: 5; 5]);
      ("b", AArr [:: 5]);
      ("c", AArr [:: 5]);
      ("order", AProp 39)];
  (* 10: qcoeff/butcher.py line 230 *)
  Klass "RK4" [:: 10; 2; 1; 0] [:: ("aliases", ANames [:: "ERK4"]);
      ("A", AArr [:: 4; 4]);
      ("b", AArr [:: 4]);
      ("c", AArr [:: 4]);
      ("order", AProp 40)];
  (* 11: qcoeff/butcher.py line 245 *)
  Klass "RK4_38" [:: 11; 2; 1; 0] [:: ("aliases", ANames [:: "ERK4_38"]);
      ("A", AArr [:: 4; 4]);
      ("b", AArr [:: 4]);
      ("c", AArr [:: 4]);
      ("order", AProp 41)];
  (* 12: qcoeff/butcher.py line 261 *)
  Klass "RK65" [:: 12; 2; 1; 0] [:: ("aliases", ANames [:: "ERK65"]);
      ("A", AArr [:: 6; 6]);
      ("b", AArr [:: 6]);
      ("c", AArr [:: 6]);
      ("order", AProp 42)];
  (* 13: qcoeff/butcher.py line 278 *)
  Klass "CashKarp" [:: 13; 2; 1; 0] [:: ("aliases", ANames [:: "Cash_Karp"]);
      ("c", AArr [:: 6]);
      ("b", AArr [:: 6]);
      ("b2", AArr [:: 6]);
      ("A", AArr [:: 6; 6]);
      ("order", AProp 43);
      ("CONV_TEST_NSTEPS", AObj 44)];
  (* 14: qcoeff/butcher.py line 306 *)
  Klass "BE" [:: 14; 2; 1; 0] [:: ("aliases", ANames [:: "IE"; "SDIRK1"]);
      ("A", AArr [:: 1; 1]);
      ("b", AArr [:: 1]);
      ("c", AArr [:: 1]);
      ("order", AProp 45)];
  (* 15: qcoeff/butcher.py line 319 *)
  Klass "MidPoint" [:: 15; 2; 1; 0] [:: ("aliases", ANames [:: "IMP"; "ImplicitMidPoint"]);
      ("A", AArr [:: 1; 1]);
      ("b", AArr [:: 1]);
      ("c", AArr [:: 1]);
      ("order", AProp 46)];
  (* 16: qcoeff/butcher.py line 331 *)
  Klass "TRAP" [:: 16; 2; 1; 0] [:: ("aliases", ANames [:: "TRAPZ"; "CN"; "CrankNicolson"]);
      ("A", AArr [:: 2; 2]);
      ("b", AArr [:: 2]);
      ("c", AArr [:: 2]);
      ("order", AProp 47)];
  (* 17: qcoeff/butcher.py line 344 *)
  Klass "SDIRK2" [:: 17; 2; 1; 0] [:: ("A", AArr [:: 2; 2]);
      ("b", AArr [:: 2]);
      ("c", AArr [:: 2]);
      ("order", AProp 48)];
  (* 18: qcoeff/butcher.py line 356 *)
  Klass "SDIRK2_2" [:: 18; 2; 1; 0] [:: ("aliases", ANames [:: "SDIRK2-2"]);
      ("A", AArr [:: 2; 2]);
      ("b", AArr [:: 2]);
      ("c", AArr [:: 2]);
      ("order", AProp 49);
      ("CONV_TEST_NSTEPS", AObj 50)];
  (* 19: qcoeff/butcher.py line 373 *)
  Klass "SDIRK3" [:: 19; 2; 1; 0] [:: ("A", AArr [:: 3; 3]);
      ("b", AArr [:: 3]);
      ("c", AArr [:: 3]);
      ("order", AProp 51)];
  (* 20: qcoeff/butcher.py line 386 *)
  Klass "DIRK43" [:: 20; 2; 1; 0] [:: ("A", AArr [:: 4; 4]);
      ("b", AArr [:: 4]);
      ("c", AArr [:: 4]);
      ("order", AProp 52)];
  (* 21: qcoeff/butcher.py line 404 *)
  Klass "GAUSS_LG" [:: 21; 2; 1; 0] [:: ("aliases", ANames [:: "GAUSS-LG"]);
      ("A", AArr [:: 2; 2]);
      ("b", AArr [:: 2]);
      ("c", AArr [:: 2]);
      ("order", AProp 53)];
  (* 22: qcoeff/butcher.py line 417 *)
  Klass "SDIRK54" [:: 22; 2; 1; 0] [:: ("A", AArr [:: 5; 5]);
      ("b", AArr [:: 5]);
      ("c", AArr [:: 5]);
      ("order", AProp 54)];
  (* 23: qcoeff/butcher.py line 434 *)
  Klass "EDIRK43" [:: 23; 2; 1; 0] [:: ("A", AArr [:: 4; 4]);
      ("b", AArr [:: 4]);
      ("c", AArr [:: 4]);
      ("b2", AArr [:: 4]);
      ("order", AProp 55);
      ("CONV_TEST_NSTEPS", AObj 56)];
  (* 24: qcoeff/butcher.py line 454 *)
  Klass "EDIRK4" [:: 24; 2; 1; 0] [:: ("A", AArr [:: 4; 4]);
      ("b", AArr [:: 4]);
      ("c", AArr [:: 4]);
      ("order", AProp 57);
      ("CONV_TEST_NSTEPS", AObj 58)];
  (* 25: qcoeff/butcher.py line 473 *)
  Klass "ESDIRK43" [:: 25; 2; 1; 0] [:: ("s2", AObj 59);
      ("c", AArr [:: 6]);
      ("A", AArr [:: 6; 6]);
      ("b", AArr [:: 6]);
      ("b2", AArr [:: 6]);
      ("order", AProp 60);
      ("CONV_TEST_NSTEPS", AObj 61)];
  (* 26: qcoeff/butcher.py line 532 *)
  Klass "ESDIRK53" [:: 26; 2; 1; 0] [:: ("c", AArr [:: 6]);
      ("A", AArr [:: 6; 6]);
      ("b", AArr [:: 6]);
      ("b2", AArr [:: 6]);
      ("orderEmbedded", AProp 62);
      ("order", AProp 63)];
  (* 27: qcoeff/butcher.py line 594 *)
  Klass "ARK548L2SAERK" [:: 27; 2; 1; 0] [:: ("A", AArr [:: 8; 8]);
      ("b", AArr [:: 8]);
      ("c", AArr [:: 8]);
      ("b2", AArr [:: 8]);
      ("order", AProp 64);
      ("CONV_TEST_NSTEPS", AObj 65)];
  (* 28: qcoeff/butcher.py line 670 *)
  Klass "ARK548L2SAESDIRK" [:: 28; 27; 2; 1; 0] [:: ("A", AArr [:: 8; 8]);
      ("orderEmbedded", AProp 66)];
  (* 29: qcoeff/butcher.py line 720 *)
  Klass "ARK548L2SAESDIRK2" [:: 29; 2; 1; 0] [:: ("gamma", AObj 67);
      ("c", AArr [:: 8]);
      ("b", AArr [:: 8]);
      ("A", AArr [:: 8; 8]);
      ("b2", AArr [:: 8]);
      ("order", AProp 68);
      ("CONV_TEST_NSTEPS", AObj 69)];
  (* 30: qcoeff/butcher.py line 784 *)
  Klass "ARK548L2SAERK2" [:: 30; 29; 2; 1; 0] [:: ("A", AArr [:: 8; 8])];
  (* 31: qcoeff/butcher.py line 821 *)
  Klass "ARK324L2SAERK" [:: 31; 2; 1; 0] [:: ("A", AArr [:: 4; 4]);
      ("b", AArr [:: 4]);
      ("b2", AArr [:: 4]);
      ("c", AArr [:: 4]);
      ("order", AProp 70)];
  (* 32: qcoeff/butcher.py line 855 *)
  Klass "ARK324L2SAESDIRK" [:: 32; 31; 2; 1; 0] [:: ("A", AArr [:: 4; 4]);
      ("CONV_TEST_NSTEPS", AObj 71)];
  (* 33: qcoeff/butcher.py line 874 *)
  Klass "ARK222EDIRK" [:: 33; 2; 1; 0] [:: ("gamma", AObj 72);
      ("delta", AObj 73);
      ("c", AArr [:: 3]);
      ("A", AArr [:: 3; 3]);
      ("b", AArr [:: 3]);
      ("order", AProp 74)];
  (* 34: qcoeff/butcher.py line 896 *)
  Klass "ARK222ERK" [:: 34; 33; 2; 1; 0] [:: ("A", AArr [:: 3; 3]);
      ("b", AArr [:: 3])];
  (* 35: qcoeff/butcher.py line 908 *)
  Klass "ARK443ESDIRK" [:: 35; 2; 1; 0] [:: ("c", AArr [:: 5]);
      ("A", AArr [:: 5; 5]);
      ("b", AArr [:: 5]);
      ("order", AProp 75)];
  (* 36: qcoeff/butcher.py line 930 *)
  Klass "ARK443ERK" [:: 36; 35; 2; 1; 0] [:: ("A", AArr [:: 5; 5]);
      ("b", AArr [:: 5])];
  (* 37: qcoeff/butcher.py line 943 *)
  Klass "ARK343ESDIRK" [:: 37; 2; 1; 0] [:: ("c", AArr [:: 4]);
      ("A", AArr [:: 4; 4]);
      ("b", AArr [:: 4]);
      ("order", AProp 76)];
  (* 38: qcoeff/butcher.py line 963 *)
  Klass "ARK343ERK" [:: 38; 37; 2; 1; 0] [:: ("A", AArr [:: 4; 4]);
      ("order", AProp 77)];
  (* 39: qcoeff/butcher.py line 978 *)
  Klass "ARK4EDIRK" [:: 39; 2; 1; 0] [:: ("c", AArr [:: 7]);
      ("A", AArr [:: 7; 7]);
      ("b", AArr [:: 7]);
      ("order", AProp 78);
      ("CONV_TEST_NSTEPS", AObj 79)];
  (* 40: qcoeff/butcher.py line 1003 *)
  Klass "ARK4ERK" [:: 40; 39; 2; 1; 0] [:: ("A", AArr [:: 7; 7]);
      ("b", AArr [:: 7])];
  (* 41: qcoeff/collocation.py line 21 *)
  Klass "Collocation" [:: 41; 1; 0] [:: ("aliases", ANames [:: "coll"]);
      ("DEFAULT_PARAMS", AKeys [:: "nNodes"; "nodeType"; "quadType"]);
      ("__init__", AFun 80 [:: Param "self" PosOrKw DEmpty; Param "nNodes" PosOrKw DEmpty; Param "nodeType" PosOrKw DEmpty; Param "quadType" PosOrKw DEmpty; Param "tLeft" PosOrKw DValue; Param "tRight" PosOrKw DValue] 0);
      ("nodes", AProp 81);
      ("Q", AProp 82);
      ("weights", AProp 83);
      ("S", AProp 84);
      ("hCoeffs", AProp 85);
      ("order", AProp 86)];
  (* 42: qdelta/__init__.py line 65 *)
  Klass "QDeltaGenerator" [:: 42; 0] [:: ("_K_DEPENDENT", AFlag false);
      ("isKDependent", AFun 87 [:: Param "cls" PosOrKw DEmpty] 0);
      ("__init__", AFun 88 [:: Param "self" PosOrKw DEmpty; Param "Q" PosOrKw DEmpty; Param "kwargs" VarKw DEmpty] 0);
      ("extractParams", AObj 89);
      ("size", AProp 90);
      ("zeros", AProp 91);
      ("computeQDelta", AFun 92 [:: Param "self" PosOrKw DEmpty; Param "k" PosOrKw DNone] 0);
      ("getQDelta", AFun 93 [:: Param "self" PosOrKw DEmpty; Param "k" PosOrKw DNone; Param "copy" PosOrKw DValue] 0);
      ("getSDelta", AFun 94 [:: Param "self" PosOrKw DEmpty; Param "k" PosOrKw DNone] 0);
      ("dTau", AProp 95);
      ("genCoeffs", AFun 96 [:: Param "self" PosOrKw DEmpty; Param "k" PosOrKw DNone; Param "form" PosOrKw DValue; Param "dTau" PosOrKw DValue] 0)];
  (* 43: qdelta/algebraic.py line 27 *)
  Klass "PIC" [:: 43; 42; 0] [:: ("aliases", ANames [:: "Picard"]);
      ("computeQDelta", AFun 97 [:: Param "self" PosOrKw DEmpty; Param "k" PosOrKw DNone] 0)];
  (* 44: qdelta/algebraic.py line 36 *)
  Klass "Exact" [:: 44; 42; 0] [:: ("aliases", ANames [:: "EXACT"]);
      ("computeQDelta", AFun 98 [:: Param "self" PosOrKw DEmpty; Param "k" PosOrKw DNone] 0)];
  (* 45: qdelta/algebraic.py line 45 *)
  Klass "LU" [:: 45; 42; 0] [:: ("computeQDelta", AFun 99 [:: Param "self" PosOrKw DEmpty; Param "k" PosOrKw DNone] 0)];
  (* 46: qdelta/algebraic.py line 54 *)
  Klass "LU2" [:: 46; 45; 42; 0] [:: ("computeQDelta", AFun 100 [:: Param "self" PosOrKw DEmpty; Param "k" PosOrKw DNone] 0)];
  (* 47: qdelta/algebraic.py line 62 *)
  Klass "QPar" [:: 47; 42; 0] [:: ("aliases", ANames [:: "Qpar"; "Qdiag"]);
      ("computeQDelta", AFun 101 [:: Param "self" PosOrKw DEmpty; Param "k" PosOrKw DNone] 0)];
  (* 48: qdelta/algebraic.py line 71 *)
  Klass "GS" [:: 48; 42; 0] [:: ("aliases", ANames [:: "GaussSeidel"]);
      ("computeQDelta", AFun 102 [:: Param "self" PosOrKw DEmpty; Param "k" PosOrKw DNone] 0)];
  (* 49: qdelta/algebraic.py line 80 *)
  Klass "LDU" [:: 49; 42; 0] [:: ("computeQDelta", AFun 103 [:: Param "self" PosOrKw DEmpty; Param "k" PosOrKw DNone] 0)];
  (* 50: qdelta/diag.py line 38 *)
  Klass "MIN" [:: 50; 42; 0] [:: ("aliases", ANames [:: "MIN-Speck"]);
      ("rho", AFun 104 [:: Param "self" PosOrKw DEmpty; Param "x" PosOrKw DEmpty] 0);
      ("computeQDelta", AFun 105 [:: Param "self" PosOrKw DEmpty; Param "k" PosOrKw DNone] 0)];
  (* 51: qdelta/diag.py line 53 *)
  Klass "FromTable" [:: 51; 42; 0] [:: ("__init__", AFun 106 [:: Param "self" PosOrKw DEmpty; Param "nNodes" PosOrKw DEmpty; Param "nodeType" PosOrKw DEmpty; Param "quadType" PosOrKw DEmpty; Param "kwargs" VarKw DEmpty] 0);
      ("extractParams", AObj 107);
      ("size", AProp 108);
      ("computeQDelta", AFun 109 [:: Param "self" PosOrKw DEmpty; Param "k" PosOrKw DNone] 0)];
  (* 52: qdelta/diag.py line 110 *)
  Klass "MIN3" [:: 52; 51; 42; 0] [:: ("aliases", ANames [:: "Magic_Numbers"])];
  (* 53: qdelta/diag.py line 116 *)
  Klass "MIN_VDHS" [:: 53; 51; 42; 0] [:: ("aliases", ANames [:: "VDHS"])];
  (* 54: qdelta/diag.py line 122 *)
  Klass "MIN_SR_NS" [:: 54; 42; 0] [:: ("aliases", ANames [:: "MIN-SR-NS"; "MIN_GT"]);
      ("__init__", AFun 110 [:: Param "self" PosOrKw DEmpty; Param "nodes" PosOrKw DEmpty; Param "kwargs" VarKw DEmpty] 0);
      ("extractParams", AObj 111);
      ("size", AProp 112);
      ("computeQDelta", AFun 113 [:: Param "self" PosOrKw DEmpty; Param "k" PosOrKw DNone] 0)];
  (* 55: qdelta/diag.py line 148 *)
  Klass "MIN_SR_S" [:: 55; 42; 0] [:: ("aliases", ANames [:: "MIN-SR-S"]);
      ("__init__", AFun 114 [:: Param "self" PosOrKw DEmpty; Param "nNodes" PosOrKw DEmpty; Param "nodeType" PosOrKw DEmpty; Param "quadType" PosOrKw DEmpty; Param "kwargs" VarKw DEmpty] 0);
      ("extractParams", AObj 115);
      ("size", AProp 116);
      ("computeCoeffs", AFun 117 [:: Param "self" PosOrKw DEmpty; Param "M" PosOrKw DEmpty; Param "a" PosOrKw DNone; Param "b" PosOrKw DNone] 0);
      ("fit", AObj 118);
      ("computeQDelta", AFun 119 [:: Param "self" PosOrKw DEmpty; Param "k" PosOrKw DNone] 0)];
  (* 56: qdelta/diag.py line 279 *)
  Klass "MIN_SR_FLEX" [:: 56; 55; 42; 0] [:: ("aliases", ANames [:: "MIN-SR-FLEX"]);
      ("computeQDelta", AFun 120 [:: Param "self" PosOrKw DEmpty; Param "k" PosOrKw DValue] 0)];
  (* 57: qdelta/diag.py line 297 *)
  Klass "Jumper" [:: 57; 54; 42; 0] [:: ("aliases", ANames [:: "JUMPER"; "FB"]);
      ("computeQDelta", AFun 121 [:: Param "self" PosOrKw DEmpty; Param "k" PosOrKw DValue] 0)];
  (* 58: qdelta/diag.py line 308 *)
  Klass "FlexJumper" [:: 58; 57; 54; 42; 0] [:: ("aliases", ANames [:: "FLEX-JUMPER"; "FB2"]);
      ("computeQDelta", AFun 122 [:: Param "self" PosOrKw DEmpty; Param "k" PosOrKw DValue] 0)];
  (* 59: qdelta/diag.py line 320 *)
  Klass "DNODES" [:: 59; 54; 42; 0] [:: ("divider", AArr [::]);
      ("aliases", ANames [:: "DNODES-1"]);
      ("computeQDelta", AFun 123 [:: Param "self" PosOrKw DEmpty; Param "k" PosOrKw DNone] 0)];
  (* 60: qdelta/diag.py line 329 *)
  Klass "DNODES2" [:: 60; 59; 54; 42; 0] [:: ("divider", AArr [::]);
      ("aliases", ANames [:: "DNODES-2"])];
  (* 61: qdelta/diag.py line 335 *)
  Klass "DNODES3" [:: 61; 59; 54; 42; 0] [:: ("divider", AArr [::]);
      ("aliases", ANames [:: "DNODES-3"])];
  (* 62: qdelta/diag.py line 341 *)
  Klass "DNODES4" [:: 62; 59; 54; 42; 0] [:: ("divider", AArr [::]);
      ("aliases", ANames [:: "DNODES-4"])];
  (* 63: qdelta/diag.py line 347 *)
  Klass "DNODES5" [:: 63; 59; 54; 42; 0] [:: ("divider", AArr [::]);
      ("aliases", ANames [:: "DNODES-5"])];
  (* 64: qdelta/timestepping.py line 26 *)
  Klass "TimeStepping" [:: 64; 42; 0] [:: ("__init__", AFun 124 [:: Param "self" PosOrKw DEmpty; Param "nodes" PosOrKw DEmpty; Param "tLeft" PosOrKw DValue; Param "kwargs" VarKw DEmpty] 0);
      ("extractParams", AObj 125);
      ("size", AProp 126)];
  (* 65: qdelta/timestepping.py line 69 *)
  Klass "BE" [:: 65; 64; 42; 0] [:: ("aliases", ANames [:: "IE"]);
      ("computeQDelta", AFun 127 [:: Param "self" PosOrKw DEmpty; Param "k" PosOrKw DNone] 0)];
  (* 66: qdelta/timestepping.py line 81 *)
  Klass "FE" [:: 66; 64; 42; 0] [:: ("aliases", ANames [:: "EE"]);
      ("computeQDelta", AFun 128 [:: Param "self" PosOrKw DEmpty; Param "k" PosOrKw DNone] 0);
      ("dTau", AProp 129)];
  (* 67: qdelta/timestepping.py line 97 *)
  Klass "TRAP" [:: 67; 64; 42; 0] [:: ("aliases", ANames [:: "CN"]);
      ("computeQDelta", AFun 130 [:: Param "self" PosOrKw DEmpty; Param "k" PosOrKw DNone] 0);
      ("dTau", AProp 131)];
  (* 68: qdelta/timestepping.py line 116 *)
  Klass "BEPAR" [:: 68; 64; 42; 0] [:: ("aliases", ANames [:: "IEpar"]);
      ("computeQDelta", AFun 132 [:: Param "self" PosOrKw DEmpty; Param "k" PosOrKw DNone] 0)];
  (* 69: qdelta/timestepping.py line 125 *)
  Klass "TRAPAR" [:: 69; 64; 42; 0] [:: ("computeQDelta", AFun 133 [:: Param "self" PosOrKw DEmpty; Param "k" PosOrKw DNone] 0);
      ("dTau", AProp 134)];
  (* 70: qdelta/timestepping.py line 137 *)
  Klass "SOE" [:: 70; 64; 42; 0] [:: ("aliases", ANames [:: "LeapFrog"; "LF"]);
      ("computeQDelta", AFun 135 [:: Param "self" PosOrKw DEmpty; Param "k" PosOrKw DNone] 0);
      ("dTau", AProp 136)]].
Definition world0 : world := nth (Klass "" [::] [::]) classes.

(* the decorators *)
Inductive deco := DRegQ | DRegRK | DRegQD | DRegTable.
Definition decorated : seq (deco * nat) := [::
  (DRegRK, 3); (DRegRK, 4); (DRegRK, 5); (DRegRK, 6); (DRegRK, 7); (DRegRK, 8); (DRegRK, 9); (DRegRK, 10); (DRegRK, 11); (DRegRK, 12); (DRegRK, 13); (DRegRK, 14); (DRegRK, 15); (DRegRK, 16); (DRegRK, 17); (DRegRK, 18); (DRegRK, 19); (DRegRK, 20); (DRegRK, 21); (DRegRK, 22); (DRegRK, 23); (DRegRK, 24); (DRegRK, 25); (DRegRK, 26); (DRegRK, 27); (DRegRK, 28); (DRegRK, 29); (DRegRK, 30); (DRegRK, 31); (DRegRK, 32); (DRegRK, 33); (DRegRK, 34); (DRegRK, 35); (DRegRK, 36); (DRegRK, 37); (DRegRK, 38); (DRegRK, 39); (DRegRK, 40); (DRegQ, 41); (DRegQD, 43); (DRegQD, 44); (DRegQD, 45); (DRegQD, 46); (DRegQD, 47); (DRegQD, 48); (DRegQD, 49); (DRegQD, 50); (DRegTable, 52); (DRegTable, 53); (DRegQD, 54); (DRegQD, 55); (DRegQD, 56); (DRegQD, 57); (DRegQD, 58); (DRegQD, 59); (DRegQD, 60); (DRegQD, 61); (DRegQD, 62); (DRegQD, 63); (DRegQD, 65); (DRegQD, 66); (DRegQD, 67); (DRegQD, 68); (DRegQD, 69); (DRegQD, 70)].

(* the state: classes, RK_SCHEMES, Q_GENERATORS, QDELTA_GENERATORS *)
Definition state := (world * dict nat * dict nat * dict nat)%type.
Definition body0 (w : world) (i f : nat) (keys : seq string) : outcome unit := Ok tt.
(* the names defined in qmat/qdelta/mincoeffs.py *)
Definition tables0 : seq string := [:: "MIN3"; "MIN_VDHS"].
Definition decorate (s : state) (p : deco * nat) : state * outcome unit :=
  let: (w, rk, q, qd) := s in
  match p.1 with
  | DRegQ => let (q, r) := registerQ body0 w p.2 q in ((w, rk, q, qd), r)
  | DRegRK => let: (w, rk, q, r) := registerRK body0 w p.2 rk q in ((w, rk, q, qd), r)
  | DRegQD => let: (w, qd, r) := registerQD w p.2 qd in ((w, rk, q, qd), r)
  | DRegTable => let: (w, qd, r) := registerTable tables0 w p.2 qd in ((w, rk, q, qd), r)
  end.
(* importing the packages: an exception stops it *)
Fixpoint import (s : state) (l : seq (deco * nat)) : state * outcome unit :=
  if l is p :: l then
    let (s, r) := decorate s p in if r is Ok _ then import s l else (s, r)
  else (s, Ok tt).
Definition import0 := import (world0, [::], [::], [::]) decorated.
