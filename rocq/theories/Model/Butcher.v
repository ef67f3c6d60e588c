(* The Butcher tables registered in qmat/qcoeff/butcher.py, lines 130-1017.
   Literals are read as exact numbers: p/q as the rational, 0.25 as the decimal fraction,
   2**0.5 and 3**0.5 as square roots.  "r a b" is a/b and "x a b c e" is
   a/b + (c/e) sqrt(d), with d the root of the scheme (2 or 3).
   Class attributes inherited from a parent table are repeated; the properties order and
   orderEmbedded (default order - 1, qcoeff/__init__.py lines 132-135) are the last two
   fields.  CONV_TEST_NSTEPS and docstrings are not modelled. *)
From Coq Require Import ZArith QArith Qcanon.
From Verif.Base Require Import Str.
From mathcomp Require Import all_ssreflect all_algebra.
From Verif.Base Require Import QcField QcEmb Arr.
From Verif.Model Require Import QGen.
Set Implicit Arguments.
Unset Strict Implicit.
Unset Printing Implicit Defensive.

Open Scope string_scope.

Record scheme := Scheme {
  s_name : string; s_aliases : seq string; s_root : nat;
  s_tab : table (q2_ringType s_root) }.

Section Literals.
Context {d : nat}.
Definition r (a : Z) (b : positive) : q2 d := Q2 (qc a b) 0%R.
Definition x (a : Z) (b : positive) (c : Z) (e : positive) : q2 d := Q2 (qc a b) (qc c e).
Definition n0 : q2 d := Q2 0%R 0%R.
Definition n1 : q2 d := Q2 1%R 0%R.
End Literals.

(* butcher.py lines 130-139 *)
Definition tab_FE : table (q2_ringType 2) := @Table (q2_ringType 2)
  [:: [:: n0]]
  [:: n1]
  [:: n0]
  None
  1 0.
Definition s_FE : scheme := @Scheme "FE" [:: "EE"] 2 tab_FE.

(* butcher.py lines 142-152 *)
Definition tab_RK21 : table (q2_ringType 2) := @Table (q2_ringType 2)
  [:: [:: n0; n0];
      [:: r (3) 4; n0]]
  [:: r (-1) 3; r (4) 3]
  [:: n0; r (3) 4]
  None
  1 0.
Definition s_RK21 : scheme := @Scheme "RK21" [:: "ERK21"] 2 tab_RK21.

(* butcher.py lines 156-166 *)
Definition tab_RK2 : table (q2_ringType 2) := @Table (q2_ringType 2)
  [:: [:: n0; n0];
      [:: r (1) 2; n0]]
  [:: n0; n1]
  [:: n0; r (1) 2]
  None
  2 1.
Definition s_RK2 : scheme := @Scheme "RK2" [:: "ERK2"; "ExplicitMidPoint"; "EMP"] 2 tab_RK2.

(* butcher.py lines 169-180 *)
Definition tab_HEUN2 : table (q2_ringType 2) := @Table (q2_ringType 2)
  [:: [:: n0; n0];
      [:: n1; n0]]
  [:: r (1) 2; r (1) 2]
  [:: n0; n1]
  (Some [:: n1; n0])
  2 1.
Definition s_HEUN2 : scheme := @Scheme "HEUN2" [:: "HEUN"; "HeunEuler"] 2 tab_HEUN2.

(* butcher.py lines 184-195 *)
Definition tab_RK32 : table (q2_ringType 2) := @Table (q2_ringType 2)
  [:: [:: n0; n0; n0];
      [:: r (1) 3; n0; n0];
      [:: n0; n1; n0]]
  [:: r (1) 2; n0; r (1) 2]
  [:: n0; r (1) 3; n1]
  None
  3 2.
Definition s_RK32 : scheme := @Scheme "RK32" [:: "ERK32"; "RK32-SSP"] 2 tab_RK32.

(* butcher.py lines 198-209 *)
Definition tab_RK33 : table (q2_ringType 2) := @Table (q2_ringType 2)
  [:: [:: n0; n0; n0];
      [:: n1; n0; n0];
      [:: r (1) 4; r (1) 4; n0]]
  [:: r (1) 6; r (1) 6; r (2) 3]
  [:: n0; n1; r (1) 2]
  None
  3 2.
Definition s_RK33 : scheme := @Scheme "RK33" [:: "ERK33"; "RK33-SSP"] 2 tab_RK33.

(* butcher.py lines 212-225 *)
Definition tab_RK53 : table (q2_ringType 2) := @Table (q2_ringType 2)
  [:: [:: n0; n0; n0; n0; n0];
      [:: r (1) 7; n0; n0; n0; n0];
      [:: n0; r (3) 13; n0; n0; n0];
      [:: n0; n0; r (1) 3; n0; n0];
      [:: n0; n0; n0; r (2) 3; n0]]
  [:: r (1) 4; n0; n0; n0; r (3) 4]
  [:: n0; r (1) 7; r (3) 16; r (1) 3; r (2) 3]
  None
  3 2.
Definition s_RK53 : scheme := @Scheme "RK53" [:: "ERK53"] 2 tab_RK53.

(* butcher.py lines 229-241 *)
Definition tab_RK4 : table (q2_ringType 2) := @Table (q2_ringType 2)
  [:: [:: n0; n0; n0; n0];
      [:: r (1) 2; n0; n0; n0];
      [:: n0; r (1) 2; n0; n0];
      [:: n0; n0; n1; n0]]
  [:: r (1) 6; r (1) 3; r (1) 3; r (1) 6]
  [:: n0; r (1) 2; r (1) 2; n1]
  None
  4 3.
Definition s_RK4 : scheme := @Scheme "RK4" [:: "ERK4"] 2 tab_RK4.

(* butcher.py lines 244-256 *)
Definition tab_RK4_38 : table (q2_ringType 2) := @Table (q2_ringType 2)
  [:: [:: n0; n0; n0; n0];
      [:: r (1) 3; n0; n0; n0];
      [:: r (-1) 3; n1; n0; n0];
      [:: n1; r (-1) 1; n1; n0]]
  [:: r (1) 8; r (3) 8; r (3) 8; r (1) 8]
  [:: n0; r (1) 3; r (2) 3; n1]
  None
  4 3.
Definition s_RK4_38 : scheme := @Scheme "RK4_38" [:: "ERK4_38"] 2 tab_RK4_38.

(* butcher.py lines 260-274 *)
Definition tab_RK65 : table (q2_ringType 2) := @Table (q2_ringType 2)
  [:: [:: n0; n0; n0; n0; n0; n0];
      [:: r (1) 4; n0; n0; n0; n0; n0];
      [:: r (1) 8; r (1) 8; n0; n0; n0; n0];
      [:: n0; n0; r (1) 2; n0; n0; n0];
      [:: r (3) 16; r (-3) 8; r (3) 8; r (9) 16; n0; n0];
      [:: r (-3) 7; r (8) 7; r (6) 7; r (-12) 7; r (8) 7; n0]]
  [:: r (7) 90; n0; r (16) 45; r (2) 15; r (16) 45; r (7) 90]
  [:: n0; r (1) 4; r (1) 4; r (1) 2; r (3) 4; n1]
  None
  5 4.
Definition s_RK65 : scheme := @Scheme "RK65" [:: "ERK65"] 2 tab_RK65.

(* butcher.py lines 277-297 *)
Definition tab_CashKarp : table (q2_ringType 2) := @Table (q2_ringType 2)
  [:: [:: n0; n0; n0; n0; n0; n0];
      [:: r (1) 5; n0; n0; n0; n0; n0];
      [:: r (3) 40; r (9) 40; n0; n0; n0; n0];
      [:: r (3) 10; r (-9) 10; r (6) 5; n0; n0; n0];
      [:: r (-11) 54; r (5) 2; r (-70) 27; r (35) 27; n0; n0];
      [:: r (1631) 55296; r (175) 512; r (575) 13824; r (44275) 110592; r (253) 4096; n0]]
  [:: r (37) 378; n0; r (250) 621; r (125) 594; n0; r (512) 1771]
  [:: n0; r (1) 5; r (3) 10; r (3) 5; n1; r (7) 8]
  (Some [:: r (2825) 27648; n0; r (18575) 48384; r (13525) 55296; r (277) 14336; r (1) 4])
  5 4.
Definition s_CashKarp : scheme := @Scheme "CashKarp" [:: "Cash_Karp"] 2 tab_CashKarp.

(* butcher.py lines 305-314 *)
Definition tab_BE : table (q2_ringType 2) := @Table (q2_ringType 2)
  [:: [:: n1]]
  [:: n1]
  [:: n1]
  None
  1 0.
Definition s_BE : scheme := @Scheme "BE" [:: "IE"; "SDIRK1"] 2 tab_BE.

(* butcher.py lines 318-327 *)
Definition tab_MidPoint : table (q2_ringType 2) := @Table (q2_ringType 2)
  [:: [:: r (1) 2]]
  [:: n1]
  [:: r (1) 2]
  None
  2 1.
Definition s_MidPoint : scheme := @Scheme "MidPoint" [:: "IMP"; "ImplicitMidPoint"] 2 tab_MidPoint.

(* butcher.py lines 330-340 *)
Definition tab_TRAP : table (q2_ringType 2) := @Table (q2_ringType 2)
  [:: [:: n0; n0];
      [:: r (1) 2; r (1) 2]]
  [:: r (1) 2; r (1) 2]
  [:: n0; n1]
  None
  2 1.
Definition s_TRAP : scheme := @Scheme "TRAP" [:: "TRAPZ"; "CN"; "CrankNicolson"] 2 tab_TRAP.

(* butcher.py lines 343-352 *)
Definition tab_SDIRK2 : table (q2_ringType 2) := @Table (q2_ringType 2)
  [:: [:: x (1) 1 (-1) 2; n0];
      [:: x (0) 1 (1) 2; x (1) 1 (-1) 2]]
  [:: x (0) 1 (1) 2; x (1) 1 (-1) 2]
  [:: x (1) 1 (-1) 2; n1]
  None
  2 1.
Definition s_SDIRK2 : scheme := @Scheme "SDIRK2" [::] 2 tab_SDIRK2.

(* butcher.py lines 355-368 *)
Definition tab_SDIRK2_2 : table (q2_ringType 2) := @Table (q2_ringType 2)
  [:: [:: x (1) 1 (1) 2; n0];
      [:: x (0) 1 (-1) 2; x (1) 1 (1) 2]]
  [:: x (0) 1 (-1) 2; x (1) 1 (1) 2]
  [:: x (1) 1 (1) 2; n1]
  None
  2 1.
Definition s_SDIRK2_2 : scheme := @Scheme "SDIRK2_2" [:: "SDIRK2-2"] 2 tab_SDIRK2_2.

(* butcher.py lines 372-382 *)
Definition tab_SDIRK3 : table (q2_ringType 2) := @Table (q2_ringType 2)
  [:: [:: r (43586652150845967) 100000000000000000; n0; n0];
      [:: r (14103336962288507) 50000000000000000; r (43586652150845967) 100000000000000000; n0];
      [:: r (12084966491760119) 10000000000000000; r (-1288726341368943) 2000000000000000; r (43586652150845967) 100000000000000000]]
  [:: r (12084966491760119) 10000000000000000; r (-1288726341368943) 2000000000000000; r (43586652150845967) 100000000000000000]
  [:: r (43586652150845967) 100000000000000000; r (3589666303771149) 5000000000000000; n1]
  None
  3 2.
Definition s_SDIRK3 : scheme := @Scheme "SDIRK3" [::] 2 tab_SDIRK3.

(* butcher.py lines 385-399 *)
Definition tab_DIRK43 : table (q2_ringType 2) := @Table (q2_ringType 2)
  [:: [:: r (1) 2; n0; n0; n0];
      [:: r (1) 6; r (1) 2; n0; n0];
      [:: r (-1) 2; r (1) 2; r (1) 2; n0];
      [:: r (3) 2; r (-3) 2; r (1) 2; r (1) 2]]
  [:: r (3) 2; r (-3) 2; r (1) 2; r (1) 2]
  [:: r (1) 2; r (2) 3; r (1) 2; n1]
  None
  3 2.
Definition s_DIRK43 : scheme := @Scheme "DIRK43" [::] 2 tab_DIRK43.

(* butcher.py lines 403-413 *)
Definition tab_GAUSS_LG : table (q2_ringType 3) := @Table (q2_ringType 3)
  [:: [:: r (1) 4; x (1) 4 (-1) 6];
      [:: x (1) 4 (1) 6; r (1) 4]]
  [:: r (1) 2; r (1) 2]
  [:: x (1) 2 (-1) 6; x (1) 2 (1) 6]
  None
  4 3.
Definition s_GAUSS_LG : scheme := @Scheme "GAUSS_LG" [:: "GAUSS-LG"] 3 tab_GAUSS_LG.

(* butcher.py lines 416-430 *)
Definition tab_SDIRK54 : table (q2_ringType 2) := @Table (q2_ringType 2)
  [:: [:: r (1) 4; n0; n0; n0; n0];
      [:: r (1) 2; r (1) 4; n0; n0; n0];
      [:: r (17) 50; r (-1) 25; r (1) 4; n0; n0];
      [:: r (371) 1360; r (-137) 2720; r (15) 544; r (1) 4; n0];
      [:: r (25) 24; r (-49) 48; r (125) 16; r (-85) 12; r (1) 4]]
  [:: r (25) 24; r (-49) 48; r (125) 16; r (-85) 12; r (1) 4]
  [:: r (1) 4; r (3) 4; r (11) 20; r (1) 2; n1]
  None
  4 3.
Definition s_SDIRK54 : scheme := @Scheme "SDIRK54" [::] 2 tab_SDIRK54.

(* butcher.py lines 433-450 *)
Definition tab_EDIRK43 : table (q2_ringType 2) := @Table (q2_ringType 2)
  [:: [:: r (5) 6; n0; n0; n0];
      [:: r (-15) 26; r (5) 6; n0; n0];
      [:: r (215) 54; r (-130) 27; r (5) 6; n0];
      [:: r (4007) 6075; r (-31031) 24300; r (-133) 2700; r (5) 6]]
  [:: r (61) 150; r (2197) 2100; r (19) 100; r (-9) 14]
  [:: r (5) 6; r (10) 39; n0; r (1) 6]
  (Some [:: r (32) 75; r (169) 300; r (1) 100; n0])
  4 3.
Definition s_EDIRK43 : scheme := @Scheme "EDIRK43" [::] 2 tab_EDIRK43.

(* butcher.py lines 453-469 *)
Definition tab_EDIRK4 : table (q2_ringType 2) := @Table (q2_ringType 2)
  [:: [:: n0; n0; n0; n0];
      [:: r (3) 4; r (3) 4; n0; n0];
      [:: r (149) 225; r (-119) 225; r (19) 15; n0];
      [:: r (13) 42; r (2) 1; r (-125) 42; r (5) 3]]
  [:: r (13) 42; r (2) 1; r (-125) 42; r (5) 3]
  [:: n0; r (3) 2; r (7) 5; n1]
  None
  4 3.
Definition s_EDIRK4 : scheme := @Scheme "EDIRK4" [::] 2 tab_EDIRK4.

(* butcher.py lines 472-527 *)
Definition tab_ESDIRK43 : table (q2_ringType 2) := @Table (q2_ringType 2)
  [:: [:: n0; n0; n0; n0; n0; n0];
      [:: r (1) 4; r (1) 4; n0; n0; n0; n0];
      [:: x (1) 8 (-1) 8; x (1) 8 (-1) 8; r (1) 4; n0; n0; n0];
      [:: x (5) 64 (-7) 64; x (5) 64 (-7) 64; x (7) 32 (7) 32; r (1) 4; n0; n0];
      [:: x (-3449) 31250 (-54539) 125000; x (-3449) 31250 (-54539) 125000; x (101321) 87500 (132109) 437500; x (-16102) 109375 (62416) 109375; r (1) 4; n0];
      [:: x (1181) 13782 (-329) 4594; x (1181) 13782 (-329) 4594; x (-12549) 273343 (83801) 273343; x (366752) 571953 (-18800) 190651; x (-1515625) 90749876 (-1468750) 22687469; r (1) 4]]
  [:: x (1181) 13782 (-329) 4594; x (1181) 13782 (-329) 4594; x (-12549) 273343 (83801) 273343; x (366752) 571953 (-18800) 190651; x (-1515625) 90749876 (-1468750) 22687469; r (1) 4]
  [:: n0; r (1) 2; x (1) 2 (-1) 4; r (5) 8; r (26) 25; n1]
  (Some [:: r (-480923228411) 4982971448372; r (-480923228411) 4982971448372; r (6709447293961) 12833189095359; r (3513175791894) 6748737351361; r (-498863281070) 6042575550617; r (2077005547802) 8945017530137])
  4 3.
Definition s_ESDIRK43 : scheme := @Scheme "ESDIRK43" [::] 2 tab_ESDIRK43.

(* butcher.py lines 531-587 *)
Definition tab_ESDIRK53 : table (q2_ringType 2) := @Table (q2_ringType 2)
  [:: [:: n0; n0; n0; n0; n0; n0];
      [:: r (3282482714977) 11805205429139; r (3282482714977) 11805205429139; n0; n0; n0; n0];
      [:: r (606638434273) 1934588254988; r (2719561380667) 6223645057524; r (3282482714977) 11805205429139; n0; n0; n0];
      [:: r (-651839358321) 6893317340882; r (-1510159624805) 11312503783159; r (235043282255) 4700683032009; r (3282482714977) 11805205429139; n0; n0];
      [:: r (-5266892529762) 23715740857879; r (-1007523679375) 10375683364751; r (521543607658) 16698046240053; r (514935039541) 7366641897523; r (3282482714977) 11805205429139; n0];
      [:: r (-6225479754948) 6925873918471; r (6894665360202) 11185215031699; r (-2508324082331) 20512393166649; r (-7289596211309) 4653106810017; r (39811658682819) 14781729060964; r (3282482714977) 11805205429139]]
  [:: r (-6225479754948) 6925873918471; r (6894665360202) 11185215031699; r (-2508324082331) 20512393166649; r (-7289596211309) 4653106810017; r (39811658682819) 14781729060964; r (3282482714977) 11805205429139]
  [:: n0; r (4024571134387) 7237035672548; r (14228244952610) 13832614967709; r (1) 10; r (3) 50; n1]
  (Some [:: r (-2512930284403) 5616797563683; r (5849584892053) 8244045029872; r (-718651703996) 6000050726475; r (-18982822128277) 13735826808854; r (23127941173280) 11608435116569; r (2847520232427) 11515777524847])
  5 3.
Definition s_ESDIRK53 : scheme := @Scheme "ESDIRK53" [::] 2 tab_ESDIRK53.

(* butcher.py lines 593-666 *)
Definition tab_ARK548L2SAERK : table (q2_ringType 2) := @Table (q2_ringType 2)
  [:: [:: n0; n0; n0; n0; n0; n0; n0; n0];
      [:: r (41) 100; n0; n0; n0; n0; n0; n0; n0];
      [:: r (367902744464) 2072280473677; r (677623207551) 8224143866563; n0; n0; n0; n0; n0; n0];
      [:: r (1268023523408) 10340822734521; n0; r (1029933939417) 13636558850479; n0; n0; n0; n0; n0];
      [:: r (14463281900351) 6315353703477; n0; r (66114435211212) 5879490589093; r (-54053170152839) 4284798021562; n0; n0; n0; n0];
      [:: r (14090043504691) 34967701212078; n0; r (15191511035443) 11219624916014; r (-18461159152457) 12425892160975; r (-281667163811) 9011619295870; n0; n0; n0];
      [:: r (19230459214898) 13134317526959; n0; r (21275331358303) 2942455364971; r (-38145345988419) 4862620318723; r (-1) 8; r (-1) 8; n0; n0];
      [:: r (-19977161125411) 11928030595625; n0; r (-40795976796054) 6384907823539; r (177454434618887) 12078138498510; r (782672205425) 8267701900261; r (-69563011059811) 9646580694205; r (7356628210526) 4942186776405; n0]]
  [:: r (-872700587467) 9133579230613; n0; n0; r (22348218063261) 9555858737531; r (-1143369518992) 8141816002931; r (-39379526789629) 19018526304540; r (32727382324388) 42900044865799; r (41) 200]
  [:: n0; r (41) 100; r (2935347310677) 11292855782101; r (1426016391358) 7196633302097; r (23) 25; r (6) 25; r (3) 5; n1]
  (Some [:: r (-975461918565) 9796059967033; n0; n0; r (78070527104295) 32432590147079; r (-548382580838) 3424219808633; r (-33438840321285) 15594753105479; r (3629800801594) 4656183773603; r (4035322873751) 18575991585200])
  5 4.
Definition s_ARK548L2SAERK : scheme := @Scheme "ARK548L2SAERK" [::] 2 tab_ARK548L2SAERK.

(* butcher.py lines 669-716; b, c, b2, order inherited from ARK548L2SAERK *)
Definition tab_ARK548L2SAESDIRK : table (q2_ringType 2) := @Table (q2_ringType 2)
  [:: [:: n0; n0; n0; n0; n0; n0; n0; n0];
      [:: r (41) 200; r (41) 200; n0; n0; n0; n0; n0; n0];
      [:: r (41) 400; r (-567603406766) 11931857230679; r (41) 200; n0; n0; n0; n0; n0];
      [:: r (683785636431) 9252920307686; n0; r (-110385047103) 1367015193373; r (41) 200; n0; n0; n0; n0];
      [:: r (3016520224154) 10081342136671; n0; r (30586259806659) 12414158314087; r (-22760509404356) 11113319521817; r (41) 200; n0; n0; n0];
      [:: r (218866479029) 1489978393911; n0; r (638256894668) 5436446318841; r (-1179710474555) 5321154724896; r (-60928119172) 8023461067671; r (41) 200; n0; n0];
      [:: r (1020004230633) 5715676835656; n0; r (25762820946817) 25263940353407; r (-2161375909145) 9755907335909; r (-211217309593) 5846859502534; r (-4269925059573) 7827059040749; r (41) 200; n0];
      [:: r (-872700587467) 9133579230613; n0; n0; r (22348218063261) 9555858737531; r (-1143369518992) 8141816002931; r (-39379526789629) 19018526304540; r (32727382324388) 42900044865799; r (41) 200]]
  [:: r (-872700587467) 9133579230613; n0; n0; r (22348218063261) 9555858737531; r (-1143369518992) 8141816002931; r (-39379526789629) 19018526304540; r (32727382324388) 42900044865799; r (41) 200]
  [:: n0; r (41) 100; r (2935347310677) 11292855782101; r (1426016391358) 7196633302097; r (23) 25; r (6) 25; r (3) 5; n1]
  (Some [:: r (-975461918565) 9796059967033; n0; n0; r (78070527104295) 32432590147079; r (-548382580838) 3424219808633; r (-33438840321285) 15594753105479; r (3629800801594) 4656183773603; r (4035322873751) 18575991585200])
  5 5.
Definition s_ARK548L2SAESDIRK : scheme := @Scheme "ARK548L2SAESDIRK" [::] 2 tab_ARK548L2SAESDIRK.

(* butcher.py lines 719-780 *)
Definition tab_ARK548L2SAESDIRK2 : table (q2_ringType 2) := @Table (q2_ringType 2)
  [:: [:: n0; n0; n0; n0; n0; n0; n0; n0];
      [:: r (2) 9; r (2) 9; n0; n0; n0; n0; n0; n0];
      [:: r (2366667076620) 8822750406821; r (2366667076620) 8822750406821; r (2) 9; n0; n0; n0; n0; n0];
      [:: r (-257962897183) 4451812247028; r (-257962897183) 4451812247028; r (128530224461) 14379561246022; r (2) 9; n0; n0; n0; n0];
      [:: r (-486229321650) 11227943450093; r (-486229321650) 11227943450093; r (-225633144460) 6633558740617; r (1741320951451) 6824444397158; r (2) 9; n0; n0; n0];
      [:: r (621307788657) 4714163060173; r (621307788657) 4714163060173; r (-125196015625) 3866852212004; r (940440206406) 7593089888465; r (961109811699) 6734810228204; r (2) 9; n0; n0];
      [:: r (2036305566805) 6583108094622; r (2036305566805) 6583108094622; r (-3039402635899) 4450598839912; r (-1829510709469) 31102090912115; r (-286320471013) 6931253422520; r (8651533662697) 9642993110008; r (2) 9; n0];
      [:: n0; n0; r (3517720773327) 20256071687669; r (4569610470461) 17934693873752; r (2819471173109) 11655438449929; r (3296210113763) 10722700128969; r (-1142099968913) 5710983926999; r (2) 9]]
  [:: n0; n0; r (3517720773327) 20256071687669; r (4569610470461) 17934693873752; r (2819471173109) 11655438449929; r (3296210113763) 10722700128969; r (-1142099968913) 5710983926999; r (2) 9]
  [:: n0; r (4) 9; r (6456083330201) 8509243623797; r (1632083962415) 14158861528103; r (6365430648612) 17842476412687; r (18) 25; r (191) 200; n1]
  (Some [:: n0; n0; r (520639020421) 8300446712847; r (4550235134915) 17827758688493; r (1482366381361) 6201654941325; r (5551607622171) 13911031047899; r (-5266607656330) 36788968843917; r (1074053359553) 5740751784926])
  5 4.
Definition s_ARK548L2SAESDIRK2 : scheme := @Scheme "ARK548L2SAESDIRK2" [::] 2 tab_ARK548L2SAESDIRK2.

(* butcher.py lines 783-817; b, c, b2, order inherited from ARK548L2SAESDIRK2 *)
Definition tab_ARK548L2SAERK2 : table (q2_ringType 2) := @Table (q2_ringType 2)
  [:: [:: n0; n0; n0; n0; n0; n0; n0; n0];
      [:: r (4) 9; n0; n0; n0; n0; n0; n0; n0];
      [:: r (1) 9; r (1183333538310) 1827251437969; n0; n0; n0; n0; n0; n0];
      [:: r (895379019517) 9750411845327; r (477606656805) 13473228687314; r (-112564739183) 9373365219272; n0; n0; n0; n0; n0];
      [:: r (-4458043123994) 13015289567637; r (-2500665203865) 9342069639922; r (983347055801) 8893519644487; r (2185051477207) 2551468980502; n0; n0; n0; n0];
      [:: r (-167316361917) 17121522574472; r (1605541814917) 7619724128744; r (991021770328) 13052792161721; r (2342280609577) 11279663441611; r (3012424348531) 12792462456678; n0; n0; n0];
      [:: r (6680998715867) 14310383562358; r (5029118570809) 3897454228471; r (2415062538259) 6382199904604; r (-3924368632305) 6964820224454; r (-4331110370267) 15021686902756; r (-3944303808049) 11994238218192; n0; n0];
      [:: r (2193717860234) 3570523412979; r (2193717860234) 3570523412979; r (5952760925747) 18750164281544; r (-4412967128996) 6196664114337; r (4151782504231) 36106512998704; r (572599549169) 6265429158920; r (-457874356192) 11306498036315; n0]]
  [:: n0; n0; r (3517720773327) 20256071687669; r (4569610470461) 17934693873752; r (2819471173109) 11655438449929; r (3296210113763) 10722700128969; r (-1142099968913) 5710983926999; r (2) 9]
  [:: n0; r (4) 9; r (6456083330201) 8509243623797; r (1632083962415) 14158861528103; r (6365430648612) 17842476412687; r (18) 25; r (191) 200; n1]
  (Some [:: n0; n0; r (520639020421) 8300446712847; r (4550235134915) 17827758688493; r (1482366381361) 6201654941325; r (5551607622171) 13911031047899; r (-5266607656330) 36788968843917; r (1074053359553) 5740751784926])
  5 4.
Definition s_ARK548L2SAERK2 : scheme := @Scheme "ARK548L2SAERK2" [::] 2 tab_ARK548L2SAERK2.

(* butcher.py lines 820-851 *)
Definition tab_ARK324L2SAERK : table (q2_ringType 2) := @Table (q2_ringType 2)
  [:: [:: n0; n0; n0; n0];
      [:: r (1767732205903) 2027836641118; n0; n0; n0];
      [:: r (5535828885825) 10492691773637; r (788022342437) 10882634858940; n0; n0];
      [:: r (6485989280629) 16251701735622; r (-4246266847089) 9704473918619; r (10755448449292) 10357097424841; n0]]
  [:: r (1471266399579) 7840856788654; r (-4482444167858) 7529755066697; r (11266239266428) 11593286722821; r (1767732205903) 4055673282236]
  [:: n0; r (1767732205903) 2027836641118; r (3) 5; n1]
  (Some [:: r (2756255671327) 12835298489170; r (-10771552573575) 22201958757719; r (9247589265047) 10645013368117; r (2193209047091) 5459859503100])
  3 2.
Definition s_ARK324L2SAERK : scheme := @Scheme "ARK324L2SAERK" [::] 2 tab_ARK324L2SAERK.

(* butcher.py lines 854-870; b, c, b2, order inherited from ARK324L2SAERK *)
Definition tab_ARK324L2SAESDIRK : table (q2_ringType 2) := @Table (q2_ringType 2)
  [:: [:: n0; n0; n0; n0];
      [:: r (1767732205903) 4055673282236; r (1767732205903) 4055673282236; n0; n0];
      [:: r (2746238789719) 10658868560708; r (-640167445237) 6845629431997; r (1767732205903) 4055673282236; n0];
      [:: r (1471266399579) 7840856788654; r (-4482444167858) 7529755066697; r (11266239266428) 11593286722821; r (1767732205903) 4055673282236]]
  [:: r (1471266399579) 7840856788654; r (-4482444167858) 7529755066697; r (11266239266428) 11593286722821; r (1767732205903) 4055673282236]
  [:: n0; r (1767732205903) 2027836641118; r (3) 5; n1]
  (Some [:: r (2756255671327) 12835298489170; r (-10771552573575) 22201958757719; r (9247589265047) 10645013368117; r (2193209047091) 5459859503100])
  3 2.
Definition s_ARK324L2SAESDIRK : scheme := @Scheme "ARK324L2SAESDIRK" [::] 2 tab_ARK324L2SAESDIRK.

(* butcher.py lines 873-892 *)
Definition tab_ARK222EDIRK : table (q2_ringType 2) := @Table (q2_ringType 2)
  [:: [:: n0; n0; n0];
      [:: n0; x (1) 1 (-1) 2; n0];
      [:: n0; x (0) 1 (1) 2; x (1) 1 (-1) 2]]
  [:: n0; x (0) 1 (1) 2; x (1) 1 (-1) 2]
  [:: n0; x (1) 1 (-1) 2; n1]
  None
  2 1.
Definition s_ARK222EDIRK : scheme := @Scheme "ARK222EDIRK" [::] 2 tab_ARK222EDIRK.

(* butcher.py lines 895-904; c, order inherited from ARK222EDIRK *)
Definition tab_ARK222ERK : table (q2_ringType 2) := @Table (q2_ringType 2)
  [:: [:: n0; n0; n0];
      [:: x (1) 1 (-1) 2; n0; n0];
      [:: x (0) 1 (-1) 2; x (1) 1 (1) 2; n0]]
  [:: x (0) 1 (-1) 2; x (1) 1 (1) 2; n0]
  [:: n0; x (1) 1 (-1) 2; n1]
  None
  2 1.
Definition s_ARK222ERK : scheme := @Scheme "ARK222ERK" [::] 2 tab_ARK222ERK.

(* butcher.py lines 907-926 *)
Definition tab_ARK443ESDIRK : table (q2_ringType 2) := @Table (q2_ringType 2)
  [:: [:: n0; n0; n0; n0; n0];
      [:: n0; r (1) 2; n0; n0; n0];
      [:: n0; r (1) 6; r (1) 2; n0; n0];
      [:: n0; r (-1) 2; r (1) 2; r (1) 2; n0];
      [:: n0; r (3) 2; r (-3) 2; r (1) 2; r (1) 2]]
  [:: n0; r (3) 2; r (-3) 2; r (1) 2; r (1) 2]
  [:: n0; r (1) 2; r (2) 3; r (1) 2; n1]
  None
  3 2.
Definition s_ARK443ESDIRK : scheme := @Scheme "ARK443ESDIRK" [::] 2 tab_ARK443ESDIRK.

(* butcher.py lines 929-940; c, order inherited from ARK443ESDIRK *)
Definition tab_ARK443ERK : table (q2_ringType 2) := @Table (q2_ringType 2)
  [:: [:: n0; n0; n0; n0; n0];
      [:: r (1) 2; n0; n0; n0; n0];
      [:: r (11) 18; r (1) 18; n0; n0; n0];
      [:: r (5) 6; r (-5) 6; r (1) 2; n0; n0];
      [:: r (1) 4; r (7) 4; r (3) 4; r (-7) 4; n0]]
  [:: r (1) 4; r (7) 4; r (3) 4; r (-7) 4; n0]
  [:: n0; r (1) 2; r (2) 3; r (1) 2; n1]
  None
  3 2.
Definition s_ARK443ERK : scheme := @Scheme "ARK443ERK" [::] 2 tab_ARK443ERK.

(* butcher.py lines 942-959 *)
Definition tab_ARK343ESDIRK : table (q2_ringType 2) := @Table (q2_ringType 2)
  [:: [:: n0; n0; n0; n0];
      [:: n0; r (871733043) 2000000000; n0; n0];
      [:: n0; r (2754558) 9765625; r (4256509) 9765625; n0];
      [:: n0; r (2416993299) 2000000000; r (-644363171) 1000000000; r (871733043) 2000000000]]
  [:: n0; r (2416993299) 2000000000; r (-644363171) 1000000000; r (871733043) 2000000000]
  [:: n0; r (871733043) 2000000000; r (7011067) 9765625; n1]
  None
  3 2.
Definition s_ARK343ESDIRK : scheme := @Scheme "ARK343ESDIRK" [::] 2 tab_ARK343ESDIRK.

(* butcher.py lines 962-974; b, c inherited from ARK343ESDIRK *)
Definition tab_ARK343ERK : table (q2_ringType 2) := @Table (q2_ringType 2)
  [:: [:: n0; n0; n0; n0];
      [:: r (871733043) 2000000000; n0; n0; n0];
      [:: r (160639443) 500000000; r (3966543747) 10000000000; n0; n0];
      [:: r (-13232287) 125000000; r (5529291479) 10000000000; r (5529291479) 10000000000; n0]]
  [:: n0; r (2416993299) 2000000000; r (-644363171) 1000000000; r (871733043) 2000000000]
  [:: n0; r (871733043) 2000000000; r (7011067) 9765625; n1]
  None
  4 3.
Definition s_ARK343ERK : scheme := @Scheme "ARK343ERK" [::] 2 tab_ARK343ERK.

(* butcher.py lines 977-999 *)
Definition tab_ARK4EDIRK : table (q2_ringType 2) := @Table (q2_ringType 2)
  [:: [:: n0; n0; n0; n0; n0; n0; n0];
      [:: r (-1) 6; r (1) 2; n0; n0; n0; n0; n0];
      [:: r (1) 6; r (-1) 3; r (1) 2; n0; n0; n0; n0];
      [:: r (3) 8; r (-3) 8; n0; r (1) 2; n0; n0; n0];
      [:: r (1) 8; n0; r (3) 8; r (-1) 2; r (1) 2; n0; n0];
      [:: r (-1) 2; n0; r (3) 1; r (-3) 1; n1; r (1) 2; n0];
      [:: r (1) 6; n0; n0; n0; r (2) 3; r (-1) 2; r (2) 3]]
  [:: r (1) 6; n0; n0; n0; r (2) 3; r (-1) 2; r (2) 3]
  [:: n0; r (1) 3; r (1) 3; r (1) 2; r (1) 2; n1; n1]
  None
  4 3.
Definition s_ARK4EDIRK : scheme := @Scheme "ARK4EDIRK" [::] 2 tab_ARK4EDIRK.

(* butcher.py lines 1002-1017; c, order inherited from ARK4EDIRK *)
Definition tab_ARK4ERK : table (q2_ringType 2) := @Table (q2_ringType 2)
  [:: [:: n0; n0; n0; n0; n0; n0; n0];
      [:: r (1) 3; n0; n0; n0; n0; n0; n0];
      [:: r (1) 6; r (1) 6; n0; n0; n0; n0; n0];
      [:: r (1) 8; n0; r (3) 8; n0; n0; n0; n0];
      [:: r (1) 8; n0; r (3) 8; n0; n0; n0; n0];
      [:: r (1) 2; n0; r (-3) 2; n0; r (2) 1; n0; n0];
      [:: r (1) 6; n0; n0; n0; r (2) 3; r (1) 6; n0]]
  [:: r (1) 6; n0; n0; n0; r (2) 3; r (1) 6; n0]
  [:: n0; r (1) 3; r (1) 3; r (1) 2; r (1) 2; n1; n1]
  None
  4 3.
Definition s_ARK4ERK : scheme := @Scheme "ARK4ERK" [::] 2 tab_ARK4ERK.

(* all registered schemes, in the order of registration (RK_SCHEMES) *)
Definition schemes : seq scheme :=
  [:: s_FE;
      s_RK21;
      s_RK2;
      s_HEUN2;
      s_RK32;
      s_RK33;
      s_RK53;
      s_RK4;
      s_RK4_38;
      s_RK65;
      s_CashKarp;
      s_BE;
      s_MidPoint;
      s_TRAP;
      s_SDIRK2;
      s_SDIRK2_2;
      s_SDIRK3;
      s_DIRK43;
      s_GAUSS_LG;
      s_SDIRK54;
      s_EDIRK43;
      s_EDIRK4;
      s_ESDIRK43;
      s_ESDIRK53;
      s_ARK548L2SAERK;
      s_ARK548L2SAESDIRK;
      s_ARK548L2SAESDIRK2;
      s_ARK548L2SAERK2;
      s_ARK324L2SAERK;
      s_ARK324L2SAESDIRK;
      s_ARK222EDIRK;
      s_ARK222ERK;
      s_ARK443ESDIRK;
      s_ARK443ERK;
      s_ARK343ESDIRK;
      s_ARK343ERK;
      s_ARK4EDIRK;
      s_ARK4ERK].

(* the table with its numbers in a field F where sq plays the role of the square root *)
Definition table_in (F : numFieldType) (sq : F) (d : nat) (t : table (q2_ringType d)) : table F :=
  let f := q2v sq in
  @Table F [seq [seq f a | a <- row] | row <- tA t] [seq f a | a <- tb t] [seq f a | a <- tc t]
    (omap (map f) (tb2 t)) (torder t) (torderE t).
Definition scheme_table (F : numFieldType) (sq : F) (sc : scheme) : table F :=
  table_in sq (s_tab sc).
