(* Property C64: sweeps built from a collocation object on an arbitrary interval. *)
From Coq Require Import ZArith QArith Qcanon.
From Verif.Base Require Import Str.
From mathcomp Require Import all_ssreflect all_algebra ring zify.
From Verif.Base Require Import QcField Outcome Arr Ext.
From Verif.Model Require Import Lagrange QGen Nodes Collocation Sweeps.
From Verif.Spec Require Import LagrangeSpec NodesSpec CollSpec SweepSpec.
From Verif.Proofs Require Import LagrangeP LagrangeInit LagrangeThms OrthoP NodesP NodesThms CollP NilP.
From Verif.Properties Require Import CollProps TimeStepProps DiagProps.
Set Implicit Arguments.
Unset Strict Implicit.
Unset Printing Implicit Defensive.
Import GRing.Theory Num.Theory Order.TTheory.
Local Open Scope ring_scope.

Section Props.
Variable F : realFieldType.
Variables (fpi : F) (eigh : seq F -> seq F -> seq F) (fsqrt : F -> F).
Variables (flog fexp : F -> F) (underflow : seq F -> bool).
Variables (leggauss roots_legendre fejer : nat -> outcome (seq F * seq F)).
Variable tr : F -> F.
Notation cinit := (coll_init fpi eigh fsqrt flog fexp underflow leggauss roots_legendre fejer).
Variables (nt qt : string) (M : nat) (a b : F).
Hypothesis ok : nodes_ok fpi eigh fsqrt nt qt M.
Hypothesis ab : a < b.
Hypothesis lg : logs_all flog fexp underflow.
Hypothesis rl : rules_ok leggauss roots_legendre fejer M "FEJER".
Variable c : coll F.
Hypothesis ec : cinit M%:Z nt qt a b = Ok c.

(* applied to the constant 1, the sweep and Q agree at every node *)
Definition same_sums (A Q : seq (seq F)) (dTau : seq F) : Prop :=
  forall i, (i < M)%N -> vsum (nth [::] A i) + nth 0 dTau i = vsum (nth [::] Q i).

(* C64: TimeStepping.extractParams passes the nodes only, so that tLeft has its default 0 *)
Theorem C64_timestep self Q : ts_init tr false (co_nodes c) 0 = Ok self -> co_Q c = fmat Q ->
  (same_sums (qd_BE self) Q (dTau_zero F M) <-> a = 0) /\
  (same_sums (qd_FE self) Q (dTau_FE self) <-> a = 0) /\
  (same_sums (qd_TRAP self) Q (dTau_TRAP self) <-> a = 0).
Proof.
move=> es eQ; have [z _] := C21_nodes ok ab lg rl ec.
have [Q' [w [eQ' [_ [sQ [_ [_ [rs _]]]]]]]] := C21_exact ok ab lg rl ec.
have e : Q' = Q by apply: fmat_inj; rewrite -eQ' -eQ.
subst Q'; have M0 : (0 < M)%N by have [_ _ hM _] := ok; have [] := least_pos hM.
have [zQ _] := is_shapeP _ _ _ sQ.
have qs i : (i < M)%N -> vsum (nth [::] Q i) = nth 0 (co_nodes c) i - a.
  move=> il; have := congr1 (fun s => nth 0 s i) rs.
  by rewrite /= (nth_map [::]) ?zQ // (nth_map 0) ?z.
have nf : false -> tr (nth 0 (co_nodes c) 0 - 0) = nth 0 (co_nodes c) 0 - 0 by [].
have [c1 [c2 c3]] := C37_consistent es nf.
have gen (A : seq (seq F)) d : consistent A d (co_nodes c) 0 -> same_sums A Q d <-> a = 0.
  move=> [_ [_ h]]; rewrite z in h; split=> [ss|a0 i il]; last by rewrite h // qs // a0.
  have := ss 0%N M0; rewrite h // qs // => /(congr1 (fun x => nth 0 (co_nodes c) 0 - x)).
  by rewrite subr0 subrr subKr.
by rewrite z in c1; split; [|split]; exact: gen.
Qed.
End Props.
Print Assumptions C64_timestep.

Example C64_nonvacuous : let c := qcoll 3%:Z "EQUID" "LOBATTO" 1%R 3%:R in
  qinit 3%:Z "EQUID" "LOBATTO" 1%R 3%:R = Ok c /\ co_nodes c = [:: 1; 2%:R; 3%:R]%R /\
  let self := qts false (co_nodes c) 0%R in
  ts_init q_trunc false (co_nodes c) 0%R = Ok self /\
  qd_BE self = [:: [:: 1; 0; 0]; [:: 1; 1; 0]; [:: 1; 1; 1]]%R /\
  co_Q c = fmat [:: [:: 0; 0; 0]; [:: qc 5 12; qc 2 3; qc (-1) 12]; [:: qc 1 3; qc 4 3; qc 1 3]]%R.
Proof.
move=> c; split; first by apply: ok_orE; vm_compute.
split; first by apply/eqP; vm_compute.
move=> self; split; first by apply: ok_orE; vm_compute.
by split; apply/eqP; vm_compute.
Qed.

(* C64: MIN_SR_S and MIN_SR_FLEX always use the nodes of [0,1]; for a collocation method on [0,2]
   the sweep does not have the nilpotency of C41 and C63 *)
Theorem C64_minsr_refuted : exists c c1 Q D,
  [/\ qinit 1%:Z "EQUID" "GAUSS" 0%R 2%:R = Ok c, co_Q c = fmat Q,
      qinit 1%:Z (co_nodeType c) (co_quadType c) 0%R 1%R = Ok c1,
      qsrs (co_nodeType c) (co_quadType c) c1 None = Ok D /\
      qflex (co_nodeType c) (co_quadType c) c1 (Some 1%:Z) = Ok D &
      mpow (1%:M - invmx (mxl 1 1 D) *m mxl 1 1 Q)%R 1 <> 0%R].
Proof.
exists (qcoll 1%:Z "EQUID" "GAUSS" 0%R 2%:R), (qcoll 1%:Z "EQUID" "GAUSS" 0%R 1%R), [:: [:: qc 1 1]], [:: [:: qc 1 2]]; split.
- by apply: ok_orE; vm_compute.
- by apply/eqP; vm_compute.
- by apply: ok_orE; vm_compute.
- by split; apply: ok_eqP; vm_compute.
have e : mxl 1 1 [:: [:: qc 2 1]] *m mxl 1 1 [:: [:: qc 1 2]] = 1%:M.
  by rewrite -(mxl_mm (k := 1)) // -mxl_eye; congr mxl; apply/eqP; vm_compute.
have [_ uD] := mulmx1_unit e.
have -> : invmx (mxl 1 1 [:: [:: qc 1 2]]) = mxl 1 1 [:: [:: qc 2 1]] by rewrite -[RHS]mulmx1 -(mulmxV uD) mulmxA e mul1mx.
rewrite /mpow /= mulmx1 => /matrixP /(_ ord0 ord0).
rewrite !mxE big_ord_recl big_ord0 !mxE => /eqP; by vm_compute.
Qed.
Print Assumptions C64_minsr_refuted.
