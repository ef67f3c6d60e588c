(* Vocabulary used to state the properties of Collocation. *)
From Verif.Base Require Import Str.
From mathcomp Require Import all_ssreflect all_algebra.
From Verif.Base Require Import Outcome Arr Ext.
From Verif.Model Require Import Nodes.
From Verif.Spec Require Import LagrangeSpec NodesSpec.
Set Implicit Arguments.
Unset Strict Implicit.
Unset Printing Implicit Defensive.
Import GRing.Theory Num.Theory Order.TTheory.
Local Open Scope ring_scope.

Section Spec.
Variable F : realFieldType.
(* what is required from the oracles of NodesGenerator for one node family and M *)
Definition nodes_ok (fpi : F) eigh fsqrt (nt qt : string) (M : nat) : Prop :=
  [/\ nt \in NODE_TYPES, qt \in QUAD_TYPES, (least_nodes qt <= M)%N &
      nt <> "EQUID"%string -> eig_contract fpi eigh fsqrt (NodesGen nt qt) M].

(* np.log / np.exp: either they satisfy their functional equations or the weights never
   underflow (they are then not evaluated) *)
Definition logs_all (flog fexp : F -> F) (underflow : seq F -> bool) : Prop :=
  exp_log flog fexp \/ forall s, underflow s = false.

(* image of x in [-1,1] in [a,b] *)
Definition node_in (a b x : F) : F := a + (b - a) * ((x + 1) / 2%:R).

(* relative and absolute tolerance of np.allclose *)
Definition far (t e : F) : Prop := 10%:R ^- 8 + 10%:R ^- 5 * `|t| < `|t - e|.
(* a node is an end point of the interval or further away from it than the tolerance *)
Definition separated (a b : F) (s : seq F) : Prop := forall x, x \in s ->
  (x <> -1 -> far (node_in a b x) a) /\ (x <> 1 -> far (node_in a b x) b).
End Spec.
