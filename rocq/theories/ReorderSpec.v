(** What reordering may do to a circuit. *)
From Coq Require Import Reals List Arith Bool NArith.
From Verif Require Import Cplx Qsem GateModel GateSpec IRModel IRSpec OptModel OptSem OptFinalProofs.
Import ListNotations.
Local Open Scope list_scope.

(** No qubit in common. *)
Definition disjoint (a b : cop) : Prop := forall q, In q (used a) -> ~ In q (used b).

(** Reachable by exchanging neighbouring operations without a qubit in common. *)
Inductive swaps : list cop -> list cop -> Prop :=
| sw_refl l : swaps l l
| sw_swap A a b B : disjoint a b -> swaps (A ++ a :: b :: B) (A ++ b :: a :: B)
| sw_trans l m n : swaps l m -> swaps m n -> swaps l n.

(** All qubits are below [n]. *)
Definition within (n : nat) (l : list cop) : Prop := forall o q, In o l -> In q (used o) -> q < n.
(** The operations that use any qubit at all. *)
Definition touching (l : list cop) : list cop := filter (fun o => match used o with [] => false | _ => true end) l.
(** The operations on qubit [q], in order. *)
Definition on_qubit (q : nat) (l : list cop) : list cop := filter (fun o => existsb (Nat.eqb q) (used o)) l.

(** Neither operation writes a classical bit that the other one reads or
    writes. *)
Definition no_race (a b : cop) : Prop :=
  forall c, (In c (cwrites a) -> ~ In c (creads b) /\ ~ In c (cwrites b)) /\ (In c (cwrites b) -> ~ In c (creads a)).
(** Operations that share classical bits also share a qubit. *)
Definition race_free (l : list cop) : Prop := forall a b, In a l -> In b l -> disjoint a b -> no_race a b.

(** Operations on which equality of operations is sound (C26): no qubit is
    twice a control, no controlled RZ or RZZ. *)
Fixpoint equatable (o : cop) : Prop :=
  match o with
  | OStd s => NoDup (map fst (o_ctl s)) /\ ((o_type s = gRZ \/ o_type s = gRZZ) -> o_ctl s = [])
  | OClass _ o' => equatable o'
  | OComp _ l => (fix go l := match l with [] => True | o :: l' => equatable o /\ go l' end) l
  | _ => True
  end.
(** The operations that the test for inverses treats faithfully. *)
Record plain (o : cop) : Prop := {
  pl_ok : op_ok o;
  pl_local : local o;
  pl_used : used o <> [];
  pl_eq : equatable o
}.
