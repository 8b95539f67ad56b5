(** Pauli and Clifford operators, without reference to the generator. *)
From Coq Require Import Reals List Arith Bool.
From Verif Require Import Cplx Qsem GateModel IRModel IRSpec AlgoModel.
Import ListNotations.

(** The Pauli operators on the qubits below [n]: products of X, Z and i. *)
Definition opX (q : nat) (psi : state) : state := fun v => psi (setb v q (negb (v q))).
Definition opZ (q : nat) (psi : state) : state := fun v => ((if v q then - C1 else C1) * psi v)%C.
Inductive pauli_op (n : nat) : (state -> state) -> Prop :=
| po_id : pauli_op n (fun psi => psi)
| po_X q : q < n -> pauli_op n (opX q)
| po_Z q : q < n -> pauli_op n (opZ q)
| po_i : pauli_op n (sscal Ci)
| po_comp f g : pauli_op n f -> pauli_op n g -> pauli_op n (fun psi => f (g psi)).
(** Conjugation with a Clifford operator maps Pauli operators to Pauli operators. *)
Definition clifford_op (n : nat) (U : state -> state) : Prop :=
  forall f, pauli_op n f -> exists g, pauli_op n g /\ forall psi, U (f psi) = g (U psi).
(** The operator of a list of operations without measurements. *)
Definition denotes (l : list cop) (U : state -> state) : Prop := forall psi m, run l (psi, m) = [(U psi, m)].
(** Equality up to a factor. *)
Definition same_operator (l l' : list cop) : Prop :=
  exists U V, denotes l U /\ denotes l' V /\ exists c, forall psi, U psi = sscal c (V psi).
(** Circuits of Clifford gates on one qubit, and on two. *)
Inductive gates1 (q : nat) : list cop -> Prop :=
| s_nil : gates1 q []
| s_gate t l : In t [gH; gS; gSdg; gX; gY; gZ] -> gates1 q l -> gates1 q (l ++ [g1 t q]).
(** The first qubits of the pairs of a layer: every other pair of neighbours, from 0 in the layers 0, 2, ...
    and from 1 in the others; with two qubits there is only one pair. *)
Definition bricks (nq l : nat) : list nat := filter (fun i => Nat.eqb nq 2 || Nat.eqb (i mod 2) (l mod 2)) (seq 0 (nq - 1)).
(** The elements of a list with their positions. *)
Definition numbered {A} (l : list A) : list (nat * A) := combine (seq 0 (length l)) l.
