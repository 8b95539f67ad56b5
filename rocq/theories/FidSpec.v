(** Overlap of an outcome distribution with a state. *)
From Coq Require Import Reals List Arith.
From Verif Require Import Cplx Qsem DDModel DDSpec TravModel TravSpec.
Import ListNotations.
Local Open Scope R_scope.

Definition Rsum (l : list R) : R := fold_right Rplus 0 l.
Definition sumBelow (m : nat) (f : nat -> R) : R := Rsum (map f (seq 0 m)).
(** Outcomes that are not listed have probability zero *)
Definition prob (probs : list (nat * R)) (i : nat) : R := match look Nat.eq_dec i probs with Some p => p | None => 0 end.
(** Physical qubit p holds logical qubit l for every (p, l): the outcome that belongs to the basis state i *)
Definition outcome_of (perm : list (nat * nat)) (i j : nat) : Prop := forall p l, In (p, l) perm -> Nat.testbit j l = Nat.testbit i p.
(** All n qubits, each once *)
Definition full (n : nat) (perm : list (nat * nat)) : Prop :=
  length perm = n /\ NoDup (map fst perm) /\ NoDup (map snd perm) /\ forall p l, In (p, l) perm -> (p < n)%nat /\ (l < n)%nat.
