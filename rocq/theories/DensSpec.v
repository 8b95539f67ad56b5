(** Measurement of one qubit of a density matrix on n qubits. *)
From Coq Require Import Reals List Bool Arith.
From Verif Require Import Cplx Qsem DDModel DDSpec.
Import ListNotations.

(** P rho P for the projector on the value i of qubit q *)
Definition projected (q : nat) (i : bool) (A : bits -> bits -> C) (r c : bits) : C :=
  if Bool.eqb (r q) i && Bool.eqb (c q) i then A r c else C0.
(** The trace of P rho P *)
Definition born (n q : nat) (i : bool) (A : bits -> bits -> C) : C := bsum n (fun b => projected q i A b b) (fun _ => false).
(** The matrix of a pure state: all minors vanish *)
Definition pure (A : bits -> bits -> C) : Prop := forall r c r' c', (A r c * A r' c' = A r c' * A r' c)%C.
(** The diagonal blocks of a diagram have a node on every level, except below zero edges *)
Fixpoint full (n : nat) (w : C) (t : mtree) : Prop :=
  match t with
  | MT => n = 0%nat \/ w = C0
  | MNode v ws s => n = S v /\ forall i, full v (ws i i) (s i i)
  end.
